(** Model of the first half of src/topology.rs [Topology::from_paths]: collecting the paths into an arena, and the check that follows. *)
From Coq Require Import List Bool ZArith Arith.
From Verif Require Import F64 F64Arith TreeVecModel GeomModel SegmentsModel CurveOrderModel SweepModel TopoModel.
Import ListNotations.

(** What [from_paths] does before it sweeps: the arena and the tags; the error [NonClosedPath]; a panic while adding a path; or a failed
    assertion in [check_invariants]. *)
Inductive collected (T : Type) : Type :=
| Collected (a : arena) (tag : list T)
| NotClosed (start_point end_point : point)
| CollectPanic
| CheckFailed.
Arguments Collected {T}. Arguments NotClosed {T}. Arguments CollectPanic {T}. Arguments CheckFailed {T}.

Section From.
Variable eval : cubic -> f64 -> point.
Variable ctrl : cubic -> f64 -> f64 -> point * point.
Variable monic : f64 -> f64 -> f64 * f64.
Variable quad_ctrl : point -> point -> point -> point * point.
Variable at_y : segment -> f64 -> f64.
Variable sort_by : ((f64 * nat) -> (f64 * nat) -> comparison) -> list (f64 * nat) -> list (f64 * nat).

(** [Vec::resize] (standard library), used at topology.rs:483. *)
Definition resize {A} (l : list A) (n : nat) (x : A) : list A := firstn n l ++ repeat x (n - length l).

(** topology.rs:479-484, the loop. *)
Fixpoint add_paths {T} (a : arena) (tag : list T) (ps : list (list pathel * T)) : collected T :=
  match ps with
  | [] => Collected a tag
  | (p, t) :: ps' =>
      match add_subpaths eval ctrl monic quad_ctrl true a (subpaths p) with
      | AddOk a1 => add_paths a1 (resize tag (arena_len a1) t) ps'
      | AddErr _ sp ep => NotClosed sp ep
      | AddPanic => CollectPanic
      end
  end.

(** segments.rs:475-483 [check_invariants]; [false] is a failed assertion or an index out of bounds. *)
Definition check_one (a : arena) (i : nat) : bool :=
  match nth_error (segs a) i with
  | None => false
  | Some s =>
      point_le (seg_start s) (seg_end s) &&
      match nth_error (contour_next a) i with
      | None => false
      | Some None => true
      | Some (Some j) =>
          match oriented_end a i, oriented_start a j with
          | Some p, Some q => point_eq p q
          | _, _ => false
          end &&
          match nth_error (contour_prev a) j with
          | Some (Some k) => k =? i
          | _ => false
          end
      end
  end.
Definition check_invariants (a : arena) : bool := forallb (check_one a) (seq 0 (arena_len a)).

(** topology.rs:475-487 [from_paths], up to the call of [from_segments]. *)
Definition collect {T} (ps : list (list pathel * T)) : collected T :=
  match add_paths arena_default [] ps with
  | Collected a1 tag =>
      match update_enter_exit at_y sort_by a1 0 with
      | Some a2 => if check_invariants a2 then Collected a2 tag else CheckFailed
      | None => CollectPanic
      end
  | r => r
  end.
End From.
