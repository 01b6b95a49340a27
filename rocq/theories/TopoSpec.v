(** What a reader needs to understand the property theorems about topologies. *)
From Coq Require Import List Bool ZArith Arith Permutation Sorted.
From Verif Require Import F64 F64Arith TreeVecModel GeomModel SegmentsModel SegmentsSpec CurveOrderModel SweepModel SweepSpec RangeModel RangeSpec TopoModel.
Import ListNotations.

(** The cyclically adjacent pairs of a list. *)
Definition cyclic {A : Type} (r : list A) : list (A * A) := combine r (tl r ++ firstn 1 r).

Section Spec.
Context {W : Type}.
Implicit Types t : topo W.
(** The clockwise and counter-clockwise neighbours of a half-segment, and its end point. *)
Definition cw t (h : half) : option half := option_map nb_cw (hv_get (t_nbrs t) h).
Definition ccw t (h : half) : option half := option_map nb_ccw (hv_get (t_nbrs t) h).
Definition pt t (h : half) : option nat := match hv_get (t_pidx t) h with Some o => o | None => None end.
(** [k] follows [h] clockwise, and [h] follows [k] counter-clockwise. *)
Definition linked t (p : half * half) : Prop := cw t (fst p) = Some (snd p) /\ ccw t (snd p) = Some (fst p).

(** The half-segments satisfying [live] are arranged in rings, one per point: [R] lists, for each point, the half-segments that
    end there, in clockwise order. *)
Record rings t (live : half -> Prop) (R : list (list half)) : Prop := {
  ri_points : length R = length (t_points t);
  ri_nodup : NoDup (concat R);
  ri_all : forall h, In h (concat R) <-> live h;
  ri_at : forall p r h, nth_error R p = Some r -> In h r -> pt t h = Some p;
  ri_linked : forall p r, nth_error R p = Some r -> Forall (linked t) (cyclic r) }.
End Spec.

(** ** Winding numbers *)
(** Winding numbers form an abelian group, and the two orientations of a segment cancel. *)
Record wops_ok {W T : Type} (ops : wops W T) : Prop := {
  wo_assoc : forall x y z, w_add ops x (w_add ops y z) = w_add ops (w_add ops x y) z;
  wo_comm : forall x y, w_add ops x y = w_add ops y x;
  wo_zero : forall x, w_add ops (w_zero ops) x = x;
  wo_inv : forall x, exists y, w_add ops x y = w_zero ops;
  wo_flip : forall g, w_add ops (w_single ops g true) (w_single ops g false) = w_zero ops;
  wo_eqb : forall x y, w_eqb ops x y = true <-> x = y }.

Section Gains.
Context {W T : Type}.
Variable ops : wops W T.
Variable a : arena.
Variable tag : list T.
(** What crossing segment [s] from left to right (going down) or, if it is horizontal, from below contributes; [same] tells whether the piece
    crossed is traversed like the segment. *)
Definition gain (s : nat) (same : bool) : W :=
  match nth_error tag s, nth_error (orientation a) s with
  | Some g, Some o => w_single ops g (Bool.eqb same o)
  | _, _ => w_zero ops
  end.
Definition orient (s : nat) : bool := match nth_error (orientation a) s with Some o => o | None => true end.
End Gains.

(** ** Reading a topology *)
Section Read.
Context {W : Type}.
Implicit Types t : topo W.
(** The half-segment [h] ends at the point [x]. *)
Definition ends_at t (h : half) (x : point) : Prop := exists p, pt t h = Some p /\ nth_error (t_points t) p = Some x.
(** The half-segments of output segments that are not deleted. *)
Definition present t (h : half) : Prop := nth_error (t_deleted t) (h_idx h) = Some false.
(** Every output segment comes from a registered input segment, goes from its first end to a later one in sweep order (down, or to
    the right if horizontal), and stays within the heights of the input segment. *)
Definition segments_run_down (a : arena) t : Prop := forall o, o < length (t_wind t) ->
  exists x y i, ends_at t (first_half o) x /\ ends_at t (second_half o) y /\ nth_error (t_orig t) o = Some i /\ registered a i /\
    point_lt x y = true /\ fle (start_y a i) (py x) = true /\ fle (py y) (end_y a i) = true.
End Read.

(** What the topology builder is given: a sweep of a sound arena whose lines are weakly ordered, and one tag per segment. *)
Record topo_input {T : Type} (tag : list T) (a : arena) (eps : f64) (cmp ccmp : nat -> nat -> curve_order) (min_x max_x : segment -> f64)
  (lower upper : segment -> f64 -> f64 -> f64) (at_y : segment -> f64 -> f64)
  (pps : nat -> ((lentry -> bool) -> list lentry -> nat) * ((lentry -> bool) -> list lentry -> nat))
  (sort_by : forall A : Type, (A -> A -> comparison) -> list A -> list A) (l : list sweeper) : Prop := {
  ti_setting : sound_setting a cmp ccmp pps sort_by;
  ti_positions : positions_numbers a eps lower upper at_y;
  ti_tags : length tag = arena_len a;
  ti_orient : length (orientation a) = arena_len a;
  ti_run : exists fuel n, sweep a eps cmp ccmp min_x max_x lower upper pps sort_by fuel n 0 (sweeper_new a) = Ok (l, true);
  ti_boxes : forall s, In s l -> boxes_ordered a eps lower upper (sw_y s) (sw_line s) }.
