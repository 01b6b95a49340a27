(** What a reader needs to understand the theorem that contours stay connected. *)
From Coq Require Import List Bool ZArith Arith.
From Verif Require Import F64 GeomModel SegmentsModel SegmentsSpec SweepModel SweepSpec RangeModel RangeSpec TopoModel TopoSpec.
Import ListNotations.

Section Way.
Context {W : Type}.
Implicit Types t : topo W.
(** Half-segments that lead, each from its own end to the other end of its segment, from point [p] to point [q]: each begins at the point where the one before it
    arrives. *)
Inductive way t : nat -> list half -> nat -> Prop :=
| way_here p : way t p [] p
| way_step p h r hs q : pt t h = Some p -> pt t (other_half h) = Some r -> way t r hs q -> way t p (h :: hs) q.

(** The output segments of input segment [i], each traversed once, and forwards or backwards depending on whether its direction is that of [i], lead from [p] to [q]; [p] is at the height where [i] starts, [q] at the height where it ends,
    and if [i] is horizontal, at its start and at its end. *)
Record way_of (a : arena) t (i p : nat) (hs : list half) (q : nat) : Prop := {
  wy_way : way t p hs q;
  wy_once : NoDup (map h_idx hs);
  wy_all : forall o, In o (map h_idx hs) <-> nth_error (t_orig t) o = Some i;
  wy_dir : forall h, In h hs -> nth_error (t_pos t) (h_idx h) = Some (Bool.eqb (h_first h) (orient a i));
  wy_from : exists x, nth_error (t_points t) p = Some x /\ feq (py x) (start_y a i) = true /\ (slanted a i = false -> feq (px x) (start_x a i) = true);
  wy_to : exists x, nth_error (t_points t) q = Some x /\ feq (py x) (end_y a i) = true /\ (slanted a i = false -> feq (px x) (end_x a i) = true) }.
End Way.
