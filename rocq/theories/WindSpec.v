(** What a reader needs to understand the property theorems about winding numbers. *)
From Coq Require Import List Bool ZArith Arith.
From Verif Require Import F64 F64Arith TreeVecModel GeomModel SegmentsModel SegmentsSpec CurveOrderModel SweepModel SweepSpec RangeModel RangeSpec TopoModel TopoSpec.
Import ListNotations.

Section Contours.
Variable a : arena.
(** Where a contour, followed in the direction in which it was given, comes to segment [i], and where it leaves it. *)
Definition seg_tail (i : nat) : point := if orient a i then seg_start (seg_def a i) else seg_end (seg_def a i).
Definition seg_head (i : nat) : point := if orient a i then seg_end (seg_def a i) else seg_start (seg_def a i).

(** [j] follows [i] on a contour. *)
Definition follows (i j : nat) : Prop :=
  nth_error (contour_next a) i = Some (Some j) /\ nth_error (contour_prev a) j = Some (Some i) /\ point_eq (seg_head i) (seg_tail j) = true.
(** Every contour is closed, and has one tag. *)
Record closed_contours {T : Type} (tag : list T) : Prop := {
  cc_next : forall i, registered a i -> exists j, registered a j /\ follows i j /\ nth_error tag i = nth_error tag j;
  cc_prev : forall j, registered a j -> exists i, registered a i /\ follows i j /\ nth_error tag i = nth_error tag j }.

(** The segments of range [c] of line [s]. *)
Definition range_members (s : sweeper) (c : cinterval) : list nat := members (range_entries s c) ++ range_horizontals s c.
(** The two segments meeting at a corner at the height of the line are in the same range. *)
Definition corners_together (s : sweeper) (c : cinterval) : Prop :=
  forall i j, registered a i -> registered a j -> follows i j -> feq (py (seg_head i)) (sw_y s) = true ->
    (In i (range_members s c) <-> In j (range_members s c)).
End Contours.

Section Winding.
Context {W T : Type}.
Variable ops : wops W T.
(** Turning clockwise around a point from [h] to the next half-segment, the winding number between the two is what both say. *)
Definition winding_agrees (t : topo W) (h : half) : Prop :=
  exists k w, cw t h = Some k /\ winding_cw t h = Some w /\ winding_ccw t k = Some w.
(** Crossing output segment [o] changes the winding number by one unit of the tag of the input segment it comes from, with the
    sign of its direction. *)
Definition winding_steps (tag : list T) (t : topo W) (o : nat) : Prop :=
  exists w i g b, nth_error (t_wind t) o = Some w /\ nth_error (t_orig t) o = Some i /\ nth_error tag i = Some g /\ nth_error (t_pos t) o = Some b /\
    wn_ccw w = w_add ops (wn_cw w) (w_single ops g b).
End Winding.
