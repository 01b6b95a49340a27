(** What a reader needs to understand the property theorems about merging coincident output segments. *)
From Coq Require Import List Bool ZArith Arith.
From Verif Require Import F64 TreeVecModel GeomModel SegmentsModel SegmentsSpec CurveOrderModel SweepModel SweepSpec RangeModel RangeSpec TopoModel TopoSpec.
Import ListNotations.

Section Spec.
Context {W : Type}.
Implicit Types t : topo W.
(** Two output segments join the same points. *)
Definition same_ends t (i j : nat) : Prop := pt t (first_half i) = pt t (first_half j) /\ pt t (second_half i) = pt t (second_half j).
(** Crossing the output segments [g] one after the other, from the clockwise to the counter-clockwise side, leads from winding number
    [w] to winding number [u]. *)
Fixpoint across t (w : W) (g : list nat) (u : W) : Prop :=
  match g with
  | [] => w = u
  | o :: g => exists p, nth_error (t_wind t) o = Some p /\ wn_cw p = w /\ across t (wn_ccw p) g u
  end.
Definition remains t (o : nat) : Prop := nth_error (t_deleted t) o = Some false.
Definition removed t (o : nat) : Prop := nth_error (t_deleted t) o = Some true.
(** What merging makes of the group [g] of neighbouring output segments ([t] before, [t'] after): they join the same points; if the winding number is the
    same on both sides of the group all are removed, otherwise all but one, which gets the winding numbers of the two outer sides. *)
Definition merged t t' (g : list nat) : Prop :=
  exists o r w u, g = o :: r /\ across t w g u /\ (forall i, In i g -> same_ends t o i) /\ (forall i, In i r -> removed t' i) /\
    ((w = u /\ removed t' o) \/ (w <> u /\ remains t' o /\ nth_error (t_wind t') o = Some (mkWp u w))).
(** The output segment is horizontal. *)
Definition level t (o : nat) : Prop := exists x y, ends_at t (first_half o) x /\ ends_at t (second_half o) y /\ feq (py x) (py y) = true.
End Spec.

(** Segments that are found coincident between two heights have overlapping boxes at all heights between (for the heights [ys]). *)
Definition close_sound (a : arena) (eps : f64) (lower upper : segment -> f64 -> f64 -> f64) (close : nat -> nat -> f64 -> f64 -> bool) (ys : list f64) : Prop :=
  forall i j y0 y1 y, registered a i -> registered a j -> In y0 ys -> In y1 ys -> In y ys -> close j i y0 y1 = true -> fle y0 y = true -> fle y y1 = true ->
    fle (fsub (lower (seg_def a j) y eps) eps) (fadd (upper (seg_def a i) y eps) eps) = true.
(** One unit of a tag is not zero. *)
Definition units {W T : Type} (ops : wops W T) : Prop := forall g b, w_single ops g b <> w_zero ops.
(** The start of a segment that is not horizontal lies in its box. *)
Definition starts_in_box (a : arena) (eps : f64) (lower upper : segment -> f64 -> f64 -> f64) : Prop :=
  forall i y, registered a i -> slanted a i = true -> feq (start_y a i) y = true ->
    fle (fsub (lower (seg_def a i) y eps) eps) (px (seg_start (seg_def a i))) = true /\
    fle (px (seg_start (seg_def a i))) (fadd (upper (seg_def a i) y eps) eps) = true.
(** Output segment [o] is the western neighbour of the slanted output segment [m], with the same ends, and they are found coincident. *)
Definition found_coincident {W : Type} (close : nat -> nat -> f64 -> f64 -> bool) (t : topo W) (o m : nat) : Prop :=
  nth_error (t_west t) m = Some (Some o) /\ same_ends t o m /\ ~ level t m /\
  exists x y i j, ends_at t (first_half m) x /\ ends_at t (second_half m) y /\ nth_error (t_orig t) o = Some i /\ nth_error (t_orig t) m = Some j /\
    close j i (py x) (py y) = true.
(** What merging does not touch. *)
Definition same_layout {W : Type} (t t' : topo W) : Prop :=
  t_points t' = t_points t /\ t_pidx t' = t_pidx t /\ t_west t' = t_west t /\ t_orig t' = t_orig t /\ t_pos t' = t_pos t /\ length (t_wind t') = length (t_wind t).
