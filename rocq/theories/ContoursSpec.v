(** What a reader needs to understand the property theorems about contours. *)
From Coq Require Import List Bool ZArith Arith Permutation.
From Verif Require Import F64 TreeVecModel SegmentsModel SweepModel TopoModel TopoSpec ContoursModel.
Import ListNotations.

Section Spec.
Context {W : Type}.
Implicit Types t : topo W.

(** A topology as [from_segments] leaves it: the half-segments that are not deleted are arranged in rings, one round each point; going
    round a point clockwise, the region on the clockwise side of a half-segment is the region on the counter-clockwise side of the next one;
    and the western neighbours recorded for a segment were created before it. *)
Record well_formed t : Prop := {
  wf_rings : exists R, rings t (present t) R /\
    forall p r, nth_error R p = Some r -> Forall (fun hk => winding_cw t (fst hk) = winding_ccw t (snd hk)) (cyclic r);
  wf_deleted : length (t_deleted t) = length (t_wind t);
  wf_length : length (t_west t) = length (t_wind t);
  wf_west : forall o w, nth_error (t_west t) o = Some (Some w) -> w < o }.

(** Is the region clockwise, counter-clockwise of a half-segment inside the set? *)
Definition inside_cw t (inside : W -> bool) (h : half) : Prop := exists w, winding_cw t h = Some w /\ inside w = true.
Definition inside_ccw t (inside : W -> bool) (h : half) : Prop := exists w, winding_ccw t h = Some w /\ inside w = true.
(** Output segments that are not deleted and have the set on exactly one side. *)
Definition boundary t (inside : W -> bool) (o : nat) : Prop :=
  present t (first_half o) /\ ~ (inside_cw t inside (first_half o) <-> inside_ccw t inside (first_half o)).

(** A closed walk along output segments, given by their ends: each begins where the one before ends, cyclically; and it
    is not empty. *)
Definition closed_walk t (l : list half) : Prop :=
  l <> [] /\ Forall (fun hk => exists p, pt t (fst hk) = Some p /\ pt t (other_half (snd hk)) = Some p) (cyclic l).
(** No point is visited twice: the segments of a walk begin at different points. *)
Definition visits_once t (l : list half) : Prop := NoDup (map (fun h => pt t (other_half h)) l).
(** The set is on the left hand side of all the segments of a walk (clockwise of their ends), and not on the right hand side. *)
Definition set_on_left t (inside : W -> bool) (l : list half) : Prop :=
  Forall (fun h => inside_cw t inside h /\ ~ inside_ccw t inside h) l.
End Spec.

(** Contours form a forest: parents come first, contours without a parent are outer, and outer and inner contours alternate. *)
Definition contour_forest (cs : list contour) : Prop := forall i c, nth_error cs i = Some c ->
  match c_parent c with
  | None => c_outer c = true
  | Some p => p < i /\ exists c', nth_error cs p = Some c' /\ c_outer c = negb (c_outer c')
  end.

(** [descends cs i j]: [i] is [j], or a child of a descendant of [j]. *)
Inductive descends (cs : list contour) : nat -> nat -> Prop :=
| d_refl i : descends cs i i
| d_step i p j c : nth_error cs i = Some c -> c_parent c = Some p -> descends cs p j -> descends cs i j.
