(** What splitting a curve into monotone pieces should do. *)
From Coq Require Import Reals List.
From Verif Require Import ExactModel ExactSpec PieceModel.
Import ListNotations.
Local Open Scope R_scope.

(** The curve run backwards. *)
Definition backwards (c : rcubic) : rcubic := mkRC (q3 c) (q2 c) (q1 c) (q0 c).
(** Pieces follow each other from [s] to [e], without gaps. *)
Fixpoint covers (s e : R) (ps : list rpiece) : Prop :=
  match ps with [] => s = e | p :: l => r_start p = s /\ s < r_end p /\ covers (r_end p) e l end.
(** A piece is the part of [c] between its parameters, point by point. *)
Definition part_of (c : rcubic) (p : rpiece) : Prop :=
  forall r, cy (r_curve p) r = cy c (r_start p + r * (r_end p - r_start p)) /\ cx (r_curve p) r = cx c (r_start p + r * (r_end p - r_start p)).
(** All control points are at the same height. *)
Definition flat (c : rcubic) : Prop := ry (q0 c) = ry (q1 c) /\ ry (q1 c) = ry (q2 c) /\ ry (q2 c) = ry (q3 c).
