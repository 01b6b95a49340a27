(** Straight lines in exact arithmetic. *)
From Coq Require Import List Reals.
From Flocq Require Import Core BinarySingleNaN.
From Verif Require Import F64 GeomModel SegmentsModel.
Local Open Scope R_scope.

(** A point with finite coordinates of magnitude at most [M]. *)
Definition within (M : R) (p : point) : Prop :=
  fin (px p) = true /\ fin (py p) = true /\ Rabs (B2R (px p)) <= M /\ Rabs (B2R (py p)) <= M.
(** The position, at height [Y], of the line through two points. *)
Definition line_x (p0 p1 : point) (Y : R) : R :=
  B2R (px p0) + (Y - B2R (py p0)) / (B2R (py p1) - B2R (py p0)) * (B2R (px p1) - B2R (px p0)).
(** Coordinates as large as this do not overflow when they are subtracted from each other and added again. *)
Definition huge : R := bpow radix2 1020.
(** All segments are straight, with coordinates of magnitude at most [M]. *)
Definition straight_within (M : R) (a : arena) : Prop :=
  forall i s, nth_error (segs a) i = Some s -> exists p0 p1, s = SLine p0 p1 /\ within M p0 /\ within M p1.
(** The accuracy of the positions of a line with coordinates of magnitude at most [M]. *)
Definition fuzz (M : R) : R := bpow radix2 (-47) * M + bpow radix2 (-1075).
(** [Y] is a height of the line from [p0] down to [p1], at most [eps] away from [y] (as far as floating-point numbers tell). *)
Definition near_height (p0 p1 : point) (y eps Y : f64) : Prop :=
  fle (py p0) Y = true /\ fle Y (py p1) = true /\ fle (fsub y eps) Y = true /\ fle Y (fadd y eps) = true.
