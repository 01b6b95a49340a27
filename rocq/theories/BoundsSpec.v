(** What a bounding box should be. *)
From Coq Require Import List Reals.
From Flocq Require Import Core BinarySingleNaN.
From Verif Require Import F64 GeomModel SegmentsModel PosModel ExactModel ExactSpec CubicSpec BoundsModel.
Local Open Scope R_scope.

(** The points of a segment: of the straight line between its ends, or of the curve. *)
Definition point_of (s : segment) (Y X : R) : Prop :=
  match s with
  | SLine p q => exists t, 0 <= t <= 1 /\ Y = (1 - t) * B2R (py p) + t * B2R (py q) /\ X = (1 - t) * B2R (px p) + t * B2R (px q)
  | SCubic p0 p1 p2 p3 => passes (real_curve (mkCubic p0 p1 p2 p3)) Y X
  end.
(** The point is in the rectangle enlarged by [slack]. *)
Definition nearly_in (r : rect) (slack Y X : R) : Prop :=
  B2R (bx0 r) - slack <= X <= B2R (bx1 r) + slack /\ B2R (by0 r) - slack <= Y <= B2R (by1 r) + slack.
(** The accuracy of the candidates for extremal points in both directions, for curves of size [M]: no point of a curve lies by more than [acc] outside the extent of the ends and of the candidates inside. *)
Definition extremal (candidates : cubic -> list f64) (c : cubic) (w : R) : Prop :=
  w = 0 \/ w = 1 \/ exists t, In t (candidates c) /\ fin t = true /\ 0 < B2R t < 1 /\ w = B2R t.
Definition finds_bounds (candidates : cubic -> list f64) (M acc : R) : Prop :=
  forall c, curve_within M c -> forall s, 0 <= s <= 1 ->
  (exists lo hi, extremal candidates c lo /\ extremal candidates c hi /\ cx (real_curve c) lo - acc <= cx (real_curve c) s <= cx (real_curve c) hi + acc) /\
  (exists lo hi, extremal candidates c lo /\ extremal candidates c hi /\ cy (real_curve c) lo - acc <= cy (real_curve c) s <= cy (real_curve c) hi + acc).
