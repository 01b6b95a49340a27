(** Floating-point curves as curves over the real numbers, and the contracts of the root finders. *)
From Coq Require Import List Bool Reals.
From Flocq Require Import Core BinarySingleNaN.
From Verif Require Import F64 GeomModel SegmentsModel PosModel LineSpec ExactModel.
Local Open Scope R_scope.

(** The curve with exactly these control points. *)
Definition real_point (p : point) : rpoint := mkRP (B2R (py p)) (B2R (px p)).
Definition real_curve (c : cubic) : rcubic := mkRC (real_point (cb0 c)) (real_point (cb1 c)) (real_point (cb2 c)) (real_point (cb3 c)).
(** A bound on the coordinates.  It may be any number at least as large as the coordinates, but neither astronomically large (so that nothing overflows) nor
    astronomically small (so that underflow does not matter beside it). *)
Definition usual_size (M : R) : Prop := bpow radix2 (-900) <= M <= bpow radix2 999.
Definition curve_within (M : R) (c : cubic) : Prop := within M (cb0 c) /\ within M (cb1 c) /\ within M (cb2 c) /\ within M (cb3 c).
Definition segment_within (M : R) (s : segment) : Prop :=
  match s with SLine p0 p1 => within M p0 /\ within M p1 | SCubic p0 p1 p2 p3 => within M p0 /\ within M p1 /\ within M p2 /\ within M p3 end.
(** A finite number between 0 and 1. *)
Definition in_unit (t : f64) : Prop := fin t = true /\ 0 <= B2R t <= 1.
(** The cubic polynomial with these coefficients. *)
Definition poly (k0 k1 k2 k3 : f64) (t : R) : R := B2R k0 + B2R k1 * t + B2R k2 * (t * t) + B2R k3 * (t * t * t).

(** What the root finder promises at least: for finite coefficients, the roots it returns are where it was asked to look for them. *)
Definition looks_inside (roots_between : f64 -> f64 -> f64 -> f64 -> f64 -> list f64) : Prop :=
  forall k0 k1 k2 k3 e t, fin k0 = true -> fin k1 = true -> fin k2 = true -> fin k3 = true -> In t (roots_between k0 k1 k2 k3 e) -> in_unit t.
(** Its accuracy, for coefficients of size [M]: at the roots it returns the polynomial is at most [acc]; and it does not miss a change of sign from less than [-acc] to more than [acc]. *)
Definition finds_crossings (roots_between : f64 -> f64 -> f64 -> f64 -> f64 -> list f64) (M acc : R) : Prop :=
  forall k0 k1 k2 k3 e, (forall k, In k (k0 :: k1 :: k2 :: k3 :: nil) -> fin k = true /\ Rabs (B2R k) <= 16 * M) ->
  (forall t, In t (roots_between k0 k1 k2 k3 e) -> Rabs (poly k0 k1 k2 k3 (B2R t)) <= acc) /\
  (poly k0 k1 k2 k3 0 < - acc -> acc < poly k0 k1 k2 k3 1 -> roots_between k0 k1 k2 k3 e <> nil).
(** The accuracy of the candidates for extremal points, for curves of size [M]: no point of the curve is outside the extent of the ends and of the candidates inside, by more than [acc]. *)
Definition finds_extremes (candidates : cubic -> list f64) (M acc : R) : Prop :=
  forall c, curve_within M c -> forall s, 0 <= s <= 1 ->
  exists lo hi, (lo = 0 \/ lo = 1 \/ exists t, In t (candidates c) /\ fin t = true /\ 0 < B2R t < 1 /\ lo = B2R t) /\
    (hi = 0 \/ hi = 1 \/ exists t, In t (candidates c) /\ fin t = true /\ 0 < B2R t < 1 /\ hi = B2R t) /\
    cx (real_curve c) lo - acc <= cx (real_curve c) s <= cx (real_curve c) hi + acc.
