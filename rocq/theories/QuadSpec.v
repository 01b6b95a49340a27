(** Quadratic functions over the real numbers. *)
From Coq Require Import Reals.
From Flocq Require Import Core BinarySingleNaN.
From Verif Require Import F64.
Local Open Scope R_scope.

Definition quad (c2 c1 c0 x : R) : R := c2 * x * x + c1 * x + c0.
(** A number of moderate size. *)
Definition moderate (x : f64) : Prop :=
  fin x = true /\ (B2R x = 0 \/ bpow radix2 (-500) <= Rabs (B2R x) <= bpow radix2 500).
(** Equal up to a relative error of 2^-50. *)
Definition almost (x y : R) : Prop := Rabs (x - y) <= bpow radix2 (-50) * Rabs y.
(** [r1] and [r2] are the roots, up to a relative error of 2^-50, of a quadratic function whose coefficients are those of [c2], [c1], [c0] up to a relative error of 2^-50. *)
Definition almost_roots (c2 c1 c0 r1 r2 : R) : Prop :=
  exists c1' c0' s1 s2, almost c1' c1 /\ almost c0' c0 /\ s1 <= s2 /\ (forall x, quad c2 c1' c0' x = c2 * (x - s1) * (x - s2)) /\ almost r1 s1 /\ almost r2 s2.
