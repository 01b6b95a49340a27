(** What the theorems about the exact reading of the curve code (PropsExact.v) say, and the contracts of the solvers they assume. *)
From Coq Require Import Reals List.
From Verif Require Import CurveOrderModel ExactModel.
Import ListNotations.
Local Open Scope R_scope.

(** A curve whose height never decreases, and that is not horizontal. *)
Definition rises (c : rcubic) : Prop := (forall s t, 0 <= s -> s <= t -> t <= 1 -> cy c s <= cy c t) /\ ry (q0 c) < ry (q3 c).
(** A point of the curve at a height. *)
Definition passes (c : rcubic) (y x : R) : Prop := exists t, 0 <= t <= 1 /\ cy c t = y /\ cx c t = x.
(** A curve of a slope of more than one sixteenth: such a curve is never rotated. *)
Definition steep (c : rcubic) : Prop := forall s t, 0 <= s -> s < t -> t <= 1 -> Rabs (cx c t - cx c s) < 16 * (cy c t - cy c s).
(** Control points at evenly spaced heights, as of a line or of a raised graph of a cubic function. *)
Definition even (c : rcubic) : Prop := ry (q1 c) - ry (q0 c) = ry (q2 c) - ry (q1 c) /\ ry (q2 c) - ry (q1 c) = ry (q3 c) - ry (q2 c).
(** How uneven the heights of the control points are. *)
Definition unevenness (c : rcubic) : R := (3 * (ry (q2 c) - ry (q1 c)) - (ry (q3 c) - ry (q0 c))) / 2.

(** ** Contracts *)
(** The contract of [solve_t_for_y]. *)
Definition solves (solve_t : rcubic -> R -> R) : Prop :=
  forall c y, rises c -> ry (q0 c) <= y <= ry (q3 c) -> 0 <= solve_t c y <= 1 /\ cy c (solve_t c y) = y.
(** The contract of [bounding_box]. *)
Definition boxes (bbox : rcubic -> R * R) : Prop :=
  forall c, (forall t, 0 <= t <= 1 -> fst (bbox c) <= cx c t <= snd (bbox c)) /\
    (exists t, 0 <= t <= 1 /\ cx c t = fst (bbox c)) /\ (exists t, 0 <= t <= 1 /\ cx c t = snd (bbox c)).
(** The contract of [solve_cubic_in_unit_interval]: unless the polynomial is zero, no root in the unit interval is missed. *)
Definition finds_roots (roots : R -> R -> R -> R -> list R) : Prop :=
  forall f0 f1 f2 f3, ~ (f0 = 0 /\ f1 = 0 /\ f2 = 0 /\ f3 = 0) ->
  forall t, 0 <= t <= 1 -> f0 + f1 * t + f2 * (t * t) + f3 * (t * (t * t)) = 0 -> In t (roots f0 f1 f2 f3).
(** The contract of the approximation, for all pieces of a curve: what the fields [dmin] and [dmax] are documented to mean, up to [slack]. *)
Definition estimates (est : rcubic -> rparab) (slack : R) (c : rcubic) : Prop :=
  forall t0 t1 m k, 0 <= t0 -> t0 < t1 -> t1 <= 1 -> 0 < k ->
  let p := rescale m k (subsegment c t0 t1) in
  e_dmin (est p) <= 0 <= e_dmax (est p) /\
  forall t, 0 <= t <= 1 -> parab_at (est p) (cy p t) + e_dmin (est p) - slack <= cx p t <= parab_at (est p) (cy p t) + e_dmax (est p) + slack.
(** The error that is not accounted for, over all pieces of a curve. *)
Definition slack_of (roots : R -> R -> R -> R -> list R) (slack : R) (c : rcubic) : Prop :=
  forall t0 t1 m k, 0 <= t0 -> t0 < t1 -> t1 <= 1 -> 0 < k ->
  let p := rescale m k (subsegment c t0 t1) in
  Rabs (e_c2 (from_cubic roots p)) * unevenness p * unevenness p / 16 <= slack.

(** ** Meanings *)
(** The entries [l] partition the heights from [s] to [e], and what each says holds at every height of its (closed) interval. *)
Fixpoint table (P : order -> R -> Prop) (s : R) (l : list rentry) (e : R) : Prop :=
  match l with
  | [] => s = e
  | (m, o) :: l' => s <= m /\ (forall y, s <= y <= m -> P o y) /\ table P m l' e
  end.
(** What [push_quadratic_signs] says of the quadratic function. *)
Definition quad_is (a b c lower upper : R) (o : order) (y : R) : Prop :=
  match o with
  | Left => upper <= a * (y * y) + b * y + c
  | Right => a * (y * y) + b * y + c <= lower
  | Ish => lower <= a * (y * y) + b * y + c <= upper
  end.
(** What an entry of a comparison of two curves says, for a common range of heights from [Y0] to [Y1].  A curve is only said to be to the left if it is by
    a margin; two curves are only said to be close at a height if near it they are -- or if the height is in a piece of a height of exactly the accuracy,
    which falls between the tests that the code does for smaller and for larger pieces. *)
Definition comparison_says (tolerance accuracy slack : R) (c0 c1 : rcubic) (Y0 Y1 : R) (o : order) (y : R) : Prop :=
  match o with
  | Left => forall x0 x1, passes c0 y x0 -> passes c1 y x1 -> x0 + (tolerance - 2 * slack) <= x1
  | Right => forall x0 x1, passes c0 y x0 -> passes c1 y x1 -> x1 + (tolerance - 2 * slack) <= x0
  | Ish =>
      (exists y' y'' x0 x1, passes c0 y' x0 /\ passes c1 y'' x1 /\
         Rabs (y' - y) <= Rmax tolerance accuracy /\ Rabs (y'' - y) <= Rmax tolerance accuracy /\
         Rabs (x0 - x1) <= tolerance + accuracy + 2 * slack) \/
      (exists a b, Y0 <= a /\ a <= y <= b /\ b <= Y1 /\ b - a = accuracy)
  end.
