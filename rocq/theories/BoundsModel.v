(** src/topology.rs:1285-1297 [Topology::bounding_box], in floating-point arithmetic.

    kurbo's [Rect] operations and [CubicBez::bounding_box] are not part of the repository; they are modelled as published, and the candidates for
    extremal parameters are a parameter, as in CubicModel.v. *)
From Coq Require Import List.
From Flocq Require Import BinarySingleNaN.
From Verif Require Import F64 GeomModel SegmentsModel PosModel CompareModel CubicModel.
Import ListNotations.

(** kurbo's [Rect]. *)
Record rect : Type := mkRect { bx0 : f64; by0 : f64; bx1 : f64; by1 : f64 }.
(** [Rect::from_points], [Rect::union_pt], [Rect::union]. *)
Definition from_points (p q : point) : rect := mkRect (fmin (px p) (px q)) (fmin (py p) (py q)) (fmax (px p) (px q)) (fmax (py p) (py q)).
Definition union_pt (r : rect) (p : point) : rect := mkRect (fmin (bx0 r) (px p)) (fmin (by0 r) (py p)) (fmax (bx1 r) (px p)) (fmax (by1 r) (py p)).
Definition union (r s : rect) : rect := mkRect (fmin (bx0 r) (bx0 s)) (fmin (by0 r) (by0 s)) (fmax (bx1 r) (bx1 s)) (fmax (by1 r) (by1 s)).

Section Bounds.
Variable candidates : cubic -> list f64.
(** kurbo's [ParamCurveExtrema::bounding_box]. *)
Definition cubic_bounds (c : cubic) : rect :=
  fold_left (fun r t => union_pt r (eval_cubic c t)) (extrema candidates c) (from_points (cb0 c) (cb3 c)).
(** topology.rs:1286-1297. *)
Definition bounding_box (ss : list segment) : rect :=
  fold_left (fun r s => union r (cubic_bounds (to_cubic s))) ss (mkRect (B754_infinity false) (B754_infinity false) (B754_infinity true) (B754_infinity true)).
End Bounds.
