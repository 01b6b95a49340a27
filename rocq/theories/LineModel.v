(** Positions of segments in the geometry module: [Segment::at_y], [lower], [upper]. *)
From Coq Require Import List Bool.
From Verif Require Import F64 GeomModel.

(** geom.rs:333-341: [at_y] of a straight line. *)
Definition line_at (p0 p1 : point) (y : f64) : f64 :=
  if feq (py p0) (py p1) then px p1 else
  let t := fdiv (fsub y (py p0)) (fsub (py p1) (py p0)) in
  fadd (px p0) (fmul t (fsub (px p1) (px p0))).

Section Cubics.
(** [solve_x_for_y] (curve/mod.rs:377-379) and the horizontal extent of the part of a cubic between two heights (geom.rs:355-361), for cubics only:
    parameters, about which nothing is assumed. *)
Variable solve_x : segment -> f64 -> f64.
Variable extent : segment -> f64 -> f64 -> f64 * f64.

(** geom.rs:327-344 [at_y], after the assertion (which is in [x_at] of RangeModel.v). *)
Definition at_y (s : segment) (y : f64) : f64 :=
  match s with
  | SLine p0 p1 => line_at p0 p1 y
  | SCubic _ _ _ _ => solve_x s y
  end.
(** geom.rs:347-348: the window of heights around [y]. *)
Definition window (s : segment) (y eps : f64) : f64 * f64 :=
  (fmax (fsub y eps) (py (seg_start s)), fmin (fadd y eps) (py (seg_end s))).
(** geom.rs:346-364 [local_bbox], the horizontal extent only.  kurbo's [Rect::from_points] takes the minimum and the maximum. *)
Definition local_bbox (s : segment) (y eps : f64) : f64 * f64 :=
  let (start_y, end_y) := window s y eps in
  match s with
  | SLine _ _ =>
      let start_x := at_y s start_y in
      let end_x := at_y s end_y in
      (fmin start_x end_x, fmax start_x end_x)
  | SCubic _ _ _ _ => extent s start_y end_y
  end.
(** geom.rs:371-373 [lower]. *)
Definition lower (s : segment) (y eps : f64) : f64 := fsub (fst (local_bbox s y eps)) eps.
(** geom.rs:380-382 [upper]. *)
Definition upper (s : segment) (y eps : f64) : f64 := fadd (snd (local_bbox s y eps)) eps.
End Cubics.
