(** Model of src/curve/mod.rs:336-394 and of the cubic case of src/geom.rs:346-368: positions on cubic curves, in floating-point arithmetic.

    The root finder (polycool's [roots_between]) and the evaluation of a polynomial in an assertion are parameters, as are kurbo's candidates for extremal
    parameters.  kurbo's [eval], [subsegment] and [bounding_box] are not part of the repository; they are modelled as published. *)
From Coq Require Import List Bool ZArith.
From Flocq Require Import BinarySingleNaN.
From Verif Require Import F64 F64Arith TreeVecModel GeomModel SegmentsModel SweepModel PosModel CompareModel.
Import ListNotations.

(** f64 literals. *)
Definition fthree : f64 := f64_of_Z 3.
(** kurbo 0.12 [CubicBez::eval], one coordinate. *)
Definition eval3 (p0 p1 p2 p3 t : f64) : f64 :=
  let mt := fsub fone t in
  fadd (fmul p0 (fmul (fmul mt mt) mt))
       (fmul (fadd (fmul p1 (fmul (fmul mt mt) fthree)) (fmul (fadd (fmul p2 (fmul mt fthree)) (fmul p3 t)) t)) t).
Definition eval_cubic (c : cubic) (t : f64) : point :=
  mkPoint (eval3 (py (cb0 c)) (py (cb1 c)) (py (cb2 c)) (py (cb3 c)) t) (eval3 (px (cb0 c)) (px (cb1 c)) (px (cb2 c)) (px (cb3 c)) t).
(** kurbo 0.12 [QuadBez::eval], one coordinate. *)
Definition eval2 (p0 p1 p2 t : f64) : f64 :=
  let mt := fsub fone t in
  fadd (fmul p0 (fmul mt mt)) (fmul (fadd (fmul p1 (fmul mt ftwo)) (fmul p2 t)) t).
(** kurbo 0.12 [CubicBez::deriv] followed by [QuadBez::eval], one coordinate. *)
Definition deriv3 (p0 p1 p2 p3 t : f64) : f64 :=
  eval2 (fmul fthree (fsub p1 p0)) (fmul fthree (fsub p2 p1)) (fmul fthree (fsub p3 p2)) t.
Definition deriv_cubic (c : cubic) (t : f64) : point :=
  mkPoint (deriv3 (py (cb0 c)) (py (cb1 c)) (py (cb2 c)) (py (cb3 c)) t) (deriv3 (px (cb0 c)) (px (cb1 c)) (px (cb2 c)) (px (cb3 c)) t).
(** kurbo 0.12 [CubicBez::subsegment]. *)
Definition padd (p q : point) : point := mkPoint (fadd (py p) (py q)) (fadd (px p) (px q)).
Definition psub (p q : point) : point := mkPoint (fsub (py p) (py q)) (fsub (px p) (px q)).
Definition pscale (k : f64) (p : point) : point := mkPoint (fmul k (py p)) (fmul k (px p)).
Definition subseg (c : cubic) (t0 t1 : f64) : cubic :=
  let p0 := eval_cubic c t0 in
  let p3 := eval_cubic c t1 in
  let scale := fmul (fsub t1 t0) fthird in
  mkCubic p0 (padd p0 (pscale scale (deriv_cubic c t0))) (psub p3 (pscale scale (deriv_cubic c t1))) p3.

(** The coefficients of the height of [c] above [y]: curve/mod.rs:349-353. *)
Definition height_coeffs (c : cubic) (y : f64) : f64 * f64 * f64 * f64 :=
  let y0 := py (cb0 c) in let y1 := py (cb1 c) in let y2 := py (cb2 c) in let y3 := py (cb3 c) in
  (fsub y0 y, fmul fthree (fsub y1 y0), fmul fthree (fadd (fsub y2 (fmul ftwo y1)) y0),
   fsub (fadd (fsub y3 (fmul fthree y2)) (fmul fthree y1)) y0).
(** curve/mod.rs:355, with polycool's [max_abs_coefficient]. *)
Definition root_eps (k0 k1 k2 k3 : f64) : f64 :=
  fmul ftiny (fmax (fmax (fmax (fmax (fabs k0) (fabs k1)) (fabs k2)) (fabs k3)) fone).

Section Solver.
(** polycool's [Cubic::new([k0, k1, k2, k3]).roots_between(0.0, 1.0, eps)] and [Cubic::eval]. *)
Variable roots_between : f64 -> f64 -> f64 -> f64 -> f64 -> list f64.
Variable poly_eval : f64 -> f64 -> f64 -> f64 -> f64 -> f64.

(** curve/mod.rs:336-374 [solve_t_for_y]; [dbg] says whether debug assertions are on. *)
Definition solve_t (dbg : bool) (c : cubic) (y : f64) : res f64 :=
  let y0 := py (cb0 c) in let y3 := py (cb3 c) in
  if dbg && negb (fle y0 y && fle y y3 && flt y0 y3) then Err EAssert else
  if feq y y0 then Ok fzero else
  if feq y y3 then Ok fone else
  let '(k0, k1, k2, k3) := height_coeffs c y in
  match roots_between k0 k1 k2 k3 (root_eps k0 k1 k2 k3) with
  | t :: _ => Ok t
  | [] =>
      if dbg && negb (feq (fsignum (poly_eval k0 k1 k2 k3 fzero)) (fsignum (poly_eval k0 k1 k2 k3 fone))) then Err EAssert else
      Ok (if fle (fabs (fsub y y0)) (fabs (fsub y y3)) then fzero else fone)
  end.
(** curve/mod.rs:377-379 [solve_x_for_y]. *)
Definition solve_x_for_y (dbg : bool) (c : cubic) (y : f64) : res f64 :=
  do! t := solve_t dbg c y in Ok (px (eval_cubic c t)).
(** curve/mod.rs:385-394 [y_subsegment]. *)
Definition set_ends (c : cubic) (y0 y1 : f64) : cubic :=
  mkCubic (mkPoint y0 (px (cb0 c))) (cb1 c) (cb2 c) (mkPoint y1 (px (cb3 c))).
Definition y_subsegment (dbg : bool) (c : cubic) (y0 y1 : f64) : res cubic :=
  if dbg && negb (flt y0 y1 && (fle (py (cb0 c)) y0 && fle y1 (py (cb3 c)))) then Err EAssert else
  do! t0 := solve_t dbg c y0 in
  do! t1 := solve_t dbg c y1 in
  Ok (set_ends (subseg c t0 t1) y0 y1).

(** kurbo's [CubicBez::bounding_box], the horizontal extent: of the ends and of the extremal points, for which the candidates are filtered (kurbo's
    [CubicBez::extrema] keeps those strictly between 0 and 1).  The candidates come from a quadratic solver and are a parameter. *)
Variable candidates : cubic -> list f64.
Definition extrema (c : cubic) : list f64 := filter (fun t => fgt t fzero && flt t fone) (candidates c).
Definition box_x (c : cubic) : f64 * f64 :=
  let x0 := px (cb0 c) in let x3 := px (cb3 c) in
  fold_left (fun b t => let x := px (eval_cubic c t) in (fmin (fst b) x, fmax (snd b) x)) (extrema c) (fmin x0 x3, fmax x0 x3).
(** geom.rs:355-361: the horizontal extent of the part of a cubic between two heights. *)
Definition extent (dbg : bool) (c : cubic) (start_y end_y : f64) : res (f64 * f64) :=
  do! t_min := solve_t dbg c start_y in
  do! t_max := solve_t dbg c end_y in
  Ok (box_x (subseg c t_min t_max)).

(** The same without debug assertions, as functions on segments (geom.rs:341, 355-361): the parameters of LineModel.v. *)
Definition seg_cubic (s : segment) : cubic :=
  match s with SLine p0 p1 => mkCubic p0 p0 p1 p1 | SCubic p0 p1 p2 p3 => mkCubic p0 p1 p2 p3 end.
Definition seg_solve_x (s : segment) (y : f64) : f64 :=
  match solve_x_for_y false (seg_cubic s) y with Ok x => x | Err _ => B754_nan end.
Definition seg_extent (s : segment) (a b : f64) : f64 * f64 :=
  match extent false (seg_cubic s) a b with Ok r => r | Err _ => (B754_nan, B754_nan) end.
End Solver.
