(** The numerical parts of the curve code read in exact arithmetic: src/curve/transverse.rs and, of src/curve/mod.rs, [EstParab],
    [monic_quadratic_roots], [push_quadratic_signs] and the comparison of curves.

    Simplification: here an [f64] is a real number, and every operation is exact.  A division whose divisor is zero, which gives an
    infinity or a NaN in the code, is treated case by case as the code treats these values; it is said where.  The models
    with IEEE arithmetic of the same functions are in CompareModel.v; the theorems there are about what holds despite rounding, those
    about this file say that the formulas are the right ones. *)
From Coq Require Import Reals List Bool.
From Verif Require Import CurveOrderModel.
Import ListNotations.
Local Open Scope R_scope.

(** kurbo's [Point] (also [Vec2]) and [CubicBez]. *)
Record rpoint : Type := mkRP { ry : R; rx : R }.
Record rcubic : Type := mkRC { q0 : rpoint; q1 : rpoint; q2 : rpoint; q3 : rpoint }.

(** kurbo's [QuadBez::eval], [CubicBez::eval], one coordinate. *)
Definition bern2 (a b c t : R) : R := (1 - t) * (1 - t) * a + 2 * (1 - t) * t * b + t * t * c.
Definition bern3 (a b c d t : R) : R :=
  (1 - t) * (1 - t) * (1 - t) * a + 3 * (1 - t) * (1 - t) * t * b + 3 * (1 - t) * t * t * c + t * t * t * d.
Definition cx (c : rcubic) (t : R) : R := bern3 (rx (q0 c)) (rx (q1 c)) (rx (q2 c)) (rx (q3 c)) t.
Definition cy (c : rcubic) (t : R) : R := bern3 (ry (q0 c)) (ry (q1 c)) (ry (q2 c)) (ry (q3 c)) t.

(** Comparisons that yield [bool]. *)
Definition rltb (x y : R) : bool := if Rlt_dec x y then true else false.
Definition rleb (x y : R) : bool := if Rle_dec x y then true else false.

(** ** transverse.rs *)
(** transverse.rs:17-35 [quad_max_between]; a zero divisor gives no [critical_t] in the range. *)
Definition quad_eval (a b c t : R) : R := a * t * t + 2 * b * t * (1 - t) + c * (1 - t) * (1 - t).
Definition quad_max_between (a b c t0 t1 : R) : R :=
  let m := Rmax (quad_eval a b c t0) (quad_eval a b c t1) in
  let den := a - b + (c - b) in
  if Req_EM_T den 0 then m else
  let critical_t := (c - b) / den in
  if rltb t0 critical_t && rltb critical_t t1 then Rmax m (quad_eval a b c critical_t) else m.
(** transverse.rs:37-39 [quad_min_between]. *)
Definition quad_min_between (a b c t0 t1 : R) : R := - quad_max_between (- a) (- b) (- c) t0 t1.

(** kurbo: [Point - Point], [hypot2], [dot], [cross], [CubicBez::deriv] (its control points). *)
Definition rdiff (p q : rpoint) : rpoint := mkRP (ry p - ry q) (rx p - rx q).
Definition rhypot2 (p : rpoint) : R := rx p * rx p + ry p * ry p.
Definition rdot (p q : rpoint) : R := rx p * rx q + ry p * ry q.
Definition rcross (p q : rpoint) : R := rx p * ry q - ry p * rx q.
Definition rtriple (p : rpoint) : rpoint := mkRP (3 * ry p) (3 * rx p).
Definition deriv0 (c : rcubic) : rpoint := rtriple (rdiff (q1 c) (q0 c)).
Definition deriv1 (c : rcubic) : rpoint := rtriple (rdiff (q2 c) (q1 c)).
Definition deriv2 (c : rcubic) : rpoint := rtriple (rdiff (q3 c) (q2 c)).

Section Transverse.
(** curve/mod.rs:336-374 [solve_t_for_y]. *)
Variable solve_t : rcubic -> R -> R.
(** transverse.rs:41-90 [transversal_after], without its debug assertions. *)
Definition transversal_after (left right : rcubic) (y1 : R) : bool :=
  let lt := rdiff (q1 left) (q0 left) in
  let rt := rdiff (q1 right) (q0 right) in
  if rltb (rhypot2 lt) (/ 10 ^ 20) || rltb (rhypot2 rt) (/ 10 ^ 20) then false else
  let cross := rcross lt rt in
  if rltb 0 (rdot lt rt) && rltb (cross * cross) (/ 10 ^ 2 * rhypot2 lt * rhypot2 rt) then false else
  let t1_left := solve_t left y1 in
  let l0 := deriv0 left in let l1 := deriv1 left in let l2 := deriv2 left in
  let left_max_dx := quad_max_between (rx l2) (rx l1) (rx l0) 0 t1_left in
  let t1_right := solve_t right y1 in
  let r0 := deriv0 right in let r1 := deriv1 right in let r2 := deriv2 right in
  let right_min_dx := quad_min_between (rx r2) (rx r1) (rx r0) 0 t1_right in
  if rltb left_max_dx 0 && rltb 0 right_min_dx then true else
  let left_dy := if rltb left_max_dx 0 then quad_max_between (ry l2) (ry l1) (ry l0) 0 t1_left
                 else quad_min_between (ry l2) (ry l1) (ry l0) 0 t1_left in
  let right_dy := if rltb right_min_dx 0 then quad_min_between (ry r2) (ry r1) (ry r0) 0 t1_right
                  else quad_max_between (ry r2) (ry r1) (ry r0) 0 t1_right in
  rltb (left_max_dx * right_dy) (right_min_dx * left_dy).
(** transverse.rs:92-102 [transversal_before]. *)
Definition rflip (p : rpoint) : rpoint := mkRP (- ry p) (rx p).
Definition cflip (c : rcubic) : rcubic := mkRC (rflip (q3 c)) (rflip (q2 c)) (rflip (q1 c)) (rflip (q0 c)).
Definition transversal_before (left right : rcubic) (y0 : R) : bool :=
  transversal_after (cflip left) (cflip right) (- y0).
End Transverse.

(** ** The sign of a quadratic *)
(** curve/mod.rs:468-515 [monic_quadratic_roots]; [None] is negative infinity.  Without overflow the discriminant is always finite. *)
Definition copysign (x y : R) : R := if Rlt_dec y 0 then - x else x.
Definition monic_quadratic_roots (b c : R) : option R * option R :=
  let disc := b * b - 4 * c in
  if Rle_dec disc 0 then (None, None) else
  let root1 := - (1 / 2) * (b + copysign (sqrt disc) b) in
  let root2 := c / root1 in
  if Rlt_dec root1 root2 then (Some root1, Some root2) else (Some root2, Some root1).

(** curve/mod.rs:25-36 [CurveOrder]: a start and entries. *)
Definition rentry : Type := R * order.
Record rorder : Type := mkRO { ro_start : R; ro_cmps : list rentry }.
Definition ro_last (c : rorder) : option rentry := last_opt (ro_cmps c).
(** curve/mod.rs:98-131 [CurveOrder::push], without its debug assertions. *)
Definition ro_push (c : rorder) (end_ : R) (o : order) : rorder :=
  match ro_last c with
  | Some (last_end, last_order) =>
      match last_order, o with
      | Right, Right | Left, Left | Ish, Ish => mkRO (ro_start c) (removelast (ro_cmps c) ++ [(end_, last_order)])
      | Right, Left | Left, Right => mkRO (ro_start c) (ro_cmps c ++ [(end_, Ish); (end_, o)])
      | _, _ => if Rlt_dec last_end end_ then mkRO (ro_start c) (ro_cmps c ++ [(end_, o)]) else c
      end
  | None => mkRO (ro_start c) (ro_cmps c ++ [(end_, o)])
  end.

(** curve/mod.rs:650-660: the closure [push] of [push_quadratic_signs]; an end at negative infinity is never pushed. *)
Definition ro_push_in (y0 y1 : R) (out : rorder) (p : option R * order) : rorder :=
  match fst p with
  | None => out
  | Some end_ =>
      if rltb y0 end_ && match ro_last out with None => true | Some (last_end, _) => rltb last_end y1 && rltb last_end end_ end
      then ro_push out (Rmin end_ y1) (snd p) else out
  end.
(** curve/mod.rs:662-713: what [push_quadratic_signs] pushes.  The scaled coefficients are finite unless [a] is zero, the roots of the linear
    equation unless [b] is zero. *)
Definition quadratic_signs (a b c lower upper y1 : R) : list (option R * order) :=
  if Req_EM_T a 0 then
    if Req_EM_T b 0 then
      if Rlt_dec c lower then [(Some y1, Right)] else if Rlt_dec upper c then [(Some y1, Left)] else [(Some y1, Ish)]
    else
      let root0 := - (c - lower) / b in
      let root1 := - (c - upper) / b in
      if Rlt_dec 0 b then [(Some root0, Right); (Some root1, Ish); (Some y1, Left)]
      else [(Some root1, Left); (Some root0, Ish); (Some y1, Right)]
  else
    let (r_lower, s_lower) := monic_quadratic_roots (b * / a) ((c - lower) * / a) in
    let (r_upper, s_upper) := monic_quadratic_roots (b * / a) ((c - upper) * / a) in
    if Rlt_dec 0 a then [(r_upper, Left); (r_lower, Ish); (s_lower, Right); (s_upper, Ish); (Some y1, Left)]
    else [(r_lower, Right); (r_upper, Ish); (s_upper, Left); (s_lower, Ish); (Some y1, Right)].
(** curve/mod.rs:638-714 [push_quadratic_signs]. *)
Definition push_quadratic_signs (a b c lower upper y0 y1 : R) (out : rorder) : rorder :=
  fold_left (ro_push_in y0 y1) (quadratic_signs a b c lower upper y1) out.

(** ** Approximating parabolas *)
(** curve/mod.rs:742-765 [EstParab]. *)
Record rparab : Type := mkRParab { e_c0 : R; e_c1 : R; e_c2 : R; e_dmin : R; e_dmax : R }.
Definition parab_at (e : rparab) (y : R) : R := e_c0 e + e_c1 e * y + e_c2 e * y * y.
(** kurbo's [CubicBez::signed_area] and [Line::signed_area]. *)
Definition cubic_area (c : rcubic) : R :=
  (rx (q0 c) * (6 * ry (q1 c) + 3 * ry (q2 c) + ry (q3 c))
   + 3 * (rx (q1 c) * (- 2 * ry (q0 c) + ry (q2 c) + ry (q3 c)) - rx (q2 c) * (ry (q0 c) + ry (q1 c) - 2 * ry (q3 c)))
   - rx (q3 c) * (ry (q0 c) + 3 * ry (q1 c) + 6 * ry (q2 c))) * (1 / 20).
Definition line_area (p q : rpoint) : R := rcross p q * (1 / 2).
(** kurbo's [Point::lerp]; [QuadBez]. *)
Definition rlerp (p q : rpoint) (t : R) : rpoint := mkRP (ry p + t * (ry q - ry p)) (rx p + t * (rx q - rx p)).
Record rquad : Type := mkRQ { k0 : rpoint; k1 : rpoint; k2 : rpoint }.
Definition quad_at (q : rquad) (t : R) : rpoint :=
  mkRP (bern2 (ry (k0 q)) (ry (k1 q)) (ry (k2 q)) t) (bern2 (rx (k0 q)) (rx (k1 q)) (rx (k2 q)) t).
(** curve/mod.rs:886-891 [quad_parameters]. *)
Definition quad_parameters (q : rquad) : rpoint * rpoint * rpoint :=
  let c0 := k0 q in
  (c0, mkRP ((ry (k1 q) - ry (k0 q)) * 2) ((rx (k1 q) - rx (k0 q)) * 2),
   mkRP (ry c0 - ry (k1 q) * 2 + ry (k2 q)) (rx c0 - rx (k1 q) * 2 + rx (k2 q))).
Section Estimate.
(** curve/mod.rs:401-456 [solve_cubic_in_unit_interval]. *)
Variable roots : R -> R -> R -> R -> list R.
(** curve/mod.rs:815-849: the values of the error at the points of a quadratic curve where its tangent is that of the parabola. *)
Definition tangencies (c1 c2 : R) (q : rquad) : list R :=
  let '(p0, p1, p2) := quad_parameters q in
  let dp0 := p1 in
  let dp1 := mkRP (2 * ry p2) (2 * rx p2) in
  let d0 := c1 in
  let d1 := 2 * c2 in
  let dxdt0 := d0 + d1 * ry p0 in
  let dxdt1 := d1 * ry p1 in
  let dxdt2 := d1 * ry p2 in
  roots (ry dp0 * dxdt0 - rx dp0)
        (ry dp0 * dxdt1 + ry dp1 * dxdt0 - rx dp1)
        (ry dp0 * dxdt2 + ry dp1 * dxdt1)
        (ry dp1 * dxdt2).
Definition errors (c0 c1 c2 : R) (q : rquad) : list R :=
  map (fun t => let p := quad_at q t in rx p - (c0 + c1 * ry p + c2 * (ry p * ry p)))
      (filter (fun t => rleb 0 t && rleb t 1) (tangencies c1 c2 q)).
(** curve/mod.rs:780-858 [EstParab::from_cubic]. *)
Definition hybrid0 (c : rcubic) : rquad := mkRQ (q0 c) (rlerp (q0 c) (q1 c) (3 / 2)) (q3 c).
Definition hybrid1 (c : rcubic) : rquad := mkRQ (q0 c) (rlerp (q3 c) (q2 c) (3 / 2)) (q3 c).
Definition from_cubic (c : rcubic) : rparab :=
  let area := cubic_area c + line_area (q3 c) (q0 c) in
  let dy := ry (q3 c) - ry (q0 c) in
  let c2 := - 6 * area / (dy * dy * dy) in
  let c1 := (rx (q3 c) - rx (q0 c) - (ry (q3 c) * ry (q3 c) - ry (q0 c) * ry (q0 c)) * c2) / dy in
  let c0 := rx (q0 c) - c1 * ry (q0 c) - c2 * (ry (q0 c) * ry (q0 c)) in
  let l := errors c0 c1 c2 (hybrid0 c) ++ errors c0 c1 c2 (hybrid1 c) in
  mkRParab c0 c1 c2 (fold_left Rmin l 0) (fold_left Rmax l 0).
End Estimate.

(** ** Comparing curves *)
Section Compare.
(** curve/mod.rs:336-374 [solve_t_for_y]; kurbo's [Shape::bounding_box] (smallest and largest [x]); [EstParab::from_cubic]. *)
Variable solve_t : rcubic -> R -> R.
Variable bbox : rcubic -> R * R.
Variable est : rcubic -> rparab.
Variables tolerance accuracy : R.

(** kurbo's [CubicBez::eval], [QuadBez::eval] of the derivative, [CubicBez::subsegment]. *)
Definition cubic_at (c : rcubic) (t : R) : rpoint := mkRP (cy c t) (cx c t).
Definition deriv_at (c : rcubic) (t : R) : rpoint :=
  mkRP (bern2 (ry (deriv0 c)) (ry (deriv1 c)) (ry (deriv2 c)) t) (bern2 (rx (deriv0 c)) (rx (deriv1 c)) (rx (deriv2 c)) t).
Definition subsegment (c : rcubic) (t0 t1 : R) : rcubic :=
  let scale := (t1 - t0) * (1 / 3) in
  let p := cubic_at c t0 in let d := deriv_at c t0 in
  let p' := cubic_at c t1 in let d' := deriv_at c t1 in
  mkRC p (mkRP (ry p + scale * ry d) (rx p + scale * rx d)) (mkRP (ry p' - scale * ry d') (rx p' - scale * rx d')) p'.
(** curve/mod.rs:385-394 [y_subsegment], without its debug assertions.  The code sets the heights of the ends to [y0] and [y1], which in exact arithmetic they are. *)
Definition y_subsegment (c : rcubic) (y0 y1 : R) : rcubic := subsegment c (solve_t c y0) (solve_t c y1).

(** curve/mod.rs:970-979 [l_infty_distance], [max_distance]. *)
Definition l_infty_distance (p q : rpoint) : R := Rmax (Rabs (rx p - rx q)) (Rabs (ry p - ry q)).
Definition max_distance (c d : rcubic) : R :=
  Rmax (Rmax (Rmax (l_infty_distance (q0 c) (q0 d)) (l_infty_distance (q1 c) (q1 d))) (l_infty_distance (q2 c) (q2 d)))
       (l_infty_distance (q3 c) (q3 d)).

(** curve/mod.rs:902-928: whether [with_rotation] compares the curves after a rotation (by 45 degrees, to the side to which they go). *)
Definition rotated_up (sign : R) (p q : rpoint) : bool := rltb (sign * (rx q - rx p) + (ry q - ry p)) 0.
Definition rotates (c0 c1 : rcubic) (y0 y1 : R) : bool :=
  let dx0 := rx (q3 c0) - rx (q0 c0) in
  let dx1 := rx (q3 c1) - rx (q0 c1) in
  let dy := y1 - y0 in
  let sign := if rltb 0 dx0 then 1 else - (1) in
  let up c := rotated_up sign (q0 c) (q1 c) || rotated_up sign (q1 c) (q2 c) || rotated_up sign (q2 c) (q3 c) in
  eqb (rleb 0 dx0) (rleb 0 dx1)
  && negb (rltb (Rabs dx0) (dy * 16) || rltb (Rabs dx1) (dy * 16))
  && negb (up c0) && negb (up c1).

(** The order by bounding boxes (1006-1012) or by the [x] coordinates of two points (1209-1215). *)
Definition order_of (left right : bool) : order := if left then Left else if right then Right else Ish.

(** curve/mod.rs:865-867 [EstParab::max_param]. *)
Definition max_param (p : rparab) : R := Rmax (Rmax (Rabs (e_c0 p)) (Rabs (e_c1 p))) (Rabs (e_c2 p)).
(** curve/mod.rs:1027-1034: centering and scaling. *)
Definition rescale (y_mid y_scale : R) (c : rcubic) : rcubic :=
  let f p := mkRP ((ry p - y_mid) * y_scale) (rx p) in mkRC (f (q0 c)) (f (q1 c)) (f (q2 c)) (f (q3 c)).
(** [f64::clamp], for [lo <= hi]. *)
Definition rclamp (x lo hi : R) : R := Rmin (Rmax x lo) hi.
Definition set_last_end (l : list rentry) (y : R) : list rentry :=
  match last_opt l with Some (_, o) => removelast l ++ [(y, o)] | None => l end.
(** curve/mod.rs:1021-1072: the orders of the approximating parabolas, and the width of their error interval. *)
Definition estimate (c0 c1 : rcubic) (y0 y1 : R) : rorder * R :=
  let y_mid := (y0 + y1) / 2 in
  let y_unscale := Rmax (y1 - y0) 1 in
  let y_scale := / y_unscale in
  let ep0 := est (rescale y_mid y_scale c0) in
  let ep1 := est (rescale y_mid y_scale c1) in
  let err := Rmax (max_param ep0) (max_param ep1) * / 10 ^ 12 in
  let dmax := e_dmax ep1 - e_dmin ep0 + err in
  let dmin := e_dmin ep1 - e_dmax ep0 - err in
  let scratch := push_quadratic_signs (e_c2 ep1 - e_c2 ep0) (e_c1 ep1 - e_c1 ep0) (e_c0 ep1 - e_c0 ep0)
      (- dmax - tolerance) (- dmin + tolerance)
      ((y0 - y_mid) * y_scale) ((y1 - y_mid) * y_scale) (mkRO (y0 - y_mid) []) in
  let cmps := map (fun e => (rclamp (fst e * y_unscale + y_mid) y0 y1, snd e)) (ro_cmps scratch) in
  (mkRO y0 (set_last_end cmps y1), dmax - dmin).

(** curve/mod.rs:84-96, 133-138 [CurveOrder::iter]. *)
Fixpoint intervals (start : R) (l : list rentry) : list (R * R * order) :=
  match l with [] => [] | (e, o) :: l' => (start, e, o) :: intervals e l' end.
Definition ro_iter (c : rorder) : list (R * R * order) := intervals (ro_start c) (ro_cmps c).

(** curve/mod.rs:1101-1139: copying the strict intervals and refining the close ones; [None]: see [compare_rec]. *)
Fixpoint refine_all (rec : R -> R -> rorder -> option rorder) (y0 y1 width : R) (l : list (R * R * order)) (out : rorder) : option rorder :=
  match l with
  | [] => Some out
  | (s, e, o) :: l' =>
      let mid := / 2 * (s + e) in
      match
        (if order_eqb o Ish then
           if rleb (y1 - y0) accuracy || rleb width accuracy then Some (ro_push out e o)
           else if rltb (e - s) (/ 2 * (y1 - y0)) then rec s e out
           else match rec s mid out with Some out => rec mid e out | None => None end
         else Some (ro_push out e o))
      with
      | Some out => refine_all rec y0 y1 width l' out
      | None => None
      end
  end.
(** curve/mod.rs:981-1140 [intersect_cubics_rec]; [None]: out of fuel, or the curves are so flat that they are rotated (not modelled here). *)
Fixpoint compare_rec (fuel : nat) (oc0 oc1 : rcubic) (y0 y1 : R) (out : rorder) : option rorder :=
  match fuel with
  | 0%nat => None
  | S fuel =>
      let c0 := y_subsegment oc0 y0 y1 in
      let c1 := y_subsegment oc1 y0 y1 in
      if rleb (max_distance c0 c1) tolerance then Some (ro_push out y1 Ish) else
      if rltb (y1 - y0) accuracy then
        let (lo0, hi0) := bbox c0 in
        let (lo1, hi1) := bbox c1 in
        Some (ro_push out y1 (order_of (rleb (hi0 + tolerance) lo1) (rleb (hi1 + tolerance) lo0)))
      else
      if rotates c0 c1 y0 y1 then None else
      let (scratch, width) := estimate c0 c1 y0 y1 in
      refine_all (compare_rec fuel oc0 oc1) y0 y1 width (ro_iter scratch) out
  end.
(** curve/mod.rs:1189-1222 [intersect_cubics]. *)
Definition compare_curves (fuel : nat) (c0 c1 : rcubic) : option rorder :=
  let y0 := Rmax (ry (q0 c0)) (ry (q0 c1)) in
  let y1 := Rmin (ry (q3 c0)) (ry (q3 c1)) in
  if rltb y0 y1 then compare_rec fuel c0 c1 y0 y1 (mkRO y0 [])
  else if Req_EM_T y0 y1 then
    let (x0, x1) := if Req_EM_T (ry (q0 c0)) (ry (q3 c1)) then (rx (q0 c0), rx (q3 c1)) else (rx (q3 c0), rx (q0 c1)) in
    Some (ro_push (mkRO y0 []) y1 (order_of (rltb x0 (x1 - tolerance)) (rltb (x1 + tolerance) x0)))
  else Some (mkRO y0 []).
End Compare.
