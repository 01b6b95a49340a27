(** Model of src/curve/mod.rs:319-1222: comparing two curves ([intersect_cubics] and what it calls).

    Numerical helpers that live in kurbo or only estimate are parameters: [sub] (the curve [c.subsegment(solve_t_for_y(c, y0)..
    solve_t_for_y(c, y1))]), [bbox] (the smallest and largest [x] of [Shape::bounding_box]), [est] ([EstParab::from_cubic]),
    [solve_x] ([solve_x_for_y]), [rot]/[unrot] (applying [Affine::rotate_about(theta, center)] and its inverse, for [theta] = 45
    degrees if the flag is [true] and -45 degrees otherwise).  [dbg] says whether debug assertions are on; those inside
    [solve_t_for_y] are not modelled.  A panic is [Err EAssert] (assertion) or [Err EIndex] ([unwrap]); [Err EFuel] is the fuel of
    the recursion. *)
From Coq Require Import List Bool ZArith Arith.
From Flocq Require Import BinarySingleNaN.
From Verif Require Import F64 F64Arith TreeVecModel GeomModel SegmentsModel CurveOrderModel SweepModel TopoModel ScanModel PosModel.
Import ListNotations.

(** f64 literals and methods. *)
Definition fhalf : f64 := fdiv fone ftwo.
Definition ffour : f64 := f64_of_Z 4.
Definition fsixteen : f64 := f64_of_Z 16.
Definition ftiny : f64 := fdiv fone (f64_of_Z (10 ^ 12)). (* 1e-12 *)
Definition fcopysign (x y : f64) : f64 := if Bool.eqb (Bsign x) (Bsign y) then x else fneg x.
Definition fsignum (x : f64) : f64 := if nan x then x else if Bsign x then fneg fone else fone.
Definition finf (x : f64) : bool := negb (nan x) && negb (fin x).
(** [f64::clamp]: asserts [lo <= hi], also in release builds. *)
Definition fclamp (x lo hi : f64) : res f64 :=
  if fle lo hi then let x := if flt x lo then lo else x in Ok (if fgt x hi then hi else x) else Err EAssert.

(** geom.rs:271-287 [to_kurbo_cubic]. *)
Definition lerp_third (w : f64) (p q : point) : point :=
  mkPoint (fadd (py p) (fmul w (fsub (py q) (py p)))) (fadd (px p) (fmul w (fsub (px q) (px p)))).
Definition to_cubic (s : segment) : cubic :=
  match s with
  | SLine p q => mkCubic p (lerp_third (fdiv fone (f64_of_Z 3)) p q) (lerp_third (fdiv ftwo (f64_of_Z 3)) p q) q
  | SCubic p0 p1 p2 p3 => mkCubic p0 p1 p2 p3
  end.

(** curve/mod.rs:98-131 [CurveOrder::push] without its debug assertions. *)
Definition push_any (c : curve_order) (end_ : f64) (o : order) : curve_order :=
  match last_opt (co_cmps c) with
  | Some last =>
      match e_order last, o with
      | Right, Right | Left, Left | Ish, Ish =>
          mkCO (co_start c) (set_last (co_cmps c) (mkEntry end_ (e_order last)))
      | Right, Left | Left, Right =>
          mkCO (co_start c) (co_cmps c ++ [mkEntry end_ Ish; mkEntry end_ o])
      | _, _ =>
          if fgt end_ (e_end last) then mkCO (co_start c) (co_cmps c ++ [mkEntry end_ o]) else c
      end
  | None => mkCO (co_start c) (co_cmps c ++ [mkEntry end_ o])
  end.

(** curve/mod.rs:462-515 [monic_quadratic_roots]. *)
Definition monic_quadratic_roots (b c : f64) : f64 * f64 :=
  let disc := fsub (fmul b b) (fmul ffour c) in
  let finish root1 := let root2 := fdiv c root1 in if fgt root2 root1 then (root1, root2) else (root2, root1) in
  if fin disc then
    if fle disc fzero then (fneginf, fneginf)
    else finish (fmul (fneg fhalf) (fadd b (fcopysign (fsqrt disc) b)))
  else
    let scaled_disc := fsub fone (fmul (fdiv (fdiv c b) b) ffour) in
    if negb (fin scaled_disc) then
      if fgt c fzero then (fneginf, fneginf) else (fneginf, finfinity)
    else finish (fmul (fmul (fneg fhalf) b) (fadd fone (fsqrt scaled_disc))).

(** curve/mod.rs:970-979 [l_infty_distance], [max_distance]. *)
Definition l_infty_distance (p q : point) : f64 := fmax (fabs (fsub (px p) (px q))) (fabs (fsub (py p) (py q))).
Definition max_distance (c d : cubic) : f64 :=
  fmax (fmax (fmax (l_infty_distance (cb0 c) (cb0 d)) (l_infty_distance (cb1 c) (cb1 d)))
             (l_infty_distance (cb2 c) (cb2 d))) (l_infty_distance (cb3 c) (cb3 d)).

(** curve/mod.rs:865-867 [EstParab::max_param], 870-882 [impl Sub for EstParab]. *)
Definition max_param (p : parab) : f64 := fmax (fmax (fabs (pb_c0 p)) (fabs (pb_c1 p))) (fabs (pb_c2 p)).
Definition parab_sub (p q : parab) : parab :=
  mkParab (fsub (pb_c0 p) (pb_c0 q)) (fsub (pb_c1 p) (pb_c1 q)) (fsub (pb_c2 p) (pb_c2 q))
          (fsub (pb_dmin p) (pb_dmax q)) (fsub (pb_dmax p) (pb_dmin q)).

(** [Affine * CubicBez]. *)
Definition map_cubic (f : point -> point) (c : cubic) : cubic := mkCubic (f (cb0 c)) (f (cb1 c)) (f (cb2 c)) (f (cb3 c)).

Section Compare.
Variable dbg : bool.
Variable sub : cubic -> f64 -> f64 -> cubic.
Variable bbox : cubic -> f64 * f64.
Variable est : cubic -> parab.
Variable solve_x : cubic -> f64 -> f64.
Variables rot unrot : bool -> point -> point -> point.
Variables tolerance accuracy : f64.

Definition dassert (b : bool) : res unit := if dbg && negb b then Err EAssert else Ok tt.

(** curve/mod.rs:98-131 [CurveOrder::push]. *)
Definition push (c : curve_order) (end_ : f64) (o : order) : res curve_order :=
  match co_push c end_ o with
  | Some c' => Ok c'
  | None => if dbg then Err EAssert else Ok (push_any c end_ o)
  end.

(** curve/mod.rs:385-394 [y_subsegment]. *)
Definition y_subsegment (c : cubic) (y0 y1 : f64) : res cubic :=
  do! _ := dassert (flt y0 y1) in
  do! _ := dassert (fle (py (cb0 c)) y0 && fle y1 (py (cb3 c))) in
  let r := sub c y0 y1 in
  Ok (mkCubic (mkPoint y0 (px (cb0 r))) (cb1 r) (cb2 r) (mkPoint y1 (px (cb3 r)))).

(** curve/mod.rs:650-660: the closure [push] of [push_quadratic_signs]. *)
Definition push_in (y0 y1 : f64) (out : curve_order) (p : f64 * order) : res curve_order :=
  let (end_, o) := p in
  if fgt end_ y0 && match last_opt (co_cmps out) with None => true | Some last => flt (e_end last) y1 && flt (e_end last) end_ end
  then push out (fmin end_ y1) o else Ok out.
Fixpoint pushes_in (y0 y1 : f64) (out : curve_order) (l : list (f64 * order)) : res curve_order :=
  match l with [] => Ok out | p :: l' => do! out := push_in y0 y1 out p in pushes_in y0 y1 out l' end.

(** curve/mod.rs:662-713: what [push_quadratic_signs] pushes, in order. *)
Definition quadratic_signs (a b c lower upper y1 : f64) : res (list (f64 * order)) :=
  let recip := fdiv fone a in
  let scaled_c_lower := fmul (fsub c lower) recip in
  let scaled_c_upper := fmul (fsub c upper) recip in
  let scaled_b := fmul b recip in
  if negb (fin scaled_c_lower) || negb (fin scaled_c_upper) || negb (fin scaled_b) then
    let root0 := fdiv (fneg (fsub c lower)) b in
    let root1 := fdiv (fneg (fsub c upper)) b in
    if fin root0 && fin root1 then
      if fgt b fzero then Ok [(root0, Right); (root1, Ish); (y1, Left)]
      else Ok [(root1, Left); (root0, Ish); (y1, Right)]
    else if flt c lower then Ok [(y1, Right)]
    else if fgt c upper then Ok [(y1, Left)]
    else Ok [(y1, Ish)]
  else
    let (r_lower, s_lower) := monic_quadratic_roots scaled_b scaled_c_lower in
    let (r_upper, s_upper) := monic_quadratic_roots scaled_b scaled_c_upper in
    if fgt a fzero then
      do! _ := dassert (fle r_upper r_lower || finf r_lower) in
      do! _ := dassert (fle s_lower s_upper) in
      Ok [(r_upper, Left); (r_lower, Ish); (s_lower, Right); (s_upper, Ish); (y1, Left)]
    else
      do! _ := dassert (fge r_upper r_lower || finf r_upper) in
      do! _ := dassert (fge s_lower s_upper) in
      Ok [(r_lower, Right); (r_upper, Ish); (s_upper, Left); (s_lower, Ish); (y1, Right)].
(** curve/mod.rs:638-714 [push_quadratic_signs]. *)
Definition push_quadratic_signs (a b c lower upper y0 y1 : f64) (out : curve_order) : res curve_order :=
  do! _ := dassert (flt lower upper) in
  do! l := quadratic_signs a b c lower upper y1 in
  pushes_in y0 y1 out l.

(** [*out.cmps.last_mut().unwrap().end = y]. *)
Definition set_last_end (c : curve_order) (y : f64) : res curve_order :=
  do! last := orerr EIndex (last_opt (co_cmps c)) in
  Ok (mkCO (co_start c) (set_last (co_cmps c) (mkEntry y (e_order last)))).

(** The order by bounding boxes (curve/mod.rs:1006-1012) or by the [x] coordinates of two points (935-941, 1209-1215). *)
Definition order_of (left right : bool) : order := if left then Left else if right then Right else Ish.

(** curve/mod.rs:959-963: mapping the rotated intervals back. *)
Fixpoint map_back (flag : bool) (center : point) (c0 c1 : cubic) (y0 y1 : f64) (l : list (f64 * f64 * order)) (out : curve_order) : res curve_order :=
  match l with
  | [] => Ok out
  | (_, h, o) :: l' =>
      let x1 := fdiv (fadd (solve_x c0 h) (solve_x c1 h)) ftwo in
      let p1 := unrot flag center (mkPoint h x1) in
      do! e := fclamp (py p1) y0 y1 in
      do! out := push out e o in
      map_back flag center c0 c1 y0 y1 l' out
  end.

(** curve/mod.rs:902-928: whether to rotate, and the rotated curves with the center and direction of the rotation. *)
Definition rotation (c0 c1 : cubic) (y0 y1 : f64) : option (bool * point * cubic * cubic) :=
  let dx0 := fsub (px (cb3 c0)) (px (cb0 c0)) in
  let dx1 := fsub (px (cb3 c1)) (px (cb0 c1)) in
  let dy := fsub y1 y0 in
  if fne (fsignum dx0) (fsignum dx1) then None else
  if flt (fabs dx0) (fmul dy fsixteen) || flt (fabs dx1) (fmul dy fsixteen) then None else
  let center := mkPoint (fdiv (fadd y0 y1) ftwo) (fdiv (fadd (px (cb0 c0)) (px (cb3 c0))) ftwo) in
  let flag := fgt dx0 fzero in
  let r0 := map_cubic (rot flag center) c0 in
  let r1 := map_cubic (rot flag center) c1 in
  let up c := flt (py (cb1 c)) (py (cb0 c)) || flt (py (cb2 c)) (py (cb1 c)) || flt (py (cb3 c)) (py (cb2 c)) in
  if up r0 then None else
  if up r1 then None else
  Some (flag, center, r0, r1).

(** curve/mod.rs:893-968 [with_rotation]; [None] is the result [false].  [rec] is [intersect_cubics_rec]. *)
Definition with_rotation (rec : cubic -> cubic -> f64 -> f64 -> curve_order -> res curve_order)
  (c0 c1 : cubic) (y0 y1 : f64) (out : curve_order) : res (option curve_order) :=
  match rotation c0 c1 y0 y1 with
  | None => Ok None
  | Some (flag, center, r0, r1) =>
      let y0r := fmax (py (cb0 r0)) (py (cb0 r1)) in
      let y1r := fmin (py (cb3 r0)) (py (cb3 r1)) in
      if fge y0r y1r then
        do! out := push out y1 (order_of (flt (px (cb0 c0)) (fsub (px (cb0 c1)) tolerance))
                                         (fgt (px (cb0 c0)) (fadd (px (cb0 c1)) tolerance))) in
        Ok (Some out)
      else
        do! order_rot := rec r0 r1 y0r y1r (co_new y0r) in
        do! out := map_back flag center r0 r1 y0 y1 (co_iter order_rot) out in
        do! out := set_last_end out y1 in
        Ok (Some out)
  end.

(** curve/mod.rs:1027-1034: centering and scaling. *)
Definition rescale (y_mid y_scale : f64) (c : cubic) : cubic :=
  map_cubic (fun p => mkPoint (fmul (fsub (py p) y_mid) y_scale) (px p)) c.
(** curve/mod.rs:1069-1071: back from the scaled heights. *)
Fixpoint unscale (y_mid y_unscale y0 y1 : f64) (l : list entry) : res (list entry) :=
  match l with
  | [] => Ok []
  | e :: l' =>
      do! h := fclamp (fadd (fmul (e_end e) y_unscale) y_mid) y0 y1 in
      do! l'' := unscale y_mid y_unscale y0 y1 l' in
      Ok (mkEntry h (e_order e) :: l'')
  end.
(** curve/mod.rs:1021-1072: the orders of the approximating parabolas, and the width of their error interval. *)
Definition estimate (c0 c1 : cubic) (y0 y1 : f64) : res (curve_order * f64) :=
  let y_mid := fdiv (fadd y0 y1) ftwo in
  let y_unscale := fmax (fsub y1 y0) fone in
  let y_scale := fdiv fone y_unscale in
  let ep0 := est (rescale y_mid y_scale c0) in
  let ep1 := est (rescale y_mid y_scale c1) in
  let dep := parab_sub ep1 ep0 in
  let err := fmul (fmax (max_param ep0) (max_param ep1)) ftiny in
  let dmax := fadd (pb_dmax dep) err in
  let dmin := fsub (pb_dmin dep) err in
  do! scratch := push_quadratic_signs (pb_c2 dep) (pb_c1 dep) (pb_c0 dep)
      (fsub (fneg dmax) tolerance) (fadd (fneg dmin) tolerance)
      (fmul (fsub y0 y_mid) y_scale) (fmul (fsub y1 y_mid) y_scale) (co_new (fsub y0 y_mid)) in
  do! cmps := unscale y_mid y_unscale y0 y1 (co_cmps scratch) in
  do! scratch := set_last_end (mkCO y0 cmps) y1 in
  Ok (scratch, fsub dmax dmin).
(** curve/mod.rs:1075-1098: the debug check of the strict orders at the ends of their intervals; [with_y_slop] is called in every
    build. *)
Definition check_points (c0 c1 : cubic) (scratch : curve_order) : res unit :=
  do! slopped := orerr EIndex (co_with_y_slop scratch accuracy) in
  dassert (forallb (fun '(s, e, o) =>
    match o with
    | Left => flt (solve_x c0 s) (solve_x c1 s) && flt (solve_x c0 e) (solve_x c1 e)
    | Right => fgt (solve_x c0 s) (solve_x c1 s) && fgt (solve_x c0 e) (solve_x c1 e)
    | Ish => true
    end) (co_iter slopped)).

(** curve/mod.rs:1101-1139: copying the strict intervals and refining the close ones. *)
Fixpoint refine_all (rec : f64 -> f64 -> curve_order -> res curve_order) (y0 y1 width : f64) (l : list (f64 * f64 * order))
  (out : curve_order) : res curve_order :=
  match l with
  | [] => Ok out
  | (s, e, o) :: l' =>
      do! out :=
        (if order_eqb o Ish then
           let mid := fmul fhalf (fadd s e) in
           if fle (fsub y1 y0) accuracy || fle width accuracy then push out e o
           else if flt (fsub e s) (fmul fhalf (fsub y1 y0)) then rec s e out
           else do! out := rec s mid out in rec mid e out
         else push out e o) in
      refine_all rec y0 y1 width l' out
  end.

(** curve/mod.rs:981-1140 [intersect_cubics_rec]. *)
Fixpoint intersect_rec (fuel : nat) (oc0 oc1 : cubic) (y0 y1 : f64) (out : curve_order) {struct fuel} : res curve_order :=
  match fuel with
  | 0 => Err EFuel
  | S f =>
      do! c0 := y_subsegment oc0 y0 y1 in
      do! c1 := y_subsegment oc1 y0 y1 in
      if fle (max_distance c0 c1) tolerance then push out y1 Ish else
      if flt (fsub y1 y0) accuracy then
        let (lo0, hi0) := bbox c0 in
        let (lo1, hi1) := bbox c1 in
        push out y1 (order_of (fge lo1 (fadd hi0 tolerance)) (fge lo0 (fadd hi1 tolerance)))
      else
      do! r := with_rotation (intersect_rec f) c0 c1 y0 y1 out in
      match r with
      | Some out =>
          do! _ := dassert (match last_opt (co_cmps out) with Some l => feq (e_end l) y1 | None => false end) in
          Ok out
      | None =>
          do! (scratch, width) := estimate c0 c1 y0 y1 in
          do! _ := check_points oc0 oc1 scratch in
          refine_all (intersect_rec f oc0 oc1) y0 y1 width (co_iter scratch) out
      end
  end.

(** curve/mod.rs:1189-1222 [intersect_cubics]. *)
Definition intersect_cubics (fuel : nat) (c0 c1 : cubic) : res curve_order :=
  do! _ := dassert (fgt tolerance fzero && fgt accuracy fzero && fle accuracy tolerance) in
  let y0 := fmax (py (cb0 c0)) (py (cb0 c1)) in
  let y1 := fmin (py (cb3 c0)) (py (cb3 c1)) in
  let ret := co_new y0 in
  do! ret :=
    (if flt y0 y1 then intersect_rec fuel c0 c1 y0 y1 ret
     else if feq y0 y1 then
       do! _ := dassert (feq (py (cb0 c0)) (py (cb3 c1)) || feq (py (cb3 c0)) (py (cb0 c1))) in
       let (x0, x1) := if feq (py (cb0 c0)) (py (cb3 c1)) then (px (cb0 c0), px (cb3 c1)) else (px (cb3 c0), px (cb0 c1)) in
       push ret y1 (order_of (flt x0 (fsub x1 tolerance)) (fgt x0 (fadd x1 tolerance)))
     else Ok ret) in
  do! _ := dassert (match last_opt (co_cmps ret) with Some l => feq (e_end l) y1 | None => false end) in
  Ok ret.
End Compare.
