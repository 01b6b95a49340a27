(** Model of src/geom.rs: segments and splitting a cubic into monotone pieces. *)
From Coq Require Import List Bool ZArith.
From Verif Require Import F64 F64Arith.
Import ListNotations.

(** kurbo::CubicBez: four control points.  ([kurbo::Point] is modelled by [point].) *)
Record cubic : Set := mkCubic { c0 : point; c1 : point; c2 : point; c3 : point }.

(** kurbo's [Point ==]: component-wise IEEE equality. *)
Definition kpoint_eq := point_eq.

(** f64 literals used by geom.rs. *)
Definition fone : f64 := f64_of_Z 1.
Definition fthird : f64 := fdiv fone (f64_of_Z 3).
Definition ftwothirds : f64 := fdiv (f64_of_Z 2) (f64_of_Z 3).

(** kurbo: [p + (q - p) * t]. *)
Definition klerp (p q : point) (t : f64) : point :=
  mkPoint (fadd (py p) (fmul (fsub (py q) (py p)) t)) (fadd (px p) (fmul (fsub (px q) (px p)) t)).

(** geom.rs:138-165 [force_monotonic]. *)
Definition force_monotonic (c : cubic) : option cubic :=
  if flt (py (c0 c)) (py (c3 c)) then
    Some (mkCubic (c0 c) (mkPoint (fmax (py (c0 c)) (py (c1 c))) (px (c1 c)))
                  (mkPoint (fmin (py (c3 c)) (py (c2 c))) (px (c2 c))) (c3 c))
  else if flt (py (c3 c)) (py (c0 c)) then
    Some (mkCubic (c0 c) (mkPoint (fmin (py (c0 c)) (py (c1 c))) (px (c1 c)))
                  (mkPoint (fmax (py (c3 c)) (py (c2 c))) (px (c2 c))) (c3 c))
  else if negb (kpoint_eq (c0 c) (c3 c)) then
    Some (mkCubic (c0 c) (klerp (c0 c) (c3 c) fthird) (klerp (c0 c) (c3 c) ftwothirds) (c3 c))
  else None.

(** geom.rs:167-172 [MonotonicPiece]. *)
Record piece : Set := mkPiece { start_t : f64; end_t : f64; pc : cubic }.

Section Pieces.
(** Curve evaluation and the inner control points of a sub-curve: kurbo's
    [CubicBez::subsegment(t0..t1)] has end points [eval t0], [eval t1]. *)
Variable eval : cubic -> f64 -> point.
Variable ctrl : cubic -> f64 -> f64 -> point * point.
Definition subsegment (c : cubic) (t0 t1 : f64) : cubic :=
  mkCubic (eval c t0) (fst (ctrl c t0 t1)) (snd (ctrl c t0 t1)) (eval c t1).

(** curve/mod.rs [monic_quadratic_roots]: the two roots of [t^2 + b t + c], any function here. *)
Variable monic : f64 -> f64 -> f64 * f64.

(** [is_infinite]. *)
Definition finf (x : f64) : bool := negb (nan x) && negb (fin x).

(** geom.rs:175-201: the roots of the derivative, at most two of them. *)
Definition roots (cub : cubic) : list f64 :=
  let q0 := fsub (py (c1 cub)) (py (c0 cub)) in
  let q1 := fsub (py (c2 cub)) (py (c1 cub)) in
  let q2 := fsub (py (c3 cub)) (py (c2 cub)) in
  let c := q0 in
  let b := fmul (fsub q1 q0) (f64_of_Z 2) in
  let a := fadd (fsub q0 (fmul q1 (f64_of_Z 2))) q2 in
  let scaled_c := fmul c (fdiv fone a) in
  let scaled_b := fmul b (fdiv fone a) in
  if finf scaled_c || finf scaled_b then [fdiv (fneg c) b]
  else let '(r0, r1) := monic scaled_b scaled_c in
       r0 :: (if fne r1 r0 then [r1] else []).

(** geom.rs:203-226: the loop over the roots. *)
Fixpoint mono_loop (c : cubic) (last_r : f64) (rs : list f64) : list piece :=
  match rs with
  | [] =>
      match force_monotonic (subsegment c last_r fone) with
      | Some p => [mkPiece last_r fone p]
      | None => []
      end
  | r :: rs' =>
      if fgt r fzero && flt r fone then
        match force_monotonic (subsegment c last_r r) with
        | Some p => mkPiece last_r r p :: mono_loop c r rs'
        | None => mono_loop c r rs'
        end
      else mono_loop c last_r rs'
  end.

(** geom.rs:174-229 [monotonic_pieces].  The [ArrayVec<_, 3>] overflow panic is [None]. *)
Definition monotonic_pieces (c : cubic) : option (list piece) :=
  let ps := mono_loop c fzero (roots c) in
  if length ps <=? 3 then Some ps else None.
End Pieces.

(** geom.rs:107-125 [Segment], [SegmentInner]. *)
Inductive segment : Set :=
| SLine (p0 p1 : point)
| SCubic (p0 p1 p2 p3 : point).

(** geom.rs:245-253 [Segment::straight]; the [debug_assert!] is a panic. *)
Definition straight (s e : point) : option segment :=
  if point_le s e then Some (SLine s e) else None.

(** geom.rs:232-243 [Segment::monotonic_cubic]. *)
Definition monotonic_cubic (p0 p1 p2 p3 : point) : option segment :=
  if feq (py p3) (py p0) then straight p0 p3 else Some (SCubic p0 p1 p2 p3).

(** geom.rs:255-268 [Segment::start], [Segment::end]. *)
Definition seg_start (s : segment) : point :=
  match s with SLine p0 _ => p0 | SCubic p0 _ _ _ => p0 end.
Definition seg_end (s : segment) : point :=
  match s with SLine _ p1 => p1 | SCubic _ _ _ p3 => p3 end.

(** geom.rs:384-396 [Segment::is_horizontal]; the [debug_assert_ne!] on cubics is [None]. *)
Definition is_horizontal (s : segment) : option bool :=
  match s with
  | SLine p0 p1 => Some (feq (py p0) (py p1))
  | SCubic p0 _ _ p3 => if feq (py p0) (py p3) then None else Some false
  end.

(** geom.rs:62-66, 83-86, 101-105: [Point::from(kurbo::Point)] asserts finiteness (a [debug_assert!]). *)
Definition from_kurbo (p : point) : option point :=
  if fin (px p) && fin (py p) then Some p else None.
