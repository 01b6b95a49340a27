(** Model of src/lib.rs: [binary_op] and the [inside] predicate of [binary_op_with_eps], and of the
    winding number types of src/topology.rs with the wrapping [i32] arithmetic of release builds. *)
From Coq Require Import ZArith Bool List Lia.
From Verif Require Import F64 TopoModel.
Local Open Scope Z_scope.

(** ** i32 *)
Definition in_i32 (z : Z) : bool := (- 2 ^ 31 <=? z) && (z <? 2 ^ 31).
Definition i32 : Type := { z : Z | in_i32 z = true }.
Definition i32_val (x : i32) : Z := proj1_sig x.
(** Two's complement reduction. *)
Definition wrap_Z (z : Z) : Z := (z + 2 ^ 31) mod 2 ^ 32 - 2 ^ 31.
Lemma wrap_in z : in_i32 (wrap_Z z) = true.
Proof.
  unfold in_i32, wrap_Z. pose proof (Z.mod_pos_bound (z + 2 ^ 31) (2 ^ 32) eq_refl).
  apply andb_true_iff. split; [apply Z.leb_le | apply Z.ltb_lt]; lia.
Qed.
Definition i32_wrap (z : Z) : i32 := exist _ (wrap_Z z) (wrap_in z).
(** [i32::add] in a release build (a debug build panics instead of wrapping). *)
Definition i32_add (x y : i32) : i32 := i32_wrap (i32_val x + i32_val y).
Definition i32_eqb (x y : i32) : bool := i32_val x =? i32_val y.

(** topology.rs:56-61, 63-80, 82-91 [BinaryWindingNumber]: fields [shape_a], [shape_b], [single], [add]; equality is derived. *)
Record bwn : Type := mkBwn { shape_a : i32; shape_b : i32 }.
Definition binary_i32_wops : wops bwn bool := {|
  w_zero := mkBwn (i32_wrap 0) (i32_wrap 0);
  w_add := fun x y => mkBwn (i32_add (shape_a x) (shape_a y)) (i32_add (shape_b x) (shape_b y));
  w_single := fun tag pos =>
    let sign := if (pos : bool) then i32_wrap 1 else i32_wrap (-1) in
    if (tag : bool) then mkBwn sign (i32_wrap 0) else mkBwn (i32_wrap 0) sign;
  w_eqb := fun x y => i32_eqb (shape_a x) (shape_a y) && i32_eqb (shape_b x) (shape_b y) |}.
(** topology.rs:105-115 [impl WindingNumber for i32]. *)
Definition unary_i32_wops : wops i32 unit := {|
  w_zero := i32_wrap 0;
  w_add := i32_add;
  w_single := fun _ pos => if (pos : bool) then i32_wrap 1 else i32_wrap (-1);
  w_eqb := i32_eqb |}.

(** lib.rs:38-43 [FillRule], 47-56 [BinaryOp]. *)
Inductive fill_rule := EvenOdd | NonZero.
Inductive bin_op := Union | Intersection | Difference | Xor.
(** lib.rs:150-153 [inside_one]; Rust's [%] truncates towards zero ([Z.rem]). *)
Definition inside_one (r : fill_rule) (w : i32) : bool :=
  match r with
  | EvenOdd => negb (Z.rem (i32_val w) 2 =? 0)
  | NonZero => negb (i32_val w =? 0)
  end.
(** lib.rs:149-161 [inside]. *)
Definition inside (r : fill_rule) (op : bin_op) (w : bwn) : bool :=
  match op with
  | Union => inside_one r (shape_a w) || inside_one r (shape_b w)
  | Intersection => inside_one r (shape_a w) && inside_one r (shape_b w)
  | Xor => negb (Bool.eqb (inside_one r (shape_a w)) (inside_one r (shape_b w)))
  | Difference => inside_one r (shape_a w) && negb (inside_one r (shape_b w))
  end.

(** ** The accuracy parameter *)
(** What kurbo answers about the common bounding box of the two paths: [min_x()], [min_y()], [max_x()], [max_y()]. *)
Record bbox : Type := mkBox { b_min_x : f64; b_min_y : f64; b_max_x : f64; b_max_y : f64 }.
Inductive bin_error := EInfinity | ENaN.
Definition f_inf (x : f64) : bool := negb (fin x) && negb (nan x).
(** [f64::EPSILON * 64.0] and [1e-6] (the quotient rounds to the literal). *)
Definition eps64 : f64 := fmul (fdiv (f64_of_Z 1) (f64_of_Z (2 ^ 52))) (f64_of_Z 64).
Definition eps_min : f64 := fdiv (f64_of_Z 1) (f64_of_Z 1000000).
(** lib.rs:99-115 [binary_op], up to the call of [binary_op_with_eps]: the error or the chosen accuracy. *)
Definition choose_eps (b : bbox) : bin_error + f64 :=
  let mn := fmin (b_min_x b) (b_min_y b) in
  let mx := fmax (b_max_x b) (b_max_y b) in
  if f_inf mn || f_inf mx then inl EInfinity
  else if nan mn || nan mx then inl ENaN
  else
    let m_2 := fmax (fabs mn) (fabs mx) in
    inr (fmax (fmul m_2 eps64) eps_min).
