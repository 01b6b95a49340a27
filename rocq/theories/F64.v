(** IEEE-754 binary64, i.e. Rust's [f64], as Flocq's [binary_float 53 1024], and the order
    types of src/num.rs and src/geom.rs.  Everything here is computable. *)
From Coq Require Import ZArith Bool Lia.
From Flocq Require Import Core BinarySingleNaN.
Import SpecFloat.
Local Open Scope Z_scope.

#[global] Instance prec_gt_0_53 : Prec_gt_0 53.
Proof. reflexivity. Qed.
#[global] Instance prec_lt_emax_53_1024 : Prec_lt_emax 53 1024.
Proof. reflexivity. Qed.

(** Rust [f64].  NaN payloads and signs are not modelled (no modelled code inspects them). *)
Definition f64 : Set := binary_float 53 1024.

(** Rust's [<], [<=], [>], [>=], [==], [!=] on [f64]: all but [!=] are false on NaN. *)
Definition flt (x y : f64) : bool := Bltb x y.
Definition fle (x y : f64) : bool := Bleb x y.
Definition fgt (x y : f64) : bool := Bltb y x.
Definition fge (x y : f64) : bool := Bleb y x.
Definition feq (x y : f64) : bool := Beqb x y.
Definition fne (x y : f64) : bool := negb (Beqb x y).

(** Arithmetic in round-to-nearest-even. *)
Definition fadd (x y : f64) : f64 := Bplus mode_NE x y.
Definition fsub (x y : f64) : f64 := Bminus mode_NE x y.
Definition fmul (x y : f64) : f64 := Bmult mode_NE x y.
Definition fdiv (x y : f64) : f64 := Bdiv mode_NE x y.
Definition fneg (x : f64) : f64 := Bopp x.
Definition fabs (x : f64) : f64 := Babs x.

Definition nan (x : f64) : bool := is_nan x.
Definition fin (x : f64) : bool := is_finite x.

(** Rust's [f64::min] / [f64::max]: if one argument is NaN the other is returned.
    (For [min(0.0, -0.0)] Rust allows either zero; the model picks the first.) *)
Definition fmin (x y : f64) : f64 :=
  if nan x then y else if nan y then x else if fle x y then x else y.
Definition fmax (x y : f64) : f64 :=
  if nan x then y else if nan y then x else if fle y x then x else y.

Definition fzero : f64 := B754_zero false.
Definition finfinity : f64 := B754_infinity false.
(** Integer literals, rounded to nearest. *)
Definition f64_of_Z (z : Z) : f64 := @BinarySingleNaN.binary_normalize 53 1024 _ _ mode_NE z 0 false.

(** ** Embedding the non-NaN floats in Z *)

(** Finite values in units of 2^-1074; infinities beyond every finite value; NaN is sent to an
    arbitrary value and excluded by the lemmas. *)
Definition key_inf : Z := 2 ^ 2200.
Definition key (x : f64) : Z :=
  match x with
  | B754_zero _ => 0
  | B754_infinity s => if s then - key_inf else key_inf
  | B754_nan => 0
  | B754_finite s m e _ => let k := Z.pos m * 2 ^ (e + 1074) in if s then - k else k
  end.

(** ** src/num.rs and src/geom.rs orders *)

(** num.rs:113-124 [impl Ord for CheapOrderedFloat]. *)
Definition cof_cmp (x y : f64) : comparison :=
  if flt x y then Lt else if fgt x y then Gt else Eq.

(** geom.rs:14-26 [struct Point]. *)
Record point : Set := mkPoint { py : f64; px : f64 }.

(** geom.rs:28-39 [impl Ord for Point]: lexicographic on [(y, x)]. *)
Definition point_cmp (p q : point) : comparison :=
  match cof_cmp (py p) (py q) with
  | Eq => cof_cmp (px p) (px q)
  | c => c
  end.

Definition point_lt (p q : point) : bool := match point_cmp p q with Lt => true | _ => false end.
Definition point_le (p q : point) : bool := match point_cmp p q with Gt => false | _ => true end.
(** geom.rs:13 [derive(PartialEq)] on Point: component-wise [==]. *)
Definition point_eq (p q : point) : bool := feq (py p) (py q) && feq (px p) (px q).

Definition point_nonnan (p : point) : Prop := nan (px p) = false /\ nan (py p) = false.

(** ** Proofs: comparisons are comparisons of keys *)

Lemma bounded_digits m e : SpecFloat.bounded 53 1024 m e = true ->
  -1074 <= e <= 971 /\ Z.pos m < 2 ^ 53 /\ (e = -1074 \/ 2 ^ 52 <= Z.pos m).
Proof.
  unfold SpecFloat.bounded, SpecFloat.canonical_mantissa, SpecFloat.fexp, SpecFloat.emin.
  rewrite andb_true_iff. intros [H1 H2].
  apply Zeq_bool_eq in H1. apply Zle_bool_imp_le in H2.
  rewrite Digits.Zpos_digits2_pos in H1.
  set (d := Digits.Zdigits radix2 (Z.pos m)) in *.
  assert (Hd : Z.pow 2 (d - 1) <= Z.pos m < Z.pow 2 d).
  { pose proof (Digits.Zdigits_correct radix2 (Z.pos m)) as H. simpl in H. exact H. }
  assert (Hd53 : d <= 53) by lia.
  split; [lia|]. split.
  - eapply Z.lt_le_trans; [apply Hd|]. apply Z.pow_le_mono_r; lia.
  - destruct (Z.eq_dec e (-1074)) as [He|He]; [left; exact He|right].
    assert (d = 53) by lia. eapply Z.le_trans; [|apply Hd]. apply Z.pow_le_mono_r; lia.
Qed.

Lemma key_finite_bound m e : SpecFloat.bounded 53 1024 m e = true ->
  0 < Z.pos m * 2 ^ (e + 1074) < key_inf.
Proof.
  intros H. apply bounded_digits in H. destruct H as (He & Hm & _).
  assert (0 < 2 ^ (e + 1074)) by (apply Z.pow_pos_nonneg; lia).
  split; [nia|].
  apply Z.lt_le_trans with (2 ^ 53 * 2 ^ (e + 1074)); [nia|].
  rewrite <- Z.pow_add_r by lia. unfold key_inf. apply Z.pow_le_mono_r; lia.
Qed.

Lemma key_lt_exp m1 e1 m2 e2 : SpecFloat.bounded 53 1024 m1 e1 = true ->
  SpecFloat.bounded 53 1024 m2 e2 = true -> e1 < e2 ->
  Z.pos m1 * 2 ^ (e1 + 1074) < Z.pos m2 * 2 ^ (e2 + 1074).
Proof.
  intros H1 H2 He. apply bounded_digits in H1, H2.
  destruct H1 as (He1 & Hm1 & _), H2 as (He2 & Hm2 & [E|Hn]); [lia|].
  assert (Hp : 2 ^ (e2 + 1074) = 2 ^ (e1 + 1074) * 2 * 2 ^ (e2 - e1 - 1)).
  { replace (e2 + 1074) with ((e1 + 1074) + (1 + (e2 - e1 - 1))) by lia.
    rewrite (Z.pow_add_r 2 (e1 + 1074)) by lia. rewrite (Z.pow_add_r 2 1) by lia. lia. }
  rewrite Hp. clear Hp.
  assert (0 < 2 ^ (e1 + 1074)) by (apply Z.pow_pos_nonneg; lia).
  assert (0 < 2 ^ (e2 - e1 - 1)) by (apply Z.pow_pos_nonneg; lia).
  assert (Z.pos m1 < 2 * Z.pos m2) by lia.
  set (P := 2 ^ (e1 + 1074)) in *. set (Q := 2 ^ (e2 - e1 - 1)) in *.
  apply Z.lt_le_trans with (2 * Z.pos m2 * P); [nia|].
  replace (Z.pos m2 * (P * 2 * Q)) with (2 * Z.pos m2 * P * Q) by ring. nia.
Qed.

Lemma cmp_finite_pos m1 e1 m2 e2 : SpecFloat.bounded 53 1024 m1 e1 = true ->
  SpecFloat.bounded 53 1024 m2 e2 = true ->
  (Z.pos m1 * 2 ^ (e1 + 1074) ?= Z.pos m2 * 2 ^ (e2 + 1074)) =
  match e1 ?= e2 with Lt => Lt | Gt => Gt | Eq => Pos.compare m1 m2 end.
Proof.
  intros H1 H2. destruct (Z.compare_spec e1 e2) as [E|E|E].
  - subst e2. assert (0 < 2 ^ (e1 + 1074)) by (apply Z.pow_pos_nonneg; apply bounded_digits in H1; lia).
    change (Pos.compare m1 m2) with (Z.pos m1 ?= Z.pos m2).
    destruct (Z.compare_spec (Z.pos m1) (Z.pos m2)) as [F|F|F].
    + rewrite F. apply Z.compare_refl.
    + apply Z.compare_lt_iff. nia.
    + apply Z.compare_gt_iff. nia.
  - apply Z.compare_lt_iff. apply key_lt_exp; assumption.
  - apply Z.compare_gt_iff. apply key_lt_exp; assumption.
Qed.

Ltac zc := apply f_equal; symmetry;
  first [apply Z.compare_refl | apply Z.compare_lt_iff; lia | apply Z.compare_gt_iff; lia].

Lemma Bcompare_key (x y : f64) : nan x = false -> nan y = false ->
  Bcompare x y = Some (key x ?= key y).
Proof.
  assert (HI : 0 < key_inf) by reflexivity.
  destruct x as [s1|s1| |s1 m1 e1 H1], y as [s2|s2| |s2 m2 e2 H2]; intros Hx Hy;
    try discriminate; unfold Bcompare, key; cbn [B2SF SFcompare];
    try pose proof (key_finite_bound m1 e1 H1); try pose proof (key_finite_bound m2 e2 H2);
    generalize dependent key_inf; intros kinf HI; intros; cbv zeta;
    try (destruct s1); try (destruct s2); try zc.
  - apply f_equal. rewrite Z.compare_opp, (cmp_finite_pos m2 e2 m1 e1) by assumption.
    rewrite (Z.compare_antisym e1 e2). rewrite (Pos.compare_antisym m1 m2).
    destruct (e1 ?= e2); cbn [CompOpp]; reflexivity.
  - apply f_equal. rewrite cmp_finite_pos by assumption. destruct (e1 ?= e2); reflexivity.
Qed.

Lemma flt_key x y : nan x = false -> nan y = false -> flt x y = (key x <? key y).
Proof.
  intros Hx Hy. unfold flt, Bltb, SFltb. change (SFcompare (B2SF x) (B2SF y)) with (Bcompare x y).
  rewrite (Bcompare_key x y Hx Hy). unfold Z.ltb. destruct (key x ?= key y); reflexivity.
Qed.

Lemma fle_key x y : nan x = false -> nan y = false -> fle x y = (key x <=? key y).
Proof.
  intros Hx Hy. unfold fle, Bleb, SFleb. change (SFcompare (B2SF x) (B2SF y)) with (Bcompare x y).
  rewrite (Bcompare_key x y Hx Hy). unfold Z.leb. destruct (key x ?= key y); reflexivity.
Qed.

Lemma feq_key x y : nan x = false -> nan y = false -> feq x y = (key x =? key y).
Proof.
  intros Hx Hy. unfold feq, Beqb, SFeqb. change (SFcompare (B2SF x) (B2SF y)) with (Bcompare x y).
  rewrite (Bcompare_key x y Hx Hy). rewrite Z.eqb_compare. destruct (key x ?= key y); reflexivity.
Qed.

Lemma fgt_key x y : nan x = false -> nan y = false -> fgt x y = (key y <? key x).
Proof. intros Hx Hy. apply flt_key; assumption. Qed.
Lemma fge_key x y : nan x = false -> nan y = false -> fge x y = (key y <=? key x).
Proof. intros Hx Hy. apply fle_key; assumption. Qed.
Lemma fne_key x y : nan x = false -> nan y = false -> fne x y = negb (key x =? key y).
Proof. intros Hx Hy. unfold fne. f_equal. apply feq_key; assumption. Qed.

Lemma fmin_nonnan x y : nan x = false -> nan y = false ->
  nan (fmin x y) = false /\ key (fmin x y) = Z.min (key x) (key y).
Proof.
  intros Hx Hy. unfold fmin. rewrite Hx, Hy, fle_key by assumption.
  destruct (Z.leb_spec (key x) (key y)); split; try assumption; lia.
Qed.

Lemma fmax_nonnan x y : nan x = false -> nan y = false ->
  nan (fmax x y) = false /\ key (fmax x y) = Z.max (key x) (key y).
Proof.
  intros Hx Hy. unfold fmax. rewrite Hx, Hy, fle_key by assumption.
  destruct (Z.leb_spec (key y) (key x)); split; try assumption; lia.
Qed.

Lemma cof_cmp_key x y : nan x = false -> nan y = false -> cof_cmp x y = (key x ?= key y).
Proof.
  intros Hx Hy. unfold cof_cmp. rewrite flt_key, fgt_key by assumption.
  destruct (Z.compare_spec (key x) (key y)) as [H|H|H].
  - rewrite H, Z.ltb_irrefl. reflexivity.
  - rewrite (proj2 (Z.ltb_lt _ _) H). reflexivity.
  - destruct (key x <? key y) eqn:E; [apply Z.ltb_lt in E; lia|].
    rewrite (proj2 (Z.ltb_lt _ _) H). reflexivity.
Qed.

Lemma point_cmp_key p q : point_nonnan p -> point_nonnan q ->
  point_cmp p q = match key (py p) ?= key (py q) with Eq => key (px p) ?= key (px q) | c => c end.
Proof.
  intros [H1 H2] [H3 H4]. unfold point_cmp. rewrite !cof_cmp_key by assumption. reflexivity.
Qed.

(** Distinct keys for distinct values up to the sign of zero. *)
Lemma key_inj x y : nan x = false -> nan y = false -> key x = key y ->
  x = y \/ (exists a b, x = B754_zero a /\ y = B754_zero b).
Proof.
  intros Hx Hy E. assert (H : Bcompare x y = Some Eq) by (rewrite Bcompare_key, E, Z.compare_refl by assumption; reflexivity).
  assert (HI : 0 < key_inf) by reflexivity.
  destruct x as [s1|s1| |s1 m1 e1 H1], y as [s2|s2| |s2 m2 e2 H2]; try discriminate.
  - right. eauto.
  - destruct s2; discriminate.
  - destruct s2; discriminate.
  - destruct s1; discriminate.
  - left. destruct s1, s2; try reflexivity; discriminate.
  - destruct s1; discriminate.
  - destruct s1; discriminate.
  - destruct s2; discriminate.
  - left. unfold Bcompare in H. cbn [B2SF SFcompare] in H.
    destruct s1, s2; try discriminate; destruct (Z.compare_spec e1 e2) as [He|He|He]; try discriminate;
      subst e2; injection H as H.
    + fold (Pos.compare m1 m2) in H. destruct (Pos.compare_spec m1 m2) as [Hm|Hm|Hm]; try discriminate.
      subst m2. f_equal. apply Eqdep_dec.UIP_dec. apply bool_dec.
    + fold (Pos.compare m1 m2) in H. destruct (Pos.compare_spec m1 m2) as [Hm|Hm|Hm]; try discriminate.
      subst m2. f_equal. apply Eqdep_dec.UIP_dec. apply bool_dec.
Qed.

Lemma fin_nonnan x : fin x = true -> nan x = false.
Proof. destruct x; easy. Qed.
