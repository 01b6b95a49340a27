(** C37-C39: fill rules, Boolean operations, the accuracy parameter and winding number arithmetic. *)
From Coq Require Import ZArith Bool List Lia Reals Lra Eqdep_dec.
From Flocq Require Import Core BinarySingleNaN Mult_error.
From Verif Require Import F64 F64Arith CurveOrderProofs TopoModel TopoSpec BinOpModel.
Import ListNotations.
Local Open Scope Z_scope.

(** ** Specification *)
(** What it means to be inside a shape with winding number [z]. *)
Definition in_shape (r : fill_rule) (z : Z) : Prop := match r with EvenOdd => Z.Odd z | NonZero => z <> 0 end.
(** The set operations, pointwise. *)
Definition combined (op : bin_op) (P Q : Prop) : Prop :=
  match op with
  | Union => P \/ Q
  | Intersection => P /\ Q
  | Difference => P /\ ~ Q
  | Xor => (P /\ ~ Q) \/ (Q /\ ~ P)
  end.

(** ** Winding numbers *)
Lemma i32_ext (x y : i32) : i32_val x = i32_val y -> x = y.
Proof.
  destruct x as (x & Hx), y as (y & Hy). cbn. intros ->. f_equal. apply UIP_dec, bool_dec.
Qed.
Lemma i32_range (x : i32) : - 2 ^ 31 <= i32_val x < 2 ^ 31.
Proof. destruct x as (x & H). unfold i32_val. cbn [proj1_sig]. unfold in_i32 in H. zb. lia. Qed.
Lemma wrap_id z : - 2 ^ 31 <= z < 2 ^ 31 -> wrap_Z z = z.
Proof. intros H. unfold wrap_Z. rewrite Z.mod_small by lia. lia. Qed.
Lemma wrap_mod z : exists k, wrap_Z z = z + k * 2 ^ 32.
Proof.
  exists (- ((z + 2 ^ 31) / 2 ^ 32)). unfold wrap_Z. rewrite Z.mod_eq by lia. lia.
Qed.
Lemma wrap_uniq z k x : - 2 ^ 31 <= x < 2 ^ 31 -> x = z + k * 2 ^ 32 -> wrap_Z z = x.
Proof.
  intros R ->. unfold wrap_Z. replace (z + 2 ^ 31) with ((z + k * 2 ^ 32 + 2 ^ 31) + (- k) * 2 ^ 32) by lia.
  rewrite Z.mod_add by lia. rewrite Z.mod_small by lia. lia.
Qed.
Lemma wrap_add_l x y : wrap_Z (wrap_Z x + y) = wrap_Z (x + y).
Proof.
  destruct (wrap_mod (x + y)) as (k & E). destruct (wrap_mod x) as (j & F).
  pose proof (wrap_in (x + y)) as R. unfold in_i32 in R. zb.
  apply (wrap_uniq _ (k - j)); lia.
Qed.
Lemma wrap_add_r x y : wrap_Z (x + wrap_Z y) = wrap_Z (x + y).
Proof. rewrite Z.add_comm, wrap_add_l. f_equal. lia. Qed.

Lemma i32_add_val x y : i32_val (i32_add x y) = wrap_Z (i32_val x + i32_val y).
Proof. reflexivity. Qed.
Lemma i32_assoc x y z : i32_add x (i32_add y z) = i32_add (i32_add x y) z.
Proof. apply i32_ext. rewrite !i32_add_val, wrap_add_l, wrap_add_r. f_equal. lia. Qed.
Lemma i32_comm x y : i32_add x y = i32_add y x.
Proof. apply i32_ext. rewrite !i32_add_val. f_equal. lia. Qed.
Lemma i32_zero x : i32_add (i32_wrap 0) x = x.
Proof. apply i32_ext. rewrite i32_add_val. apply wrap_id. apply i32_range. Qed.
Lemma i32_inv x : i32_add x (i32_wrap (- i32_val x)) = i32_wrap 0.
Proof. apply i32_ext. rewrite i32_add_val. unfold i32_wrap. cbn [i32_val proj1_sig]. rewrite wrap_add_r. f_equal. lia. Qed.
Lemma i32_flip : i32_add (i32_wrap 1) (i32_wrap (-1)) = i32_wrap 0.
Proof. apply i32_ext. reflexivity. Qed.
Lemma i32_eqb_eq x y : i32_eqb x y = true <-> x = y.
Proof. unfold i32_eqb. rewrite Z.eqb_eq. split; [apply i32_ext | intros ->; reflexivity]. Qed.

Lemma unary_ok : wops_ok unary_i32_wops.
Proof.
  constructor; cbn.
  - exact i32_assoc.
  - exact i32_comm.
  - exact i32_zero.
  - intros x. eexists. apply i32_inv.
  - intros _. exact i32_flip.
  - exact i32_eqb_eq.
Qed.
Lemma binary_ok : wops_ok binary_i32_wops.
Proof.
  constructor; cbn.
  - intros x y z. f_equal; apply i32_assoc.
  - intros x y. f_equal; apply i32_comm.
  - intros (x & y). f_equal; apply i32_zero.
  - intros (x & y). exists (mkBwn (i32_wrap (- i32_val x)) (i32_wrap (- i32_val y))). cbn. f_equal; apply i32_inv.
  - intros [|]; cbn; f_equal; try apply i32_flip; apply i32_zero.
  - intros (x & y) (x' & y'). cbn. rewrite andb_true_iff, !i32_eqb_eq. split; [intros (-> & ->); reflexivity | intros [= -> ->]; auto].
Qed.
(** The idealised winding numbers over the integers. *)
Lemma unary_Z_ok : wops_ok i32_wops.
Proof.
  constructor; cbn; intros; try lia.
  exists (- x). lia.
Qed.
Lemma binary_Z_ok : wops_ok binary_wops.
Proof.
  constructor; cbn; intros.
  - f_equal; lia.
  - f_equal; lia.
  - destruct x; reflexivity.
  - exists (- fst x, - snd x). cbn. f_equal; lia.
  - destruct g; reflexivity.
  - destruct x, y. cbn. rewrite andb_true_iff, !Z.eqb_eq. split; [intros (-> & ->); reflexivity | intros [= -> ->]; auto].
Qed.

(** C39.  Both types of winding numbers are abelian groups, in wrapping 32-bit arithmetic as well as over the integers, and a segment
    contributes 1 or -1 to the coordinate of its own shape and 0 to the other. *)
Theorem winding_arithmetic :
  wops_ok binary_i32_wops /\ wops_ok unary_i32_wops /\ wops_ok binary_wops /\ wops_ok i32_wops /\
  (forall tag pos, let w := w_single binary_i32_wops tag pos in
     i32_val (shape_a w) = (if tag then if pos then 1 else -1 else 0) /\
     i32_val (shape_b w) = (if tag then 0 else if pos then 1 else -1)) /\
  (forall tag pos, i32_val (w_single unary_i32_wops tag pos) = if pos then 1 else -1) /\
  i32_val (w_zero unary_i32_wops) = 0 /\
  i32_val (shape_a (w_zero binary_i32_wops)) = 0 /\ i32_val (shape_b (w_zero binary_i32_wops)) = 0.
Proof.
  repeat split; try apply binary_ok; try apply unary_ok; try apply binary_Z_ok; try apply unary_Z_ok; intros;
    repeat match goal with b : bool |- _ => destruct b end; reflexivity.
Qed.

(** Sums in wrapping arithmetic agree with integer sums modulo 2^32. *)
Definition bsum (l : list (bool * bool)) : bwn :=
  fold_left (fun w p => w_add binary_i32_wops w (w_single binary_i32_wops (fst p) (snd p))) l (w_zero binary_i32_wops).
(** The number of segments of the shape [tag] in [l], counted with sign. *)
Definition signed_count (tag : bool) (l : list (bool * bool)) : Z :=
  fold_right Z.add 0 (map (fun p : bool * bool => if snd p then 1 else -1) (filter (fun p => Bool.eqb (fst p) tag) l)).
Definition component (tag : bool) (w : bwn) : i32 := if tag then shape_a w else shape_b w.

Lemma bsum_gen tag l w : i32_val (component tag (fold_left (fun w p => w_add binary_i32_wops w (w_single binary_i32_wops (fst p) (snd p))) l w))
  = wrap_Z (i32_val (component tag w) + signed_count tag l).
Proof.
  revert w. induction l as [|(g & b) l IH]; intros w.
  - cbn. rewrite Z.add_0_r. symmetry. apply wrap_id, i32_range.
  - cbn [fold_left fst snd]. rewrite IH. unfold signed_count. cbn [filter fst].
    destruct g, tag; cbn [Bool.eqb map fold_right snd component w_add binary_i32_wops w_single shape_a shape_b];
      rewrite i32_add_val, wrap_add_l; f_equal;
      destruct b; unfold i32_wrap; cbn [i32_val proj1_sig]; rewrite wrap_id by lia; lia.
Qed.

(** C37 (overflow).  However many segments are crossed, a winding number is the signed number of segments of its shape modulo 2^32: the
    even-odd rule is right even if the 32-bit counter overflows, and the non-zero rule is right as long as the signed number fits. *)
Theorem winding_overflow : forall l tag,
  let w := i32_val (component tag (bsum l)) in
  (inside_one EvenOdd (component tag (bsum l)) = true <-> Z.Odd (signed_count tag l)) /\
  (- 2 ^ 31 <= signed_count tag l < 2 ^ 31 -> w = signed_count tag l) /\
  (inside_one NonZero (component tag (bsum l)) = true <-> signed_count tag l mod 2 ^ 32 <> 0).
Proof.
  intros l tag w.
  assert (w = wrap_Z (signed_count tag l)) as E.
  { unfold w, bsum. rewrite bsum_gen. destruct tag; reflexivity. }
  split; [|split].
  - cbn [inside_one]. fold w. rewrite E. destruct (wrap_mod (signed_count tag l)) as (k & ->).
    rewrite negb_true_iff, Z.eqb_neq. rewrite <- Z.odd_spec.
    assert (forall z, Z.rem z 2 <> 0 <-> Z.odd z = true) as R.
    { intros z. destruct (Z.Even_or_Odd z) as [(q & ->)|(q & ->)].
      - rewrite Z.mul_comm, Z.rem_mul by lia. rewrite Z.mul_comm, Z.odd_mul. change (Z.odd 2) with false. rewrite andb_false_l. split; congruence.
      - rewrite Z.odd_add, Z.odd_mul. change (Z.odd 2) with false. rewrite andb_false_l. split; [reflexivity|]. intros _ H. apply Z.rem_divide in H; [|lia].
        destruct H as (r & H). lia. }
    rewrite R. rewrite Z.odd_add, Z.odd_mul. cbn. rewrite andb_false_r, xorb_false_r. reflexivity.
  - intros R. rewrite E. apply wrap_id, R.
  - cbn [inside_one]. fold w. rewrite E. rewrite negb_true_iff, Z.eqb_neq. destruct (wrap_mod (signed_count tag l)) as (k & F).
    pose proof (wrap_in (signed_count tag l)) as R. unfold in_i32 in R. zb. rewrite F.
    split; intros H; intros G; apply H.
    + apply Z.mod_divide in G; [|lia]. destruct G as (q & G). rewrite F in *. nia.
    + rewrite <- (Z.mod_add _ k) by lia. rewrite G. reflexivity.
Qed.

(** C37.  A region is inside the result exactly when the set operation, applied to being inside the two shapes, says so. *)
Theorem boolean_operations : forall r op w,
  inside r op w = true <-> combined op (in_shape r (i32_val (shape_a w))) (in_shape r (i32_val (shape_b w))).
Proof.
  intros r op w.
  assert (forall x : i32, inside_one r x = true <-> in_shape r (i32_val x)) as H.
  { intros x. destruct r; cbn [inside_one in_shape].
    - rewrite negb_true_iff, Z.eqb_neq. destruct (Z.Even_or_Odd (i32_val x)) as [E|O].
      + split; intros H; exfalso.
        * apply H. destruct E as (q & ->). rewrite Z.mul_comm. apply Z.rem_mul. lia.
        * apply (Z.Even_Odd_False _ E H).
      + split; [intros _; exact O|]. intros _ F. apply Z.rem_divide in F; [|lia]. destruct F as (q & F). destruct O as (q' & O). lia.
    - rewrite negb_true_iff, Z.eqb_neq. reflexivity. }
  destruct op; cbn [inside combined]; rewrite <- !H.
  - apply orb_true_iff.
  - apply andb_true_iff.
  - rewrite andb_true_iff, negb_true_iff, not_true_iff_false. reflexivity.
  - destruct (inside_one r (shape_a w)), (inside_one r (shape_b w)); cbn; intuition congruence.
Qed.

(** C37 (identities).  The operations are related as set operations are. *)
Theorem boolean_identities : forall r w,
  let sw := mkBwn (shape_b w) (shape_a w) in
  inside r Xor w = inside r Union w && negb (inside r Intersection w) /\
  inside r Union w = inside r Xor w || inside r Intersection w /\
  inside r Intersection w = inside r Intersection sw /\ inside r Union w = inside r Union sw /\ inside r Xor w = inside r Xor sw /\
  inside r Xor w = inside r Difference w || inside r Difference sw /\
  inside r Difference w && inside r Intersection w = false /\
  inside_one r (shape_a w) = inside r Difference w || inside r Intersection w.
Proof. intros r w sw. unfold sw, inside. cbn [shape_a shape_b]. destruct (inside_one r (shape_a w)), (inside_one r (shape_b w)); repeat split; reflexivity. Qed.

(** ** The accuracy parameter *)
Lemma key_inf_pos : 0 < key_inf.
Proof. vm_compute. reflexivity. Qed.
Local Opaque key_inf.
Lemma f_inf_key x : f_inf x = true <-> nan x = false /\ (key x = key_inf \/ key x = - key_inf).
Proof.
  destruct x as [s|[|]| |s m e H]; try (unfold f_inf; cbn [fin nan is_finite is_nan negb andb]; split; [discriminate|]; intros (Q & K); try discriminate Q).
  - exfalso. pose proof key_inf_pos. cbn in K. lia.
  - split; [|reflexivity]. intros _. cbn. auto.
  - split; [|reflexivity]. intros _. cbn. auto.
  - exfalso. pose proof (key_finite_bound m e H). unfold key in K. cbv zeta in K. destruct s; lia.
Qed.
Lemma fin_key x : fin x = true <-> nan x = false /\ - key_inf < key x < key_inf.
Proof.
  destruct x as [s|[|]| |s m e H]; cbn [fin nan is_finite is_nan]; split; try discriminate; auto.
  - intros _. split; [reflexivity|]. pose proof key_inf_pos. cbn. lia.
  - intros (_ & K). cbn in K. lia.
  - intros (_ & K). cbn in K. lia.
  - intros (? & _). discriminate.
  - intros _. split; [reflexivity|]. pose proof (key_finite_bound m e H). unfold key. cbv zeta. destruct s; lia.
Qed.
Lemma fin_or_inf x : nan x = false -> fin x = true \/ f_inf x = true.
Proof. unfold f_inf. intros ->. destruct (fin x); auto. Qed.
Lemma nan_fabs x : nan (fabs x) = nan x.
Proof. destruct x; reflexivity. Qed.
Lemma fin_fabs x : fin (fabs x) = fin x.
Proof. destruct x; reflexivity. Qed.
Lemma key_fabs x : nan x = false -> key (fabs x) = Z.abs (key x).
Proof.
  destruct x as [s|s| |s m e H]; intros N; try discriminate; cbn -[Z.pow Z.mul key_inf].
  - reflexivity.
  - pose proof key_inf_pos. destruct s; lia.
  - assert (0 <= 2 ^ (e + 1074)) by (apply Z.pow_nonneg; lia). destruct s; lia.
Qed.

Lemma eps64_R : B2R eps64 = bpow radix2 (-46).
Proof.
  assert (fin eps64 = true) as F by reflexivity.
  rewrite B2R_key by exact F. replace (key eps64) with (2 ^ 1028)%Z by (vm_compute; reflexivity).
  rewrite (IZR_Zpower radix2) by lia. rewrite <- bpow_plus. reflexivity.
Qed.
Lemma eps_min_R : (bpow radix2 (-1000) < B2R eps_min /\ Rabs (B2R eps_min * 1000000 - 1) < bpow radix2 (-50))%R.
Proof.
  assert (fin eps_min = true) as F by reflexivity.
  assert (B2R eps_min = IZR 4722366482869645 * bpow radix2 (-72))%R as E.
  { rewrite B2R_key by exact F. replace (key eps_min) with (4722366482869645 * 2 ^ 1002)%Z by (vm_compute; reflexivity).
    rewrite mult_IZR, (IZR_Zpower radix2) by lia. rewrite Rmult_assoc, <- bpow_plus. reflexivity. }
  rewrite E. split.
  - apply Rlt_le_trans with (bpow radix2 (-72)); [apply bpow_lt; lia|]. pose proof (bpow_gt_0 radix2 (-72)). nra.
  - replace (bpow radix2 (-50)) with (IZR (2 ^ 22) * bpow radix2 (-72))%R
      by (rewrite (IZR_Zpower radix2) by lia; rewrite <- bpow_plus; reflexivity).
    replace 1%R with (IZR (2 ^ 72) * bpow radix2 (-72))%R
      by (rewrite (IZR_Zpower radix2) by lia; rewrite <- bpow_plus; reflexivity).
    replace (IZR 4722366482869645 * bpow radix2 (-72) * 1000000 - IZR (2 ^ 72) * bpow radix2 (-72))%R
      with (IZR (4722366482869645 * 1000000 - 2 ^ 72) * bpow radix2 (-72))%R
      by (rewrite minus_IZR, mult_IZR; ring).
    rewrite Rabs_mult, (Rabs_right (bpow _ _)) by (apply Rle_ge, bpow_ge_0).
    apply Rmult_lt_compat_r; [apply bpow_gt_0|]. rewrite <- abs_IZR. apply IZR_lt. vm_compute. reflexivity.
Qed.

(** Scaling by 2^-46 is exact unless the result is tiny. *)
Lemma scale (m : f64) : fin m = true -> 0 <= key m ->
  fin (fmul m eps64) = true /\
  ((B2R (fmul m eps64) = B2R m * bpow radix2 (-46)) \/
   (B2R (fmul m eps64) <= bpow radix2 (-1000) /\ B2R m * bpow radix2 (-46) <= bpow radix2 (-1000)))%R.
Proof.
  intros F K.
  assert (0 <= B2R m)%R as P.
  { change 0%R with (B2R fzero). apply key_le_R; auto. }
  pose proof (Bmult_correct 53 1024 _ _ mode_NE m eps64) as H. fold (fmul m eps64) in H. rewrite eps64_R in H.
  assert (rnd64 (B2R m * bpow radix2 (-46)) <= B2R m)%R as LE.
  { rewrite <- (round_generic radix2 fexp64 (round_mode mode_NE) (B2R m)) at 2 by apply generic_format_B2R.
    apply round_le; [typeclasses eauto..|]. assert (bpow radix2 (-46) <= 1)%R by (change 1%R with (bpow radix2 0); apply bpow_le; lia). nra. }
  assert (0 <= rnd64 (B2R m * bpow radix2 (-46)))%R as GE.
  { rewrite <- (round_0 radix2 fexp64 (round_mode mode_NE)). apply round_le; [typeclasses eauto..|].
    apply Rmult_le_pos; [exact P | apply bpow_ge_0]. }
  rewrite Rlt_bool_true in H.
  2:{ rewrite Rabs_right by lra. apply Rle_lt_trans with (1 := LE). rewrite <- (Rabs_right (B2R m)) by lra. apply abs_B2R_lt_emax. }
  destruct H as (HR & HF & _). rewrite HR.
  change (is_finite m) with (fin m) in HF. change (is_finite eps64) with true in HF. rewrite F in HF.
  split; [exact HF|].
  destruct (Rle_or_lt (B2R m * bpow radix2 (-46)) (bpow radix2 (-1000))) as [L|L].
  - right. split; [|exact L].
    rewrite <- (round_generic radix2 fexp64 (round_mode mode_NE) (bpow radix2 (-1000))).
    + apply round_le; [typeclasses eauto..|]. exact L.
    + apply generic_format_bpow. vm_compute. discriminate.
  - left. apply round_generic; [typeclasses eauto|].
    change fexp64 with (FLT_exp (-1074) 53). apply mult_bpow_exact_FLT.
    + change (FLT_exp (-1074) 53) with fexp64. apply generic_format_B2R.
    + assert (bpow radix2 (-954) < B2R m)%R as L2.
      { replace (-954) with (-1000 + 46) by reflexivity. rewrite bpow_plus.
        apply Rmult_lt_reg_r with (bpow radix2 (-46)); [apply bpow_gt_0|].
        rewrite Rmult_assoc, <- bpow_plus. cbn [Z.add Z.opp Z.pos_sub]. rewrite Rmult_1_r. exact L. }
      assert (-954 < mag radix2 (B2R m)) as M.
      { apply mag_gt_bpow. rewrite Rabs_right by lra. lra. }
      lia.
Qed.

Lemma fmax_R x y : fin x = true -> fin y = true -> B2R (fmax x y) = Rmax (B2R x) (B2R y) /\ fin (fmax x y) = true.
Proof.
  intros Fx Fy. unfold fmax. rewrite (fin_nonnan x Fx), (fin_nonnan y Fy).
  destruct (fle y x) eqn:E; rewrite fle_key in E by (apply fin_nonnan; assumption).
  - apply Z.leb_le, key_le_R in E; try assumption. rewrite Rmax_left by exact E. auto.
  - apply Z.leb_gt in E. assert (key x <= key y) as E' by lia. apply key_le_R in E'; try assumption. rewrite Rmax_right by exact E'. auto.
Qed.

Lemma abs_R x : B2R (fabs x) = Rabs (B2R x).
Proof. apply B2R_Babs. Qed.

(** The coordinates of a box; a box with two corners in the right order. *)
Definition coords (b : bbox) : list f64 := [b_min_x b; b_min_y b; b_max_x b; b_max_y b].
Definition proper (b : bbox) : Prop := fle (b_min_x b) (b_max_x b) = true /\ fle (b_min_y b) (b_max_y b) = true.
(** The largest absolute value of a coordinate. *)
Definition max_abs (b : bbox) : R := fold_right Rmax 0%R (map (fun c => Rabs (B2R c)) (coords b)).

Lemma proper_nonnan b : proper b -> Forall (fun c => nan c = false) (coords b).
Proof.
  intros (X & Y). apply fle_nonnan in X. apply fle_nonnan in Y. repeat constructor; tauto.
Qed.

Lemma abs_between l v u : (l <= v -> v <= u -> Rabs v <= Rmax (Rabs l) (Rabs u))%R.
Proof.
  intros A B. apply Rmax_Rle. destruct (Rcase_abs v) as [C|C].
  - left. rewrite !Rabs_left by lra. lra.
  - right. rewrite !Rabs_right by lra. lra.
Qed.
Lemma max_abs_four a c b d : (a <= b -> c <= d ->
  Rmax (Rabs (Rmin a c)) (Rabs (Rmax b d)) = Rmax (Rabs a) (Rmax (Rabs c) (Rmax (Rabs b) (Rmax (Rabs d) 0))))%R.
Proof.
  intros X Y.
  pose proof (Rmin_l a c). pose proof (Rmin_r a c). pose proof (Rmax_l b d). pose proof (Rmax_r b d).
  apply Rle_antisym.
  - apply Rmax_lub.
    + unfold Rmin. destruct (Rle_dec _ _); repeat first [apply Rle_refl | apply Rmax_l | rewrite Rmax_Rle; right].
    + unfold Rmax at 1. destruct (Rle_dec _ _); repeat first [apply Rle_refl | apply Rmax_l | rewrite Rmax_Rle; right].
  - repeat apply Rmax_lub; try (apply abs_between; lra). apply Rmax_Rle. left. apply Rabs_pos.
Qed.
Lemma max_abs_eq b : proper b -> Forall (fun c => fin c = true) (coords b) ->
  exists mn mx, fmin (b_min_x b) (b_min_y b) = mn /\ fmax (b_max_x b) (b_max_y b) = mx /\ fin mn = true /\ fin mx = true /\
    Rmax (Rabs (B2R mn)) (Rabs (B2R mx)) = max_abs b.
Proof.
  intros (X & Y) F. unfold coords in F. inversion_clear F as [|? ? F1 F']. inversion_clear F' as [|? ? F2 F''].
  inversion_clear F'' as [|? ? F3 F']. inversion_clear F' as [|? ? F4 _].
  eexists _, _. split; [reflexivity|]. split; [reflexivity|].
  rewrite fle_key in X by (apply fin_nonnan; assumption). rewrite fle_key in Y by (apply fin_nonnan; assumption).
  apply Z.leb_le, key_le_R in X; try assumption. apply Z.leb_le, key_le_R in Y; try assumption.
  destruct (fmax_R _ _ F3 F4) as (E & ->). rewrite E.
  assert (B2R (fmin (b_min_x b) (b_min_y b)) = Rmin (B2R (b_min_x b)) (B2R (b_min_y b)) /\ fin (fmin (b_min_x b) (b_min_y b)) = true) as (E2 & ->).
  { unfold fmin. rewrite !fin_nonnan by assumption.
    destruct (fle _ _) eqn:L; rewrite fle_key in L by (apply fin_nonnan; assumption).
    - apply Z.leb_le, key_le_R in L; try assumption. rewrite Rmin_left by exact L. auto.
    - apply Z.leb_gt in L. assert (key (b_min_y b) <= key (b_min_x b)) as L' by lia. apply key_le_R in L'; try assumption.
      rewrite Rmin_right by exact L'. auto. }
  rewrite E2. split; [reflexivity|]. split; [reflexivity|].
  unfold max_abs, coords. cbn [map fold_right].
  apply max_abs_four; assumption.
Qed.

(** C38.  If the bounding box of the input is a proper box, [binary_op] answers the infinity error exactly when a coordinate is infinite;
    otherwise it works with the accuracy max(1e-6, 2^-46 * largest absolute coordinate), computed without rounding error. *)
Theorem accuracy_choice : forall b, proper b ->
  (choose_eps b = inl EInfinity <-> Exists (fun c => f_inf c = true) (coords b)) /\
  (Forall (fun c => fin c = true) (coords b) <-> exists eps, choose_eps b = inr eps) /\
  (forall eps, choose_eps b = inr eps -> fin eps = true /\ B2R eps = Rmax (B2R eps_min) (max_abs b * bpow radix2 (-46)))%R.
Proof.
  intros b P.
  pose proof (proper_nonnan b P) as NN.
  assert (Forall (fun c => fin c = true) (coords b) \/ Exists (fun c => f_inf c = true) (coords b)) as C.
  { clear P. induction NN as [|c l N _ IH]; [left; constructor|].
    destruct (fin_or_inf c N) as [F|I]; [|right; constructor; exact I].
    destruct IH as [IH|IH]; [left; constructor; assumption | right; constructor 2; exact IH]. }
  assert (Forall (fun c => fin c = true) (coords b) -> Exists (fun c => f_inf c = true) (coords b) -> False) as X.
  { intros A B. rewrite Forall_forall in A. apply Exists_exists in B as (c & I & B). specialize (A c I). unfold f_inf in B. rewrite A in B. discriminate B. }
  assert (Exists (fun c => f_inf c = true) (coords b) -> choose_eps b = inl EInfinity) as CI.
  { intros B. unfold choose_eps. replace (f_inf _ || f_inf _) with true; [reflexivity|]. symmetry. apply orb_true_iff.
    unfold coords in *. inversion_clear NN as [|? ? N1 NN']. inversion_clear NN' as [|? ? N2 NN]. inversion_clear NN as [|? ? N3 NN'].
    inversion_clear NN' as [|? ? N4 _]. destruct P as (PX & PY). rewrite fle_key in PX, PY by assumption. zb.
    destruct (fmin_nonnan _ _ N1 N2) as (M1 & M2). destruct (fmax_nonnan _ _ N3 N4) as (M3 & M4).
    rewrite !f_inf_key, M1, M2, M3, M4.
    pose proof (key_inf_ge _ N1). pose proof (key_inf_ge _ N2). pose proof (key_inf_ge _ N3). pose proof (key_inf_ge _ N4).
    pose proof key_inf_pos.
    rewrite !Exists_cons, Exists_nil, !f_inf_key in B. intuition lia. }
  assert (Forall (fun c => fin c = true) (coords b) ->
    exists eps, choose_eps b = inr eps /\ fin eps = true /\ B2R eps = Rmax (B2R eps_min) (max_abs b * bpow radix2 (-46)))%R as CF.
  { intros F. destruct (max_abs_eq b P F) as (mn & mx & E1 & E2 & F1 & F2 & M). unfold choose_eps. rewrite E1, E2.
    unfold f_inf. rewrite F1, F2. cbn [negb andb orb]. rewrite !fin_nonnan by assumption. cbn [orb].
    eexists. split; [reflexivity|].
    assert (fin (fabs mn) = true) as G1 by (rewrite fin_fabs; exact F1). assert (fin (fabs mx) = true) as G2 by (rewrite fin_fabs; exact F2).
    destruct (fmax_R _ _ G1 G2) as (E & G). rewrite !abs_R, M in E.
    destruct (scale (fmax (fabs mn) (fabs mx)) G) as (H & S).
    { apply (key_le_R fzero); [reflexivity | exact G |]. rewrite E. cbn [B2R fzero]. unfold max_abs. apply Rmax_Rle. left. apply Rabs_pos. }
    assert (fin eps_min = true) as FM by reflexivity.
    destruct (fmax_R _ _ H FM) as (E' & G'). split; [exact G'|]. rewrite E'. rewrite E in S.
    destruct eps_min_R as (T & _). destruct S as [S|(S & S')].
    - rewrite S. apply Rmax_comm.
    - rewrite Rmax_right by lra. rewrite Rmax_left by lra. reflexivity. }
  split; [|split].
  - split; [|exact CI]. intros E. destruct C as [C|C]; [|exact C]. destruct (CF C) as (eps & E' & _). congruence.
  - split; [intros F; destruct (CF F) as (eps & E & _); eauto|]. intros (eps & E). destruct C as [C|C]; [exact C|]. rewrite (CI C) in E. discriminate E.
  - intros eps E. destruct C as [C|C].
    + destruct (CF C) as (eps' & E' & R). rewrite E' in E. injection E as <-. exact R.
    + rewrite (CI C) in E. discriminate E.
Qed.

(** C38 (points).  If the box covers the points of the input and an accuracy is chosen, then every coordinate that is a number is finite and at most
    2^46 times the accuracy. *)
Theorem accuracy_covers : forall b pts eps, choose_eps b = inr eps ->
  (forall p, In p pts -> (nan (px p) = false -> fle (b_min_x b) (px p) = true /\ fle (px p) (b_max_x b) = true) /\
                         (nan (py p) = false -> fle (b_min_y b) (py p) = true /\ fle (py p) (b_max_y b) = true)) ->
  forall p c, In p pts -> c = px p \/ c = py p -> nan c = false ->
    fin c = true /\ (B2R eps_min <= B2R eps)%R /\ (Rabs (B2R c) <= B2R eps * bpow radix2 46)%R.
Proof.
  intros b pts eps CE COV p c IN CC N.
  assert (exists mn mx, fmin (b_min_x b) (b_min_y b) = mn /\ fmax (b_max_x b) (b_max_y b) = mx /\ fle mn c = true /\ fle c mx = true) as (mn & mx & E1 & E2 & L1 & L2).
  { eexists _, _. split; [reflexivity|]. split; [reflexivity|].
    destruct (COV p IN) as (CX & CY).
    destruct CC as [->| ->]; [destruct (CX N) as (A & B) | destruct (CY N) as (A & B)];
      apply fle_nonnan in A as NA; apply fle_nonnan in B as NB; destruct NA as (NA & _); destruct NB as (_ & NB).
    - unfold fmin, fmax. rewrite NA, NB. split.
      + destruct (nan (b_min_y b)) eqn:Z; [exact A|]. destruct (fle (b_min_x b) (b_min_y b)) eqn:Q; [exact A|]. fk; zb; lia.
      + destruct (nan (b_max_y b)) eqn:Z; [exact B|]. destruct (fle (b_max_y b) (b_max_x b)) eqn:Q; [exact B|]. fk; zb; lia.
    - unfold fmin, fmax. rewrite NA, NB. split.
      + destruct (nan (b_min_x b)) eqn:Z; [exact A|]. destruct (fle (b_min_x b) (b_min_y b)) eqn:Q; [|exact A]. fk; zb; lia.
      + destruct (nan (b_max_x b)) eqn:Z; [exact B|]. destruct (fle (b_max_y b) (b_max_x b)) eqn:Q; [|exact B]. fk; zb; lia. }
  unfold choose_eps in CE. rewrite E1, E2 in CE.
  destruct (f_inf mn || f_inf mx) eqn:I; [discriminate|]. destruct (nan mn || nan mx) eqn:NN; [discriminate|].
  apply orb_false_iff in I as (I1 & I2). apply orb_false_iff in NN as (N1 & N2).
  assert (fin mn = true) as F1. { destruct (fin_or_inf mn N1); [assumption|congruence]. }
  assert (fin mx = true) as F2. { destruct (fin_or_inf mx N2); [assumption|congruence]. }
  injection CE as <-.
  rewrite fle_key in L1, L2 by assumption. zb.
  assert (fin c = true) as FC.
  { apply fin_key. split; [exact N|]. apply fin_key in F1 as (_ & F1). apply fin_key in F2 as (_ & F2). lia. }
  split; [exact FC|].
  apply key_le_R in L1; try assumption. apply key_le_R in L2; try assumption.
  assert (fin (fabs mn) = true) as G1 by (rewrite fin_fabs; exact F1). assert (fin (fabs mx) = true) as G2 by (rewrite fin_fabs; exact F2).
  destruct (fmax_R _ _ G1 G2) as (E & G). rewrite !abs_R in E.
  set (m := fmax (fabs mn) (fabs mx)) in *.
  assert (Rabs (B2R c) <= B2R m)%R as LC.
  { rewrite E. apply abs_between; assumption. }
  destruct (scale m G) as (H & S).
  { apply (key_le_R fzero); [reflexivity | exact G |]. cbn [B2R fzero]. pose proof (Rabs_pos (B2R c)). lra. }
  assert (fin eps_min = true) as FM by reflexivity.
  destruct (fmax_R _ _ H FM) as (E' & G'). rewrite E'. split; [apply Rmax_r|].
  apply Rle_trans with (1 := LC).
  apply Rmult_le_reg_r with (bpow radix2 (-46)); [apply bpow_gt_0|].
  rewrite Rmult_assoc, <- bpow_plus. change (bpow radix2 (46 + -46)) with 1%R. rewrite Rmult_1_r.
  destruct eps_min_R as (T & _). destruct S as [S|(S & S')].
  - rewrite <- S. apply Rmax_l.
  - apply Rle_trans with (2 := Rmax_r _ _). lra.
Qed.

(** C38 (finding).  Rust's [min] and [max] ignore NaN, so the comment in the code that a NaN "should have propagated to the min and max" is
    wrong: an input whose NaNs are all in one axis is accepted, whatever the other axis.  The NaN error needs NaN in both axes. *)
Theorem nan_slips_through : forall y0 y1, fin y0 = true -> fin y1 = true ->
  (exists eps, choose_eps (mkBox B754_nan y0 B754_nan y1) = inr eps /\ fin eps = true) /\
  (forall b, choose_eps b = inl ENaN ->
     (nan (b_min_x b) = true /\ nan (b_min_y b) = true) \/ (nan (b_max_x b) = true /\ nan (b_max_y b) = true)).
Proof.
  intros y0 y1 F0 F1. split.
  - unfold choose_eps. cbn [b_min_x b_min_y b_max_x b_max_y].
    change (fmin B754_nan y0) with y0. change (fmax B754_nan y1) with y1.
    unfold f_inf. rewrite F0, F1. cbn [negb andb orb]. rewrite !fin_nonnan by assumption. cbn [orb]. eexists. split; [reflexivity|].
    assert (fin (fabs y0) = true) as G1 by (rewrite fin_fabs; exact F0). assert (fin (fabs y1) = true) as G2 by (rewrite fin_fabs; exact F1).
    destruct (fmax_R _ _ G1 G2) as (E & G). rewrite !abs_R in E.
    destruct (scale _ G) as (H & _).
    { apply (key_le_R fzero); [reflexivity | exact G |]. cbn [B2R fzero]. rewrite E. apply Rmax_Rle. left. apply Rabs_pos. }
    apply (fmax_R _ _ H). reflexivity.
  - intros b E. unfold choose_eps in E. destruct (f_inf _ || f_inf _); [discriminate|].
    destruct (nan (fmin _ _) || nan (fmax _ _)) eqn:NN; [|discriminate]. apply orb_true_iff in NN as [NN|NN].
    + left. unfold fmin in NN. destruct (nan (b_min_x b)) eqn:A; [auto|]. destruct (nan (b_min_y b)) eqn:B; [congruence|].
      destruct (fle _ _); congruence.
    + right. unfold fmax in NN. destruct (nan (b_max_x b)) eqn:A; [auto|]. destruct (nan (b_max_y b)) eqn:B; [congruence|].
      destruct (fle _ _); congruence.
Qed.

(** ** Examples *)
Definition ex_box : bbox := mkBox (f64_of_Z (-3)) (f64_of_Z 0) (f64_of_Z (2 ^ 40)) (f64_of_Z 7).
Example ex_box_proper : proper ex_box.
Proof. split; vm_compute; reflexivity. Qed.
Example ex_box_eps : match choose_eps ex_box with inr e => key e = (2 ^ 1068)%Z | _ => False end.
Proof. vm_compute. reflexivity. Qed.
Example ex_box_small : match choose_eps (mkBox fzero fzero (f64_of_Z 1) (f64_of_Z 1)) with inr e => key e = key eps_min | _ => False end.
Proof. vm_compute. reflexivity. Qed.
Example ex_negative_odd : inside EvenOdd Difference (mkBwn (i32_wrap (-3)) (i32_wrap 2)) = true.
Proof. reflexivity. Qed.
Example ex_overflow : i32_val (i32_add (i32_wrap (2 ^ 31 - 1)) (i32_wrap 1)) = - 2 ^ 31.
Proof. reflexivity. Qed.

Print Assumptions winding_arithmetic.
Print Assumptions winding_overflow.
Print Assumptions boolean_operations.
Print Assumptions boolean_identities.
Print Assumptions accuracy_choice.
Print Assumptions accuracy_covers.
Print Assumptions nan_slips_through.
