(** Proofs about the roots of quadratic functions. *)
From Coq Require Import ZArith Bool Lia Reals Lra.
From Flocq Require Import Core BinarySingleNaN.
From Verif Require Import F64 F64Arith CurveOrderProofs TreeVecModel SegmentsModel SweepModel PosModel CompareModel CompareArith LineProofs NearArith QuadModel QuadSpec.
Local Open Scope R_scope.

(** ** Values of operations *)
Lemma pow_le_fin (v : R) (k : Z) : (-1074 <= k)%Z -> (k < 1024)%Z -> Rabs v <= bpow radix2 k -> Rabs (rnd64 v) <= bpow radix2 k /\ Rabs (rnd64 v) < bpow radix2 1024.
Proof.
  intros K1 K2 H. assert (Rabs (rnd64 v) <= bpow radix2 k) by (apply rnd_abs; [apply generic_pow; lia|exact H]). split; [assumption|].
  apply Rle_lt_trans with (bpow radix2 k); [assumption|apply bpow_lt; lia].
Qed.
Lemma rnd_ge (v : R) (w : R) : generic_format radix2 fexp64 w -> w <= v -> w <= rnd64 v.
Proof. intros G H. rewrite <- (rnd_gen w) by exact G. apply rnd_le, H. Qed.
Lemma gen_rnd v : generic_format radix2 fexp64 (rnd64 v).
Proof. apply generic_format_round; typeclasses eauto. Qed.
Lemma rnd_opp v : rnd64 (- v) = - rnd64 v.
Proof. apply round_NE_opp. Qed.
Lemma sqrt_val (x : f64) : fin x = true -> 0 <= B2R x -> Bsign x = false \/ B2R x = 0 -> fin (fsqrt x) = true /\ B2R (fsqrt x) = rnd64 (sqrt (B2R x)).
Proof.
  intros F P S. destruct (Bsqrt_correct 53 1024 _ _ mode_NE x) as (E & I & _). split; [|exact E]. unfold fsqrt. unfold fin. rewrite I.
  destruct x as [| | |s m e B]; try discriminate; [reflexivity|]. destruct s; [|reflexivity]. exfalso. destruct S as [S|S]; [discriminate|].
  cbn [B2R] in P, S. revert P S. unfold F2R, cond_Zopp, Fnum, Fexp. intros P S. pose proof (bpow_gt_0 radix2 e). assert (IZR (- Z.pos m) < 0) by (apply IZR_lt; lia). nra.
Qed.
Lemma sign_of_nonneg (x : f64) : fin x = true -> 0 <= B2R x -> Bsign x = false \/ B2R x = 0.
Proof. intros F P. destruct (Bsign x) eqn:E; [|left; reflexivity]. right. pose proof (sign_le x F) as H. rewrite E in H. lra. Qed.
Lemma copysign_R (x y : f64) : Bsign x = false \/ B2R x = 0 -> B2R (fcopysign x y) = (if Bsign y then -1 else 1) * B2R x /\ fin (fcopysign x y) = fin x.
Proof.
  intros S. unfold fcopysign. destruct (Bool.eqb (Bsign x) (Bsign y)) eqn:E.
  - split; [|reflexivity]. apply eqb_prop in E. destruct S as [S|S]; [rewrite <- E, S; ring|rewrite S; ring].
  - rewrite fin_fneg, B2R_fneg. split; [|reflexivity]. apply eqb_false_iff in E. destruct S as [S|S]; [rewrite S in E; destruct (Bsign y); [ring|congruence]|rewrite S; ring].
Qed.
Lemma two_R : B2R ftwo = 2. Proof. apply ftwo_R. Qed.
Lemma four_R : B2R ffour = 4. Proof. cbv. lra. Qed.
Lemma gen_pow_mul (x : f64) (k : Z) : (0 <= k)%Z -> generic_format radix2 fexp64 (bpow radix2 k * B2R x).
Proof.
  intros K. pose proof (gen_B2R x) as G. apply generic_format_FLT. apply FLT_format_generic in G; [|reflexivity]. destruct G as [[m e] E1 E2 E3].
  exists (Float radix2 m (e + k)); cbn in *; [|exact E2|lia]. rewrite E1. unfold F2R. cbn. rewrite bpow_plus. ring.
Qed.
(** Multiplication by a power of two. *)
Lemma scale_up (c x : f64) (k : Z) : fin c = true -> fin x = true -> B2R c = bpow radix2 k \/ B2R c = - bpow radix2 k -> (0 <= k)%Z -> Rabs (B2R x) <= bpow radix2 (1022 - k) ->
  fin (fmul c x) = true /\ B2R (fmul c x) = B2R c * B2R x.
Proof.
  intros Fc Fx C K H.
  assert (G : generic_format radix2 fexp64 (B2R c * B2R x)).
  { destruct C as [-> | ->]; [apply gen_pow_mul, K|]. rewrite Ropp_mult_distr_l_reverse. apply generic_format_opp, gen_pow_mul, K. }
  destruct (fmul_fin c x Fc Fx) as (F & E).
  - rewrite (rnd_gen _ G). rewrite Rabs_mult. assert (Rabs (B2R c) = bpow radix2 k) as ->. { pose proof (bpow_gt_0 radix2 k). destruct C as [-> | ->]; [|rewrite Rabs_Ropp]; apply Rabs_pos_eq; lra. }
    apply Rle_lt_trans with (bpow radix2 k * bpow radix2 (1022 - k)); [apply Rmult_le_compat_l; [apply bpow_ge_0|exact H]|]. rewrite <- bpow_plus. apply bpow_lt. lia.
  - split; [exact F|]. rewrite E. apply rnd_gen, G.
Qed.
Lemma neg2_R : B2R (fneg ftwo) = - bpow radix2 1. Proof. rewrite B2R_fneg, two_R. reflexivity. Qed.

(** ** The coefficients are of moderate size *)
Section Moderate.
Variables f2 f1 f0 : f64.
Hypothesis M2 : moderate f2.
Hypothesis M1 : moderate f1.
Hypothesis M0 : moderate f0.
Notation c2 := (B2R f2).
Notation c1 := (B2R f1).
Notation c0 := (B2R f0).
Hypothesis N2 : c2 <> 0.
Definition As : R := rnd64 (c1 * c1).
Definition Bs : R := rnd64 (4 * c2 * c0).
Definition Ds : R := rnd64 (As - Bs).
Definition sg : R := if Bsign f1 then -1 else 1.
Lemma sg_sq : sg * sg = 1. Proof. unfold sg. destruct (Bsign f1); ring. Qed.
Lemma sg_abs : sg * c1 = Rabs c1.
Proof. unfold sg. pose proof (sign_le f1 (proj1 M1)) as H. destruct (Bsign f1); [rewrite Rabs_left1|rewrite Rabs_pos_eq]; lra. Qed.
Lemma mod_le (x : f64) : moderate x -> Rabs (B2R x) <= bpow radix2 500.
Proof. intros (_ & [->|H]); [rewrite Rabs_R0; apply bpow_ge_0|apply H]. Qed.
Lemma pow4 : 4 = bpow radix2 2. Proof. simpl. lra. Qed.
Lemma pow2 : 2 = bpow radix2 1. Proof. simpl. lra. Qed.
Lemma mul_le x y a b : Rabs x <= bpow radix2 a -> Rabs y <= bpow radix2 b -> Rabs (x * y) <= bpow radix2 (a + b).
Proof. intros H1 H2. rewrite Rabs_mult, bpow_plus. apply Rmult_le_compat; try apply Rabs_pos; assumption. Qed.
Lemma mul_ge x y a b : bpow radix2 a <= Rabs x -> bpow radix2 b <= Rabs y -> bpow radix2 (a + b) <= Rabs (x * y).
Proof. intros H1 H2. rewrite Rabs_mult, bpow_plus. apply Rmult_le_compat; try apply bpow_ge_0; assumption. Qed.
Lemma abs4 : Rabs 4 = bpow radix2 2. Proof. rewrite Rabs_pos_eq by lra. apply pow4. Qed.
Lemma c2_ge : bpow radix2 (-500) <= Rabs c2. Proof. destruct M2 as (_ & [E|H]); [contradiction|apply H]. Qed.
Lemma A_near : near 1 As (c1 * c1).
Proof.
  apply near_rnd. destruct M1 as (_ & [E|H]); [left; rewrite E; ring|right]. apply Rle_trans with (bpow radix2 (-500 + -500)); [apply bpow_le; lia|]. apply mul_ge; apply H.
Qed.
Lemma B_near : near 1 Bs (4 * c2 * c0).
Proof.
  apply near_rnd. destruct M0 as (_ & [E|H]); [left; rewrite E; ring|right]. apply Rle_trans with (bpow radix2 ((2 + -500) + -500)); [apply bpow_le; lia|].
  apply mul_ge; [apply mul_ge; [rewrite abs4; lra|apply c2_ge]|apply H].
Qed.
Lemma A_bound : 0 <= As <= bpow radix2 1000.
Proof.
  unfold As. split; [rewrite <- rnd_0; apply rnd_le; nra|]. pose proof (pow_le_fin (c1 * c1) (500 + 500) ltac:(lia) ltac:(lia)) as H.
  destruct H as (H & _); [apply mul_le; apply mod_le; exact M1|]. apply abs_le in H. apply H.
Qed.
Lemma B_bound : Rabs Bs <= bpow radix2 1002.
Proof.
  unfold Bs. apply (pow_le_fin (4 * c2 * c0) (2 + 500 + 500)); [lia..|]. apply mul_le; [apply mul_le; [rewrite abs4; lra|apply mod_le, M2]|apply mod_le, M0].
Qed.
Lemma D_bound : Rabs (As - Bs) <= bpow radix2 1003 /\ Rabs Ds <= bpow radix2 1003 /\ Rabs Ds < bpow radix2 1024.
Proof.
  assert (H : Rabs (As - Bs) <= bpow radix2 1003).
  { pose proof A_bound as A. pose proof B_bound as B. apply abs_le in B. replace (bpow radix2 1003) with (2 * bpow radix2 1002) by (change 1003%Z with (1 + 1002)%Z; rewrite bpow_plus, <- pow2; reflexivity).
    assert (bpow radix2 1000 <= bpow radix2 1002) by (apply bpow_le; lia). apply abs_le. lra. }
  split; [exact H|]. apply (pow_le_fin (As - Bs) 1003); [lia..|exact H].
Qed.
(** The computed discriminant. *)
Definition disc : f64 := fsub (fmul f1 f1) (fmul (fmul ffour f2) f0).
Lemma disc_val : fin disc = true /\ B2R disc = Ds.
Proof.
  destruct (fmul_fin f1 f1 (proj1 M1) (proj1 M1)) as (FA & EA). { pose proof A_bound as A. fold As. rewrite Rabs_pos_eq by apply A. apply Rle_lt_trans with (1 := proj2 A). apply bpow_lt. lia. }
  destruct (scale_up ffour f2 2 eq_refl (proj1 M2)) as (F4 & E4). { left. rewrite four_R. apply pow4. } { lia. } { apply Rle_trans with (1 := mod_le _ M2). apply bpow_le. lia. }
  rewrite four_R in E4.
  destruct (fmul_fin (fmul ffour f2) f0 F4 (proj1 M0)) as (FB & EB). { rewrite E4. fold Bs. apply Rle_lt_trans with (1 := B_bound). apply bpow_lt. lia. }
  rewrite E4 in EB. fold As in EA. fold Bs in EB. unfold disc. rewrite fsub_fneg.
  destruct (fadd_fin (fmul f1 f1) (fneg (fmul (fmul ffour f2) f0)) FA) as (F & E). { rewrite fin_fneg. exact FB. } { rewrite B2R_fneg, EA, EB. apply D_bound. }
  split; [exact F|]. rewrite E, B2R_fneg, EA, EB. reflexivity.
Qed.
(** No real root is overlooked: a negative computed discriminant is one. *)
Lemma disc_neg : Ds < 0 -> c1 * c1 < 4 * c2 * c0.
Proof.
  intros H. apply rnd_lt. fold As Bs. unfold Ds in H. rewrite <- rnd_0 in H. apply rnd_lt in H. lra.
Qed.

Section Roots.
Hypothesis DP : 0 <= Ds.
Hypothesis NZ : c1 <> 0 \/ c0 <> 0.
Lemma E_pos : 0 <= As - Bs.
Proof. destruct (Rle_or_lt 0 (As - Bs)) as [H|H]; [exact H|]. exfalso. pose proof (near_rnd_minus As Bs (gen_rnd _) (gen_rnd _)) as (e & B & E). fold Ds in E.
  assert (K : Rabs e <= /1024) by (apply (e_small 1); [lra|exact B]). apply abs_le in K. assert (Ds < 0); [rewrite E; nra|lra]. Qed.
Definition k1 : R := sg * sqrt As.
Definition k0 : R := Bs / (4 * c2).
Definition rt : R := sqrt (As - Bs).
Definition zx : R := k1 + sg * rt.
Lemma sqrt_sq : sqrt (c1 * c1) = Rabs c1. Proof. apply sqrt_Rsqr_abs. Qed.
Lemma k1_near : near 1 k1 c1.
Proof.
  unfold k1. replace c1 with (sg * Rabs c1) by (rewrite <- sg_abs, <- Rmult_assoc, sg_sq; ring). apply near_scale. rewrite <- sqrt_sq. apply near_sqrt; [lra|nra|apply A_near].
Qed.
Lemma k0_near : near 1 k0 c0.
Proof.
  unfold k0. replace c0 with (/ (4 * c2) * (4 * c2 * c0)) by (field; exact N2). unfold Rdiv. rewrite (Rmult_comm Bs). apply near_scale, B_near.
Qed.
Lemma k1_sq : k1 * k1 = As.
Proof. unfold k1. replace (sg * sqrt As * (sg * sqrt As)) with ((sg * sg) * (sqrt As * sqrt As)) by ring. rewrite sg_sq, sqrt_sqrt; [ring|apply A_bound]. Qed.
Lemma disc_k : k1 * k1 - 4 * c2 * k0 = rt * rt.
Proof. rewrite k1_sq. unfold k0, rt. rewrite sqrt_sqrt by apply E_pos. field. exact N2. Qed.
Definition ss : R := rnd64 (sqrt Ds).
Definition zs : R := rnd64 (c1 + sg * ss).
(** Either the square root or the linear coefficient is not small. *)
Lemma D_ge : c1 = 0 -> bpow radix2 (-998) <= Ds.
Proof.
  intros C. assert (As = 0) by (unfold As; rewrite C, Rmult_0_l; apply rnd_0). destruct NZ as [N|N]; [contradiction|].
  assert (H0 : bpow radix2 (-500) <= Rabs c0) by (destruct M0 as (_ & [E|K]); [contradiction|apply K]).
  assert (B : bpow radix2 (-998) <= Rabs (4 * c2 * c0)). { change (-998)%Z with (2 + -500 + -500)%Z. apply mul_ge; [apply mul_ge; [rewrite abs4; lra|apply c2_ge]|exact H0]. }
  assert (E : Ds = - Bs). { unfold Ds. rewrite H, Rminus_0_l. apply rnd_gen, generic_format_opp, gen_rnd. }
  assert (bpow radix2 (-998) <= Rabs Bs). { apply abs_round_ge_generic; [typeclasses eauto..|apply generic_pow; lia|exact B]. }
  rewrite E in DP |- *. rewrite Rabs_left1 in H1 by lra. exact H1.
Qed.
Lemma sqrt_pow k : sqrt (bpow radix2 (2 * k)) = bpow radix2 k.
Proof. replace (2 * k)%Z with (k + k)%Z by lia. rewrite bpow_plus. apply sqrt_square, bpow_ge_0. Qed.
Lemma ss_pos : 0 <= ss. Proof. unfold ss. rewrite <- rnd_0. apply rnd_le, sqrt_pos. Qed.
Lemma ss_le : ss <= bpow radix2 502.
Proof.
  unfold ss. rewrite <- (rnd_gen (bpow radix2 502)) by (apply generic_pow; lia). apply rnd_le. rewrite <- sqrt_pow. apply sqrt_le_1_alt.
  destruct D_bound as (_ & H & _). apply abs_le in H. apply Rle_trans with (1 := proj2 H). apply bpow_le. lia.
Qed.
Lemma ss_ge : c1 = 0 -> bpow radix2 (-499) <= ss.
Proof. intros C. apply rnd_ge; [apply generic_pow; lia|]. rewrite <- sqrt_pow. apply sqrt_le_1_alt. apply D_ge, C. Qed.
Lemma sum_abs : Rabs (c1 + sg * ss) = Rabs c1 + ss.
Proof.
  rewrite <- sg_abs. pose proof ss_pos. pose proof (sign_le f1 (proj1 M1)) as H1. unfold sg. destruct (Bsign f1).
  - rewrite Rabs_left1; lra.
  - rewrite Rabs_pos_eq; lra.
Qed.
Lemma zs_bounds : bpow radix2 (-500) <= Rabs zs <= bpow radix2 503.
Proof.
  assert (B : bpow radix2 (-500) <= Rabs (c1 + sg * ss) <= bpow radix2 503).
  { rewrite sum_abs. pose proof ss_pos as P. pose proof ss_le as Q. pose proof (mod_le _ M1) as R. split.
    - destruct (Req_dec c1 0) as [C|C]; [pose proof (ss_ge C); rewrite C, Rabs_R0; assert (bpow radix2 (-500) <= bpow radix2 (-499)) by (apply bpow_le; lia); lra|].
      destruct M1 as (_ & [E|K]); [contradiction|lra].
    - replace (bpow radix2 503) with (2 * bpow radix2 502) by (change 503%Z with (1 + 502)%Z; rewrite bpow_plus, <- pow2; reflexivity). assert (bpow radix2 500 <= bpow radix2 502) by (apply bpow_le; lia). lra. }
  unfold zs. split; [apply abs_round_ge_generic|apply rnd_abs]; try typeclasses eauto; try (apply generic_pow; lia); apply B.
Qed.
Lemma gen_sg_ss : generic_format radix2 fexp64 (sg * ss).
Proof. unfold sg. destruct (Bsign f1); [replace (-1 * ss) with (- ss) by ring; apply generic_format_opp|rewrite Rmult_1_l]; apply gen_rnd. Qed.
Lemma ss_near : near (17/8) ss rt.
Proof.
  apply (near_weak (1 + 1 + /8)); [lra|]. apply near_trans with (sqrt Ds); [lra..| |].
  - apply near_rnd. destruct (Req_dec Ds 0) as [E|E]; [left; rewrite E; apply sqrt_0|right]. rewrite Rabs_pos_eq by apply sqrt_pos.
    assert (L : bpow radix2 (-1074) <= Ds).
    { apply (generic_format_ge_bpow radix2 fexp64); [intros e; unfold SpecFloat.fexp, SpecFloat.emin; lia|lra|apply gen_rnd]. }
    apply Rle_trans with (bpow radix2 (-537)); [apply bpow_le; lia|]. rewrite <- sqrt_pow. apply sqrt_le_1_alt. exact L.
  - apply near_sqrt; [lra|apply E_pos|]. apply near_rnd_minus; apply gen_rnd.
Qed.
Lemma zs_near : near (27/8) zs zx.
Proof.
  apply (near_weak (1 + 9/4 + /8)); [lra|]. apply near_trans with (c1 + sg * ss); [lra..| |].
  - apply near_rnd_plus; [apply gen_B2R|apply gen_sg_ss].
  - unfold zx. apply near_add; [lra| | |].
    + unfold k1. replace (sg * sqrt As * (sg * rt)) with ((sg * sg) * (sqrt As * rt)) by ring. rewrite sg_sq, Rmult_1_l. apply Rmult_le_pos; apply sqrt_pos.
    + apply (near_weak (1 + /8)); [lra|]. apply near_sym; [lra|]. apply k1_near.
    + apply near_scale. apply (near_weak (17/8)); [lra|]. apply ss_near.
Qed.
Lemma zx_nonzero : zx <> 0.
Proof. destruct zs_near as (e & _ & E). intros H. rewrite H, Rmult_0_l in E. pose proof zs_bounds as (B & _). rewrite E, Rabs_R0 in B. pose proof (bpow_gt_0 radix2 (-500)). lra. Qed.
Definition x1 : R := - (2 * k0) / zx.
Definition x2 : R := - zx / (2 * c2).
Lemma factor x : quad c2 k1 k0 x = c2 * (x - x1) * (x - x2).
Proof.
  pose proof zx_nonzero as Z. pose proof disc_k as D.
  assert (S : zx * zx + 4 * c2 * k0 = 2 * k1 * zx).
  { unfold zx. replace ((k1 + sg * rt) * (k1 + sg * rt)) with (k1 * k1 + 2 * k1 * (sg * rt) + (sg * sg) * (rt * rt)) by ring. rewrite sg_sq. lra. }
  assert (P : c2 * (x1 * x2) = k0). { unfold x1, x2. field. auto. }
  assert (Q : c2 * (x1 + x2) = - k1). { apply Rmult_eq_reg_r with (2 * zx); [|lra]. unfold x1, x2. replace (c2 * (- (2 * k0) / zx + - zx / (2 * c2)) * (2 * zx)) with (- (zx * zx + 4 * c2 * k0)) by (field; auto). rewrite S. ring. }
  unfold quad. replace (c2 * (x - x1) * (x - x2)) with (c2 * x * x - c2 * (x1 + x2) * x + c2 * (x1 * x2)) by ring. rewrite P, Q. ring.
Qed.
Definition r1s : R := rnd64 (- (2 * c0) / zs).
Definition r2s : R := rnd64 (- zs / (2 * c2)).
Lemma div_bounds n m a b a' b' : bpow radix2 a <= Rabs n <= bpow radix2 b -> bpow radix2 a' <= Rabs m <= bpow radix2 b' -> bpow radix2 (a - b') <= Rabs (n / m) <= bpow radix2 (b - a').
Proof.
  intros (H1 & H2) (H3 & H4). unfold Rdiv. rewrite Rabs_mult, Rabs_inv. pose proof (bpow_gt_0 radix2 a'). pose proof (bpow_gt_0 radix2 a). unfold Zminus. rewrite !bpow_plus, !bpow_opp.
  split; apply Rmult_le_compat; try apply Rabs_pos; try assumption; try (apply Rlt_le; assumption).
  - apply Rlt_le, Rinv_0_lt_compat, bpow_gt_0.
  - apply Rinv_le; [lra|exact H4].
  - apply Rlt_le, Rinv_0_lt_compat. lra.
  - apply Rinv_le; [assumption|exact H3].
Qed.
Lemma num1_bounds : c0 <> 0 -> bpow radix2 (-499) <= Rabs (- (2 * c0)) <= bpow radix2 501.
Proof.
  intros N. rewrite Rabs_Ropp, Rabs_mult, (Rabs_pos_eq 2) by lra. destruct M0 as (_ & [E|K]); [contradiction|].
  change (-499)%Z with (1 + -500)%Z. change 501%Z with (1 + 500)%Z. rewrite !bpow_plus, <- !pow2. lra.
Qed.
Lemma den2_bounds : bpow radix2 (-499) <= Rabs (2 * c2) <= bpow radix2 501.
Proof.
  rewrite Rabs_mult, (Rabs_pos_eq 2) by lra. pose proof c2_ge. pose proof (mod_le _ M2). change (-499)%Z with (1 + -500)%Z. change 501%Z with (1 + 500)%Z. rewrite !bpow_plus, <- !pow2. lra.
Qed.
Lemma quot1 : (- (2 * c0) / zs = 0 \/ bpow radix2 (-1022) <= Rabs (- (2 * c0) / zs)) /\ Rabs (- (2 * c0) / zs) <= bpow radix2 1001.
Proof.
  destruct (Req_dec c0 0) as [E|N].
  - assert (Z : - (2 * c0) / zs = 0) by (rewrite E; unfold Rdiv; ring). rewrite Z, Rabs_R0. split; [left; reflexivity|apply bpow_ge_0].
  - destruct (div_bounds _ _ _ _ _ _ (num1_bounds N) zs_bounds) as (H1 & H2). split; [right; apply Rle_trans with (2 := H1); apply bpow_le; lia|exact H2].
Qed.
Lemma quot2 : bpow radix2 (-1022) <= Rabs (- zs / (2 * c2)) /\ Rabs (- zs / (2 * c2)) <= bpow radix2 1002.
Proof.
  destruct (div_bounds (- zs) (2 * c2) (-500) 503 (-499) 501) as (H1 & H2); [rewrite Rabs_Ropp; apply zs_bounds|apply den2_bounds|]. split; [apply Rle_trans with (2 := H1); apply bpow_le; lia|exact H2].
Qed.
Lemma r1_near : near 8 r1s x1.
Proof.
  apply (near_weak (1 + (9/8 + 27/8 + /4) + /8)); [lra|]. apply near_trans with (- (2 * c0) / zs); [lra..|apply near_rnd, quot1|].
  apply near_div; [lra..| |apply zs_near]. apply near_opp, near_scale. apply (near_weak (1 + /8)); [lra|]. apply near_sym; [lra|]. apply k0_near.
Qed.
Lemma r2_near : near 8 r2s x2.
Proof.
  apply (near_weak (1 + 27/8 + /8)); [lra|]. apply near_trans with (- zs / (2 * c2)); [lra..|apply near_rnd; right; apply quot2|].
  unfold x2, Rdiv. rewrite !(Rmult_comm _ (/ (2 * c2))). apply near_scale, near_opp, zs_near.
Qed.
Lemma near_almost k x y : k <= 8 -> near k x y -> almost x y.
Proof.
  intros K H. apply (near_weak k 8) in H; [|exact K]. apply near_to_abs in H. unfold almost. replace (bpow radix2 (-50)) with (8 * u); [exact H|].
  unfold u. replace 8 with (bpow radix2 3) by (simpl; lra). rewrite <- bpow_plus. reflexivity.
Qed.
Lemma roots_almost : almost_roots c2 c1 c0 (Rmin r1s r2s) (Rmax r1s r2s).
Proof.
  destruct (near_min 8 _ _ _ _ ltac:(lra) r1_near r2_near) as (L & H).
  exists k1, k0, (Rmin x1 x2), (Rmax x1 x2). split; [apply (near_almost 1); [lra|apply k1_near]|]. split; [apply (near_almost 1); [lra|apply k0_near]|].
  split; [apply Rle_trans with x1; [apply Rmin_l|apply Rmax_l]|]. split; [|split; apply (near_almost 8); (lra || assumption)].
  intros x. rewrite factor. unfold Rmin, Rmax. destruct (Rle_dec x1 x2); ring.
Qed.
End Roots.
End Moderate.
