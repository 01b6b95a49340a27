(** Proofs about [Quadratic::signs] and [monic_quadratic_roots]. *)
From Coq Require Import ZArith Bool Lia Reals Lra.
From Flocq Require Import Core BinarySingleNaN Mult_error.
From Verif Require Import F64 F64Arith CurveOrderProofs TreeVecModel SegmentsModel SweepModel PosModel CompareModel CompareArith LineProofs NearArith QuadModel QuadSpec QuadProofs.
Local Open Scope R_scope.

Section Moderate.
Variables f2 f1 f0 : f64.
Hypothesis M2 : moderate f2.
Hypothesis M1 : moderate f1.
Hypothesis M0 : moderate f0.
Hypothesis N2 : B2R f2 <> 0.
Hypothesis NZ : B2R f1 <> 0 \/ B2R f0 <> 0.
Notation Ds := (Ds f2 f1 f0).
Notation zs := (zs f2 f1 f0).
Notation disc := (disc f2 f1 f0).
Definition zf : f64 := fadd f1 (fcopysign (fsqrt disc) f1).
Hypothesis DP : 0 <= Ds.
Lemma z_val : fin zf = true /\ B2R zf = zs.
Proof.
  destruct (disc_val f2 f1 f0 M2 M1 M0) as (FD & ED). assert (P : 0 <= B2R disc) by (rewrite ED; exact DP).
  destruct (sqrt_val disc FD P (sign_of_nonneg _ FD P)) as (FS & ES). rewrite ED in ES. fold (ss f2 f1 f0) in ES.
  assert (PS : 0 <= B2R (fsqrt disc)) by (rewrite ES; apply ss_pos).
  destruct (copysign_R (fsqrt disc) f1 (sign_of_nonneg _ FS PS)) as (EC & FC). rewrite ES in EC. fold (sg f1) in EC. rewrite FS in FC.
  destruct (fadd_fin f1 (fcopysign (fsqrt disc) f1) (proj1 M1) FC) as (F & E).
  - rewrite EC. fold zs. destruct (zs_bounds f2 f1 f0 M2 M1 M0 N2 DP NZ) as (_ & B). apply Rle_lt_trans with (1 := B). apply bpow_lt. lia.
  - rewrite EC in E. split; [exact F|exact E].
Qed.
Lemma z_nonzero : zs <> 0.
Proof. destruct (zs_bounds f2 f1 f0 M2 M1 M0 N2 DP NZ) as (B & _). intros E. rewrite E, Rabs_R0 in B. pose proof (bpow_gt_0 radix2 (-500)). lra. Qed.
Definition root1f : f64 := fdiv (fmul (fneg ftwo) f0) zf.
Definition root2f : f64 := fdiv (fneg zf) (fmul ftwo f2).
Lemma root1_val : fin root1f = true /\ B2R root1f = r1s f2 f1 f0.
Proof.
  destruct z_val as (FZ & EZ). destruct (scale_up (fneg ftwo) f0 1) as (F2 & E2); [reflexivity|apply M0|right; apply neg2_R|lia|apply Rle_trans with (1 := mod_le _ M0); apply bpow_le; lia|].
  rewrite neg2_R, <- pow2 in E2. destruct (fdiv_fin (fmul (fneg ftwo) f0) zf F2) as (F & E).
  - rewrite EZ. apply z_nonzero.
  - rewrite EZ, E2. destruct (quot1 f2 f1 f0 M2 M1 M0 N2 DP NZ) as (_ & Q). apply (pow_le_fin _ 1001); [lia..|]. replace (- (2) * B2R f0 / zs) with (- (2 * B2R f0) / zs) by (unfold Rdiv; ring). exact Q.
  - split; [exact F|]. unfold root1f. rewrite E, EZ, E2. unfold r1s. f_equal. unfold Rdiv. ring.
Qed.
Lemma root2_val : fin root2f = true /\ B2R root2f = r2s f2 f1 f0.
Proof.
  destruct z_val as (FZ & EZ). destruct (scale_up ftwo f2 1) as (F2 & E2); [reflexivity|apply M2|left; rewrite two_R; apply pow2|lia|apply Rle_trans with (1 := mod_le _ M2); apply bpow_le; lia|].
  rewrite two_R in E2. destruct (fdiv_fin (fneg zf) (fmul ftwo f2)) as (F & E).
  - rewrite fin_fneg. exact FZ.
  - rewrite E2. lra.
  - rewrite B2R_fneg, EZ, E2. destruct (quot2 f2 f1 f0 M2 M1 M0 N2 DP NZ) as (_ & Q). apply (pow_le_fin _ 1002); [lia..|exact Q].
  - split; [exact F|]. unfold root2f. rewrite E, B2R_fneg, EZ, E2. reflexivity.
Qed.
End Moderate.

Lemma signs_moderate dbg n f2 f1 f0 : moderate f2 -> moderate f1 -> moderate f0 -> B2R f2 <> 0 -> B2R f1 <> 0 \/ B2R f0 <> 0 ->
  exists r, signs dbg (S n) (mkQuad f2 f1 f0) = Ok r /\ q_initial r = f2 /\
    ((q_smaller r = fneginf /\ q_bigger r = fneginf /\ B2R f1 * B2R f1 < 4 * B2R f2 * B2R f0) \/
     (fin (q_smaller r) = true /\ fin (q_bigger r) = true /\ almost_roots (B2R f2) (B2R f1) (B2R f0) (B2R (q_smaller r)) (B2R (q_bigger r)))).
Proof.
  intros M2 M1 M0 N2 NZ. cbn [signs q_c2 q_c1 q_c0]. rewrite (proj1 M2), (proj1 M1), (proj1 M0). cbn [andb negb]. rewrite andb_false_r.
  destruct (disc_val f2 f1 f0 M2 M1 M0) as (FD & ED). fold (disc f2 f1 f0). rewrite FD. cbn [negb].
  destruct (flt (disc f2 f1 f0) fzero) eqn:L.
  - apply flt_R in L; [|exact FD|reflexivity]. rewrite ED in L. cbn [B2R fzero] in L. eexists. split; [reflexivity|]. cbn [q_initial q_smaller q_bigger]. split; [reflexivity|].
    left. split; [reflexivity|]. split; [reflexivity|]. apply disc_neg. exact L.
  - apply flt_R_false in L; [|exact FD|reflexivity]. rewrite ED in L. cbn [B2R fzero] in L.
    destruct (z_val f2 f1 f0 M2 M1 M0 N2 NZ L) as (FZ & EZ). destruct (root1_val f2 f1 f0 M2 M1 M0 N2 NZ L) as (F1 & E1). destruct (root2_val f2 f1 f0 M2 M1 M0 N2 NZ L) as (F2 & E2).
    fold (zf f2 f1 f0). fold (root1f f2 f1 f0). fold (root2f f2 f1 f0).
    assert (feq (zf f2 f1 f0) fzero = false) as ->.
    { destruct (feq _ _) eqn:E; [|reflexivity]. apply feq_R in E; [|exact FZ|reflexivity]. exfalso. apply (z_nonzero f2 f1 f0 M2 M1 M0 N2 NZ L). rewrite <- EZ, E. reflexivity. }
    rewrite (fin_nonnan _ F1), (fin_nonnan _ F2). cbn [orb]. rewrite andb_false_r. unfold finf. rewrite F2, andb_false_r.
    eexists. split; [reflexivity|]. cbn [q_initial q_smaller q_bigger]. split; [reflexivity|]. right.
    destruct (fmin_R _ _ F1 F2) as (Fm & Em). destruct (fmax_R _ _ F1 F2) as (FM & EM). split; [exact Fm|]. split; [exact FM|].
    rewrite Em, EM, E1, E2. apply roots_almost; assumption.
Qed.

(** ** The monic case *)
Lemma moderate_one : moderate fone.
Proof. split; [reflexivity|]. right. rewrite one_R, Rabs_pos_eq by lra. change 1 with (bpow radix2 0). split; apply bpow_le; lia. Qed.
Lemma half_exact (x : R) : generic_format radix2 fexp64 x -> bpow radix2 (-1000) <= Rabs x -> generic_format radix2 fexp64 (x / 2).
Proof.
  intros G B. replace (x / 2) with (x * bpow radix2 (-1)) by (simpl; lra). apply (mult_bpow_exact_FLT radix2 (-1074) 53); [exact G|].
  assert (N : x <> 0). { intros E. rewrite E, Rabs_R0 in B. pose proof (bpow_gt_0 radix2 (-1000)). lra. }
  assert ((-1000) < mag radix2 x)%Z; [|lia]. apply mag_gt_bpow. exact B.
Qed.
Lemma monic_moderate b c : moderate b -> moderate c -> B2R b <> 0 \/ B2R c <> 0 ->
  let (r1, r2) := monic_quadratic_roots b c in
  (r1 = fneginf /\ r2 = fneginf /\ As b - 4 * B2R c <= 0) \/
  (fin r1 = true /\ fin r2 = true /\ almost_roots 1 (B2R b) (B2R c) (B2R r1) (B2R r2)).
Proof.
  intros Mb Mc NZ. pose proof moderate_one as M1. pose proof one_R as O. assert (N2 : B2R fone <> 0) by lra.
  assert (B4 : Bs fone c = 4 * B2R c). { unfold Bs. rewrite O, Rmult_1_r, pow4. apply rnd_gen, gen_pow_mul. lia. }
  destruct (fmul_fin b b (proj1 Mb) (proj1 Mb)) as (FA & EA). { pose proof (A_bound b Mb) as A. fold (As b). rewrite Rabs_pos_eq by apply A. apply Rle_lt_trans with (1 := proj2 A). apply bpow_lt. lia. }
  destruct (scale_up ffour c 2 eq_refl (proj1 Mc)) as (F4 & E4). { left. rewrite four_R. apply pow4. } { lia. } { apply Rle_trans with (1 := mod_le _ Mc). apply bpow_le. lia. }
  rewrite four_R in E4. fold (As b) in EA.
  set (dm := fsub (fmul b b) (fmul ffour c)). assert (DV : fin dm = true /\ B2R dm = Ds fone b c).
  { unfold dm. rewrite fsub_fneg. destruct (fadd_fin (fmul b b) (fneg (fmul ffour c)) FA) as (F & E). { rewrite fin_fneg. exact F4. }
    { rewrite B2R_fneg, EA, E4. rewrite <- B4. destruct (D_bound fone b c M1 Mb Mc) as (_ & _ & D). exact D. }
    split; [exact F|]. rewrite E, B2R_fneg, EA, E4, <- B4. reflexivity. }
  destruct DV as (FD & ED). unfold monic_quadratic_roots. fold dm. rewrite FD.
  destruct (fle dm fzero) eqn:L.
  - apply fle_R in L; [|exact FD|reflexivity]. rewrite ED in L. cbn [B2R fzero] in L. left. split; [reflexivity|]. split; [reflexivity|]. rewrite <- B4.
    destruct (Rle_or_lt (As b - Bs fone c) 0) as [H|H]; [exact H|]. exfalso. destruct (near_rnd_minus (As b) (Bs fone c) (gen_rnd _) (gen_rnd _)) as (e & B & E). fold (Ds fone b c) in E.
    assert (K : Rabs e <= /1024) by (apply (e_small 1); [lra|exact B]). apply abs_le in K. assert (0 < Ds fone b c); [rewrite E; nra|lra].
  - assert (LP : 0 <= Ds fone b c). { destruct (Rle_or_lt (B2R dm) 0) as [H|H]; [|rewrite ED in H; lra]. exfalso. assert (X : fle dm fzero = true) by (apply fle_R; [exact FD|reflexivity|exact H]). congruence. }
    assert (P : 0 <= B2R dm) by (rewrite ED; exact LP).
    destruct (sqrt_val dm FD P (sign_of_nonneg _ FD P)) as (FS & ES). rewrite ED in ES. fold (ss fone b c) in ES.
    assert (PS : 0 <= B2R (fsqrt dm)) by (rewrite ES; apply ss_pos).
    destruct (copysign_R (fsqrt dm) b (sign_of_nonneg _ FS PS)) as (EC & FC). rewrite ES in EC. fold (sg b) in EC. rewrite FS in FC.
    destruct (zs_bounds fone b c M1 Mb Mc N2 LP NZ) as (ZB1 & ZB2).
    destruct (fadd_fin b (fcopysign (fsqrt dm) b) (proj1 Mb) FC) as (FZ & EZ).
    { rewrite EC. fold (zs fone b c). apply Rle_lt_trans with (1 := ZB2). apply bpow_lt. lia. }
    rewrite EC in EZ. fold (zs fone b c) in EZ. set (z := fadd b (fcopysign (fsqrt dm) b)) in *.
    assert (G : generic_format radix2 fexp64 (- (zs fone b c / 2))). { apply generic_format_opp, half_exact; [apply gen_rnd|]. apply Rle_trans with (2 := ZB1). apply bpow_le. lia. }
    assert (ZN : zs fone b c <> 0). { intros E. rewrite E, Rabs_R0 in ZB1. pose proof (bpow_gt_0 radix2 (-500)). lra. }
    assert (EH : B2R (fneg fhalf) * B2R z = - (zs fone b c / 2)). { rewrite B2R_fneg, half_R, EZ. lra. }
    destruct (fmul_fin (fneg fhalf) z eq_refl FZ) as (F1 & E1). { rewrite EH, (rnd_gen _ G), Rabs_Ropp. unfold Rdiv. rewrite Rabs_mult, (Rabs_pos_eq (/2)) by lra. pose proof (Rabs_pos (zs fone b c)). apply Rle_lt_trans with (bpow radix2 503); [lra|apply bpow_lt; lia]. }
    rewrite EH, (rnd_gen _ G) in E1. set (root1 := fmul (fneg fhalf) z) in *.
    assert (R2 : B2R root1 = r2s fone b c). { rewrite E1. unfold r2s. rewrite O. replace (- zs fone b c / (2 * 1)) with (- (zs fone b c / 2)) by lra. symmetry. apply rnd_gen, G. }
    destruct (quot1 fone b c M1 Mb Mc N2 LP NZ) as (_ & Q). assert (EQ : B2R c / B2R root1 = - (2 * B2R c) / zs fone b c) by (rewrite E1; field; exact ZN).
    destruct (fdiv_fin c root1 (proj1 Mc)) as (F2 & E2). { rewrite E1. lra. } { rewrite EQ. apply (pow_le_fin _ 1001); [lia..|exact Q]. }
    rewrite EQ in E2. fold (r1s fone b c) in E2. set (root2 := fdiv c root1) in *.
    pose proof (roots_almost fone b c M1 Mb Mc N2 LP NZ) as RA. rewrite O in RA.
    destruct (fgt root2 root1) eqn:GT; right; (split; [assumption|]; split; [assumption|]).
    + unfold fgt in GT. apply flt_R in GT; [|assumption..]. rewrite R2, E2 in *. rewrite Rmin_right, Rmax_left in RA by lra. exact RA.
    + unfold fgt in GT. apply flt_R_false in GT; [|assumption..]. rewrite R2, E2 in *. rewrite Rmin_left, Rmax_right in RA by lra. exact RA.
Qed.

(** ** All finite coefficients *)
Lemma fadd_args (x y : f64) : fin (fadd x y) = true -> fin x = true /\ fin y = true.
Proof. destruct x as [| | |], y as [| | |]; cbn; try (intros; split; reflexivity); try discriminate; try (destruct s, s0; discriminate). Qed.
Lemma fmul_bound (x y : f64) : fin x = true -> fin y = true -> fin (fmul x y) = true -> Rabs (rnd64 (B2R x * B2R y)) < bpow radix2 1024 /\ B2R (fmul x y) = rnd64 (B2R x * B2R y).
Proof.
  intros Fx Fy F. pose proof (Bmult_correct 53 1024 _ _ mode_NE x y) as C. unfold fmul, fin in *. destruct (Rlt_bool_spec (Rabs (rnd64 (B2R x * B2R y))) (bpow radix2 1024)) as [L|L].
  - destruct C as (E & _). split; [exact L|exact E].
  - exfalso. destruct (Bmult mode_NE x y); cbn in *; congruence.
Qed.
Lemma square_bound (x : f64) : fin x = true -> fin (fmul x x) = true -> Rabs (B2R x) <= bpow radix2 512.
Proof.
  intros Fx F. destruct (fmul_bound x x Fx Fx F) as (L & _). destruct (Rle_or_lt (Rabs (B2R x)) (bpow radix2 512)) as [H|H]; [exact H|]. exfalso.
  assert (B : bpow radix2 1023 <= Rabs (B2R x * B2R x)). { apply Rle_trans with (bpow radix2 (512 + 512)); [apply bpow_le; lia|]. apply mul_ge; lra. }
  assert (bpow radix2 1024 <= Rabs (rnd64 (B2R x * B2R x))); [|lra].
  rewrite Rabs_pos_eq by (rewrite <- rnd_0; apply rnd_le; nra). assert (K : bpow radix2 1024 <= B2R x * B2R x). { rewrite <- (Rabs_pos_eq (B2R x * B2R x)) by nra. apply (mul_ge _ _ 512 512); lra. }
  rewrite <- (round_generic radix2 fexp64 ZnearestE (bpow radix2 1024)). { apply round_le; [typeclasses eauto..|exact K]. } apply generic_format_bpow. vm_compute. discriminate.
Qed.
Lemma fdiv_num (x y : f64) : nan x = false -> fin y = true -> feq y fzero = false -> nan (fdiv x y) = false.
Proof.
  intros Nx Fy Z. destruct y as [sy| | |sy my ey By]; try discriminate; try (destruct sy; discriminate). destruct x as [| | |sx mx ex Bx]; try discriminate; try reflexivity.
  pose proof (Bdiv_correct 53 1024 _ _ mode_NE (B754_finite sx mx ex Bx) (B754_finite sy my ey By)) as C.
  assert (N : B2R (B754_finite sy my ey By : f64) <> 0). { intros E. apply (F2R_neq_0 radix2) in E; [exact E|]. cbn. destruct sy; discriminate. }
  specialize (C N). unfold fdiv. destruct (Rlt_bool _ _).
  - destruct C as (_ & F & _). cbn [is_finite] in F. destruct (Bdiv mode_NE _ _); try discriminate; reflexivity.
  - destruct (Bdiv mode_NE _ _); try reflexivity. cbn in C. unfold binary_overflow in C. cbn in C. discriminate.
Qed.
Lemma fdiv_num' (x y : f64) : fin x = true -> feq x fzero = false -> nan y = false -> nan (fdiv x y) = false.
Proof.
  intros Fx Z Ny. destruct y as [sy| | |sy my ey By]; try discriminate.
  - destruct x as [[]| | |]; try discriminate; reflexivity.
  - destruct x; try discriminate; reflexivity.
  - apply fdiv_num; [apply fin_nonnan, Fx|reflexivity|]. destruct (feq (B754_finite sy my ey By) fzero) eqn:E; [|first [reflexivity|exact E]]. apply feq_R in E; [|reflexivity..]. exfalso. cbn [B2R fzero] in E. apply (F2R_neq_0 radix2) in E; [exact E|]. cbn. destruct sy; discriminate.
Qed.
Lemma step_total dbg n f2 f1 f0 : fin f2 = true -> fin f1 = true -> fin f0 = true -> fin (disc f2 f1 f0) = true ->
  exists r, signs dbg (S n) (mkQuad f2 f1 f0) = Ok r /\ nan (q_smaller r) = false /\ nan (q_bigger r) = false /\ fle (q_smaller r) (q_bigger r) = true /\ fin (q_initial r) = true.
Proof.
  intros F2 F1 F0 FD. cbn [signs q_c2 q_c1 q_c0]. rewrite F2, F1, F0. cbn [andb negb]. rewrite andb_false_r. fold (disc f2 f1 f0). rewrite FD. cbn [negb].
  assert (FA : fin (fmul f1 f1) = true). { unfold disc in FD. rewrite fsub_fneg in FD. apply fadd_args in FD. apply FD. }
  destruct (flt (disc f2 f1 f0) fzero) eqn:L.
  - eexists. split; [reflexivity|]. cbn [q_initial q_smaller q_bigger]. repeat split; try reflexivity. exact F2.
  - apply flt_R_false in L; [|exact FD|reflexivity]. cbn [B2R fzero] in L. set (dd := disc f2 f1 f0) in *.
    destruct (sqrt_val dd FD L (sign_of_nonneg _ FD L)) as (FS & ES).
    assert (PS : 0 <= B2R (fsqrt dd)). { rewrite ES, <- rnd_0. apply rnd_le, sqrt_pos. }
    destruct (copysign_R (fsqrt dd) f1 (sign_of_nonneg _ FS PS)) as (EC & FC). rewrite FS in FC.
    assert (SB : B2R (fsqrt dd) <= bpow radix2 512).
    { rewrite ES, <- (rnd_gen (bpow radix2 512)) by (apply generic_pow; lia). apply rnd_le. rewrite <- sqrt_pow. apply sqrt_le_1_alt. pose proof (emax_lt dd) as H. rewrite Rabs_pos_eq in H by exact L. apply Rlt_le, H. }
    pose proof (square_bound f1 F1 FA) as CB.
    set (z := fadd f1 (fcopysign (fsqrt dd) f1)).
    assert (FZ : fin z = true).
    { apply fadd_fin; [assumption..|]. apply (pow_le_fin _ 513); [lia..|]. rewrite EC. apply abs_le in CB. replace (bpow radix2 513) with (2 * bpow radix2 512) by (change 513%Z with (1 + 512)%Z; rewrite bpow_plus, <- pow2; reflexivity).
      apply abs_le. destruct (Bsign f1); lra. }
    destruct (feq z fzero) eqn:EZ.
    + eexists. split; [reflexivity|]. cbn [q_initial q_smaller q_bigger]. repeat split; reflexivity.
    + assert (Nm : nan (fmul (fneg ftwo) f0) = false) by (apply fmul_nonnan; [reflexivity|exact F0]).
      assert (Nm2 : nan (fmul ftwo f2) = false) by (apply fmul_nonnan; [reflexivity|exact F2]).
      pose proof (fdiv_num _ z Nm FZ EZ) as R1.
      assert (EZ' : feq (fneg z) fzero = false). { destruct (feq (fneg z) fzero) eqn:E; [|reflexivity]. apply feq_R in E; [|rewrite fin_fneg; exact FZ|reflexivity]. rewrite B2R_fneg in E. cbn [B2R fzero] in E.
        assert (X : feq z fzero = true); [apply feq_R; [exact FZ|reflexivity|]; cbn [B2R fzero]; lra|congruence]. }
      assert (R2 : nan (fdiv (fneg z) (fmul ftwo f2)) = false) by (apply fdiv_num'; [rewrite fin_fneg; exact FZ|exact EZ'|exact Nm2]).
      rewrite R1, R2. cbn [orb]. rewrite andb_false_r. eexists. split; [reflexivity|]. cbn [q_initial q_smaller q_bigger].
      destruct (fmin_nonnan _ _ R1 R2) as (N1 & K1). destruct (fmax_nonnan _ _ R1 R2) as (N3 & K2). split; [exact N1|]. split; [exact N3|]. split.
      * fk. zb. lia.
      * destruct (finf _); assumption.
Qed.
Lemma scale_R : fin q_scale = true /\ B2R q_scale = bpow radix2 (-515).
Proof.
  assert (E5 : B2R (f64_of_Z (2 ^ 515)) = bpow radix2 515 /\ fin (f64_of_Z (2 ^ 515)) = true).
  { assert (F : fin (f64_of_Z (2 ^ 515)) = true) by (vm_compute; reflexivity). split; [|exact F]. rewrite (B2R_key _ F).
    assert (K : (key (f64_of_Z (2 ^ 515)) =? 2 ^ 1589)%Z = true) by (vm_compute; reflexivity). apply Z.eqb_eq in K. rewrite K.
    change (2 ^ 1589)%Z with (Zpower radix2 1589). rewrite (IZR_Zpower radix2) by lia. rewrite <- bpow_plus. reflexivity. }
  destruct E5 as (E5 & _). destruct (fdiv_fin fone (f64_of_Z (2 ^ 515)) eq_refl) as (F & E).
  - rewrite E5. pose proof (bpow_gt_0 radix2 515). lra.
  - rewrite E5, one_R. unfold Rdiv. rewrite Rmult_1_l, <- bpow_opp. rewrite rnd_gen by (apply generic_pow; lia). rewrite Rabs_pos_eq by apply bpow_ge_0. apply bpow_lt. lia.
  - split; [exact F|]. unfold q_scale. rewrite E, E5, one_R. unfold Rdiv. rewrite Rmult_1_l, <- bpow_opp. apply rnd_gen, generic_pow; lia.
Qed.
Lemma scaled_bound (x : f64) : fin x = true -> fin (fmul x q_scale) = true /\ Rabs (B2R (fmul x q_scale)) <= bpow radix2 509.
Proof.
  intros F. destruct scale_R as (FS & ES). assert (B : Rabs (B2R x * B2R q_scale) <= bpow radix2 (1024 + -515)).
  { apply mul_le; [apply Rlt_le, emax_lt|]. rewrite ES, Rabs_pos_eq by apply bpow_ge_0. lra. }
  destruct (pow_le_fin _ (1024 + -515) ltac:(lia) ltac:(lia) B) as (H1 & H2). destruct (fmul_fin x q_scale F FS H2) as (F' & E). split; [exact F'|]. rewrite E. exact H1.
Qed.
Lemma small_disc f2 f1 f0 : fin f2 = true -> fin f1 = true -> fin f0 = true -> Rabs (B2R f2) <= bpow radix2 509 -> Rabs (B2R f1) <= bpow radix2 509 -> Rabs (B2R f0) <= bpow radix2 509 -> fin (disc f2 f1 f0) = true.
Proof.
  intros F2 F1 F0 B2 B1 B0. unfold disc. rewrite fsub_fneg.
  destruct (pow_le_fin _ (509 + 509) ltac:(lia) ltac:(lia) (mul_le _ _ _ _ B1 B1)) as (A1 & A2). destruct (fmul_fin f1 f1 F1 F1 A2) as (FA & EA).
  destruct (scale_up ffour f2 2 eq_refl F2) as (F4 & E4). { left. rewrite four_R. apply pow4. } { lia. } { apply Rle_trans with (1 := B2). apply bpow_le. lia. }
  assert (B4 : Rabs (B2R (fmul ffour f2)) <= bpow radix2 511). { rewrite E4, four_R. apply (mul_le 4 _ 2 509); [rewrite abs4; lra|exact B2]. }
  destruct (pow_le_fin _ (511 + 509) ltac:(lia) ltac:(lia) (mul_le _ _ _ _ B4 B0)) as (C1 & C2). destruct (fmul_fin (fmul ffour f2) f0 F4 F0 C2) as (FB & EB).
  apply fadd_fin; [exact FA|rewrite fin_fneg; exact FB|]. rewrite B2R_fneg, EA, EB. apply (pow_le_fin _ 1021); [lia..|]. apply abs_le in A1, C1.
  replace (bpow radix2 1021) with (2 * bpow radix2 (511 + 509)) by (change 1021%Z with (1 + (511 + 509))%Z; rewrite (bpow_plus radix2 1), <- pow2; reflexivity).
  assert (bpow radix2 (509 + 509) <= bpow radix2 (511 + 509)) by (apply bpow_le; lia). apply abs_le. lra.
Qed.
Lemma signs_all dbg n f2 f1 f0 : fin f2 = true -> fin f1 = true -> fin f0 = true ->
  exists r, signs dbg (S (S n)) (mkQuad f2 f1 f0) = Ok r /\ nan (q_smaller r) = false /\ nan (q_bigger r) = false /\ fle (q_smaller r) (q_bigger r) = true /\ fin (q_initial r) = true.
Proof.
  intros F2 F1 F0. destruct (fin (disc f2 f1 f0)) eqn:FD; [apply step_total; assumption|].
  destruct (scaled_bound f2 F2) as (G2 & B2). destruct (scaled_bound f1 F1) as (G1 & B1). destruct (scaled_bound f0 F0) as (G0 & B0).
  destruct (step_total dbg n (fmul f2 q_scale) (fmul f1 q_scale) (fmul f0 q_scale) G2 G1 G0 (small_disc _ _ _ G2 G1 G0 B2 B1 B0)) as (r & E & K). exists r. split; [|exact K].
  remember (S n) as m eqn:Em. cbn [signs q_c2 q_c1 q_c0]. rewrite F2, F1, F0. cbn [andb negb]. rewrite andb_false_r. fold (disc f2 f1 f0). rewrite FD. cbn [negb]. exact E.
Qed.
