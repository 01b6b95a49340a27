(** C77-C79: roots and signs of quadratic functions, in floating-point arithmetic. *)
From Coq Require Import ZArith Bool Lia Reals Lra.
From Flocq Require Import Core BinarySingleNaN.
From Verif Require Import F64 F64Arith CurveOrderProofs TreeVecModel SegmentsModel SweepModel PosModel CompareModel CompareArith LineProofs NearArith PropsBinOp QuadModel QuadSpec QuadProofs QuadProofs2.
Local Open Scope R_scope.

(** C77 (totality).  For all finite coefficients [signs] returns, without failing an assertion and after rescaling at most once; the roots are numbers in order. *)
Theorem signs_total : forall dbg n q, fin (q_c2 q) = true -> fin (q_c1 q) = true -> fin (q_c0 q) = true -> (2 <= n)%nat ->
  exists r, signs dbg n q = Ok r /\ nan (q_smaller r) = false /\ nan (q_bigger r) = false /\ fle (q_smaller r) (q_bigger r) = true /\ fin (q_initial r) = true.
Proof.
  intros dbg n [f2 f1 f0] F2 F1 F0 N. cbn [q_c2 q_c1 q_c0] in *. destruct n as [|[|n]]; [lia..|]. apply signs_all; assumption.
Qed.
Print Assumptions signs_total.

(** C77.  For a quadratic function with coefficients of moderate size, other than a multiple of x^2, the answer is right: the initial sign is that of the leading
    coefficient, and either both roots are minus infinity and the function has that sign everywhere, or the roots are those of a function with almost the same coefficients. *)
Theorem signs_right : forall dbg n q, moderate (q_c2 q) -> moderate (q_c1 q) -> moderate (q_c0 q) -> (1 <= n)%nat ->
  B2R (q_c2 q) <> 0 -> B2R (q_c1 q) <> 0 \/ B2R (q_c0 q) <> 0 ->
  exists r, signs dbg n q = Ok r /\ q_initial r = q_c2 q /\
    ((q_smaller r = fneginf /\ q_bigger r = fneginf /\ forall x, 0 < B2R (q_initial r) * quad (B2R (q_c2 q)) (B2R (q_c1 q)) (B2R (q_c0 q)) x) \/
     (fin (q_smaller r) = true /\ fin (q_bigger r) = true /\
      almost_roots (B2R (q_c2 q)) (B2R (q_c1 q)) (B2R (q_c0 q)) (B2R (q_smaller r)) (B2R (q_bigger r)))).
Proof.
  intros dbg n [f2 f1 f0] M2 M1 M0 N N2 NZ. cbn [q_c2 q_c1 q_c0] in *. destruct n as [|n]; [lia|].
  destruct (signs_moderate dbg n f2 f1 f0 M2 M1 M0 N2 NZ) as (r & E & I & C). exists r. split; [exact E|]. split; [exact I|]. destruct C as [(A & B & D)|C]; [left|right; exact C].
  split; [exact A|]. split; [exact B|]. intros x. rewrite I. unfold quad. set (a := B2R f2) in *. set (b := B2R f1) in *. set (c := B2R f0) in *.
  replace (a * (a * x * x + b * x + c)) with ((a * x + b / 2) * (a * x + b / 2) + (4 * a * c - b * b) / 4) by field. pose proof (Rle_0_sqr (a * x + b / 2)) as S. unfold Rsqr in S. lra.
Qed.
Print Assumptions signs_right.

(** C78.  The roots of [x^2 + b x + c] as computed for the comparison of curves: either both are minus infinity and the function is nowhere below zero, up to
    2^-54 b^2; or they are the roots of a function with almost the same coefficients. *)
Theorem monic_roots_right : forall b c, moderate b -> moderate c -> B2R b <> 0 \/ B2R c <> 0 ->
  exists r1 r2, monic_quadratic_roots b c = (r1, r2) /\
  ((r1 = fneginf /\ r2 = fneginf /\ forall x, - (bpow radix2 (-54) * (B2R b * B2R b)) <= quad 1 (B2R b) (B2R c) x) \/
   (fin r1 = true /\ fin r2 = true /\ almost_roots 1 (B2R b) (B2R c) (B2R r1) (B2R r2))).
Proof.
  intros b c Mb Mc NZ. pose proof (monic_moderate b c Mb Mc NZ) as H. destruct (monic_quadratic_roots b c) as (r1, r2). exists r1, r2. split; [reflexivity|].
  destruct H as [(A & B & D)|C]; [left|right; exact C]. split; [exact A|]. split; [exact B|]. intros x. pose proof (near_to_abs _ _ _ (A_near b Mb)) as K.
  rewrite (Rabs_pos_eq (B2R b * B2R b)) in K by nra. apply abs_le in K. unfold quad. set (p := B2R b) in *. set (q := B2R c) in *.
  replace (bpow radix2 (-54)) with (u / 2) by (unfold u; change (-53)%Z with (-54 + 1)%Z; rewrite bpow_plus; simpl (bpow radix2 1); lra).
  pose proof (Rle_0_sqr (x + p / 2)) as S. unfold Rsqr in S. pose proof u_pos. assert (0 <= p * p) by nra. assert (0 <= u * (p * p)) by (apply Rmult_le_pos; lra). lra.
Qed.
Print Assumptions monic_roots_right.

(** ** What goes wrong *)
(** C79.  The multiples of x^2 and all constants are reported to be zero everywhere. *)
Theorem signs_degenerate : forall dbg n q, fin (q_c2 q) = true -> fin (q_c1 q) = true -> fin (q_c0 q) = true -> (1 <= n)%nat ->
  Rabs (B2R (q_c2 q)) <= bpow radix2 500 ->
  B2R (q_c1 q) = 0 -> B2R (q_c2 q) = 0 \/ B2R (q_c0 q) = 0 ->
  signs dbg n q = Ok (mkSigns fneginf fneginf fzero).
Proof.
  intros dbg n [f2 f1 f0] F2 F1 F0 N B2 Z1 Z. cbn [q_c2 q_c1 q_c0] in *. destruct n as [|n]; [lia|].
  assert (V : fin (disc f2 f1 f0) = true /\ B2R (disc f2 f1 f0) = 0).
  { destruct (fmul_fin f1 f1 F1 F1) as (FA & EA). { rewrite Z1, Rmult_0_l, rnd_0, Rabs_R0. apply bpow_gt_0. } rewrite Z1, Rmult_0_l, rnd_0 in EA.
    destruct (scale_up ffour f2 2 eq_refl F2) as (F4 & E4). { left. rewrite four_R. apply pow4. } { lia. } { apply Rle_trans with (1 := B2). apply bpow_le. lia. }
    assert (P : B2R (fmul ffour f2) * B2R f0 = 0). { rewrite E4. destruct Z as [-> | ->]; ring. }
    destruct (fmul_fin (fmul ffour f2) f0 F4 F0) as (FB & EB). { rewrite P, rnd_0, Rabs_R0. apply bpow_gt_0. } rewrite P, rnd_0 in EB.
    unfold disc. rewrite fsub_fneg. destruct (fadd_fin (fmul f1 f1) (fneg (fmul (fmul ffour f2) f0)) FA) as (F & E). { rewrite fin_fneg. exact FB. }
    { rewrite B2R_fneg, EA, EB, Ropp_0, Rplus_0_l, rnd_0, Rabs_R0. apply bpow_gt_0. }
    split; [exact F|]. rewrite E, B2R_fneg, EA, EB, Ropp_0, Rplus_0_l. apply rnd_0. }
  destruct V as (FD & ED). cbn [signs q_c2 q_c1 q_c0]. rewrite F2, F1, F0. cbn [andb negb]. rewrite andb_false_r. fold (disc f2 f1 f0). rewrite FD. cbn [negb].
  destruct (flt (disc f2 f1 f0) fzero) eqn:L. { apply flt_R in L; [|exact FD|reflexivity]. rewrite ED in L. cbn [B2R fzero] in L. lra. }
  assert (P : 0 <= B2R (disc f2 f1 f0)) by lra. destruct (sqrt_val _ FD P (sign_of_nonneg _ FD P)) as (FS & ES). rewrite ED, sqrt_0, rnd_0 in ES.
  destruct (copysign_R (fsqrt (disc f2 f1 f0)) f1 (or_intror ES)) as (EC & FC). rewrite FS in FC. rewrite ES, Rmult_0_r in EC.
  destruct (fadd_fin f1 (fcopysign (fsqrt (disc f2 f1 f0)) f1) F1 FC) as (FZ & EZ). { rewrite EC, Z1, Rplus_0_l, rnd_0, Rabs_R0. apply bpow_gt_0. } rewrite EC, Z1, Rplus_0_l, rnd_0 in EZ.
  assert (feq (fadd f1 (fcopysign (fsqrt (disc f2 f1 f0)) f1)) fzero = true) as ->; [|reflexivity]. apply feq_R; [exact FZ|reflexivity|]. rewrite EZ. reflexivity.
Qed.
Print Assumptions signs_degenerate.

Lemma neg_sign (x : f64) : fin x = true -> B2R x < 0 -> Bsign x = true.
Proof. intros F H. pose proof (sign_le x F) as S. destruct (Bsign x); [reflexivity|lra]. Qed.
Lemma linear_value dbg n s2 f1 f0 : moderate f1 -> moderate f0 -> B2R f1 <> 0 ->
  exists root, fin root = true /\ almost (B2R root) (- B2R f0 / B2R f1) /\
    signs dbg (S n) (mkQuad (B754_zero s2) f1 f0) = Ok (if xorb s2 (Bsign f1) then mkSigns root finfinity f1 else mkSigns fneginf root f1).
Proof.
  intros M1 M0 N1. set (f2 := B754_zero s2 : f64). assert (M2 : moderate f2) by (split; [reflexivity|left; reflexivity]).
  destruct (disc_val f2 f1 f0 M2 M1 M0) as (FD & ED). assert (AP := A_bound f1 M1).
  assert (BZ : Bs f2 f0 = 0). { unfold Bs. change (B2R f2) with 0. rewrite Rmult_0_r, Rmult_0_l. apply rnd_0. }
  assert (DZ : Ds f2 f1 f0 = As f1). { unfold Ds. rewrite BZ, Rminus_0_r. apply rnd_gen, gen_rnd. }
  assert (DP : 0 <= Ds f2 f1 f0) by lra. assert (P : 0 <= B2R (disc f2 f1 f0)) by lra.
  destruct (sqrt_val _ FD P (sign_of_nonneg _ FD P)) as (FS & ES). rewrite ED in ES. fold (ss f2 f1 f0) in ES.
  assert (PS : 0 <= B2R (fsqrt (disc f2 f1 f0))) by (rewrite ES; apply ss_pos).
  destruct (copysign_R (fsqrt (disc f2 f1 f0)) f1 (sign_of_nonneg _ FS PS)) as (EC & FC). rewrite ES in EC. fold (sg f1) in EC. rewrite FS in FC.
  assert (L1 : bpow radix2 (-500) <= Rabs (B2R f1)). { destruct M1 as (_ & [E|K]); [contradiction|apply K]. }
  assert (SB : ss f2 f1 f0 <= bpow radix2 500).
  { unfold ss. rewrite DZ, <- (rnd_gen (bpow radix2 500)) by (apply generic_pow; lia). apply rnd_le. rewrite <- sqrt_pow. apply sqrt_le_1_alt. apply AP. }
  assert (ZB : bpow radix2 (-500) <= Rabs (zs f2 f1 f0) <= bpow radix2 501).
  { pose proof (sum_abs f2 f1 f0 M1) as SA. pose proof (ss_pos f2 f1 f0). pose proof (mod_le _ M1). unfold zs. split.
    - apply abs_round_ge_generic; [typeclasses eauto..|apply generic_pow; lia|]. rewrite SA. lra.
    - apply rnd_abs; [apply generic_pow; lia|]. rewrite SA. change 501%Z with (1 + 500)%Z. rewrite bpow_plus, <- pow2. lra. }
  assert (ZN : zs f2 f1 f0 <> 0). { intros E. rewrite E, Rabs_R0 in ZB. pose proof (bpow_gt_0 radix2 (-500)). lra. }
  destruct (fadd_fin f1 (fcopysign (fsqrt (disc f2 f1 f0)) f1) (proj1 M1) FC) as (FZ & EZ). { rewrite EC. fold (zs f2 f1 f0). apply Rle_lt_trans with (1 := proj2 ZB). apply bpow_lt. lia. }
  rewrite EC in EZ. fold (zs f2 f1 f0) in EZ. set (z := fadd f1 (fcopysign (fsqrt (disc f2 f1 f0)) f1)) in *.
  assert (SN : near (17/8) (ss f2 f1 f0) (Rabs (B2R f1))).
  { apply (near_weak (1 + 1 + /8)); [lra|]. apply near_trans with (sqrt (As f1)); [lra..| |].
    - unfold ss. rewrite DZ. apply near_rnd. right. rewrite Rabs_pos_eq by apply sqrt_pos.
      assert (bpow radix2 (-1000) <= As f1). { unfold As. apply rnd_ge; [apply generic_pow; lia|]. rewrite <- (Rabs_pos_eq (B2R f1 * B2R f1)) by nra. apply (mul_ge _ _ (-500) (-500)); exact L1. }
      apply Rle_trans with (bpow radix2 (-500)); [apply bpow_le; lia|]. rewrite <- sqrt_pow. apply sqrt_le_1_alt. assumption.
    - rewrite <- sqrt_sq. apply near_sqrt; [lra|nra|apply A_near, M1]. }
  assert (ZNEAR : near (27/8) (zs f2 f1 f0) (2 * B2R f1)).
  { apply (near_weak (1 + 17/8 + /8)); [lra|]. apply near_trans with (B2R f1 + sg f1 * ss f2 f1 f0); [lra..|apply near_rnd_plus; [apply gen_B2R|apply gen_sg_ss]|].
    replace (2 * B2R f1) with (B2R f1 + sg f1 * Rabs (B2R f1)) by (rewrite <- (sg_abs f1 M1), <- Rmult_assoc, sg_sq; ring).
    apply near_add; [lra| |apply near_refl; lra|apply near_scale, SN]. rewrite <- (sg_abs f1 M1), <- (Rmult_assoc (sg f1)), sg_sq. nra. }
  destruct (scale_up (fneg ftwo) f0 1) as (F2 & E2); [reflexivity|apply M0|right; apply neg2_R|lia|apply Rle_trans with (1 := mod_le _ M0); apply bpow_le; lia|].
  rewrite neg2_R, <- pow2 in E2. assert (E2' : B2R (fmul (fneg ftwo) f0) = - (2 * B2R f0)) by (rewrite E2; ring).
  assert (Q : (- (2 * B2R f0) / zs f2 f1 f0 = 0 \/ bpow radix2 (-1022) <= Rabs (- (2 * B2R f0) / zs f2 f1 f0)) /\ Rabs (- (2 * B2R f0) / zs f2 f1 f0) <= bpow radix2 1001).
  { destruct (Req_dec (B2R f0) 0) as [E|NE].
    - assert (Z : - (2 * B2R f0) / zs f2 f1 f0 = 0) by (rewrite E; unfold Rdiv; ring). rewrite Z, Rabs_R0. split; [left; reflexivity|apply bpow_ge_0].
    - destruct (div_bounds _ _ _ _ _ _ (num1_bounds f0 M0 NE) ZB) as (H1 & H2). split; [right; apply Rle_trans with (2 := H1); apply bpow_le; lia|exact H2]. }
  destruct (fdiv_fin (fmul (fneg ftwo) f0) z F2) as (FR & ER). { rewrite EZ. exact ZN. } { rewrite EZ, E2'. apply (pow_le_fin _ 1001); [lia..|apply Q]. }
  rewrite EZ, E2' in ER. set (root := fdiv (fmul (fneg ftwo) f0) z) in *. exists root. split; [exact FR|]. split.
  { apply (near_almost 8); [lra|]. rewrite ER. apply (near_weak (1 + (0 + 27/8 + /4) + /8)); [lra|]. apply near_trans with (- (2 * B2R f0) / zs f2 f1 f0); [lra..|apply near_rnd, Q|].
    replace (- B2R f0 / B2R f1) with (- (2 * B2R f0) / (2 * B2R f1)) by (field; exact N1). apply near_div; [lra..|apply near_refl; lra|exact ZNEAR]. }
  cbn [signs q_c2 q_c1 q_c0]. fold f2. rewrite (proj1 M2), (proj1 M1), (proj1 M0). cbn [andb negb]. rewrite andb_false_r. fold (disc f2 f1 f0). rewrite FD. cbn [negb].
  destruct (flt (disc f2 f1 f0) fzero) eqn:L. { apply flt_R in L; [|exact FD|reflexivity]. cbn [B2R fzero] in L. lra. }
  fold z. fold root.
  assert (feq z fzero = false) as ->. { destruct (feq z fzero) eqn:E; [|reflexivity]. apply feq_R in E; [|exact FZ|reflexivity]. exfalso. apply ZN. rewrite <- EZ, E. reflexivity. }
  assert (SZ : Bsign z = Bsign f1).
  { destruct ZNEAR as (e & Be & Ee). assert (K : Rabs e <= /1024) by (apply (e_small (27/8)); [lra|exact Be]). apply abs_le in K. pose proof (sign_le f1 (proj1 M1)) as S1.
    destruct (Bsign f1).
    - apply neg_sign; [exact FZ|]. rewrite EZ, Ee. nra.
    - apply sign_pos. rewrite EZ, Ee. nra. }
  assert (R2 : fdiv (fneg z) (fmul ftwo f2) = B754_infinity (xorb (negb (Bsign f1)) s2)).
  { rewrite <- SZ. destruct z as [zs'| | |zs' mz ez Bz]; try discriminate; [exfalso; apply ZN; rewrite <- EZ; reflexivity|]. destruct s2; reflexivity. }
  rewrite R2, (fin_nonnan _ FR). cbn [nan BinarySingleNaN.is_nan orb]. rewrite andb_false_r. cbn [finf]. unfold finf. cbn [nan fin BinarySingleNaN.is_nan is_finite negb andb].
  pose proof (fin_nonnan _ FR) as NR. f_equal.
  assert (K : (- key_inf < key root < key_inf)%Z). { pose proof (proj1 (fin_key root) FR). tauto. }
  destruct (Bsign f1), s2; cbn [xorb negb]; unfold fmin, fmax; rewrite NR; cbn [nan BinarySingleNaN.is_nan]; rewrite !fle_key by (exact NR || reflexivity); cbn [key];
    repeat match goal with |- context [(?a <=? ?b)%Z] => destruct (Z.leb_spec a b); try lia end; reflexivity.
Qed.
(** C79 (linear functions).  If the leading coefficient is a zero of the sign of the slope, the answer is right.  If it has the other sign, the reported sign is wrong:
    before its root the function has the opposite sign. *)
Theorem signs_linear : forall dbg n s2 f1 f0, moderate f1 -> moderate f0 -> (1 <= n)%nat -> B2R f1 <> 0 -> s2 = Bsign f1 ->
  exists r, signs dbg n (mkQuad (B754_zero s2) f1 f0) = Ok r /\ q_smaller r = fneginf /\ fin (q_bigger r) = true /\ almost (B2R (q_bigger r)) (- B2R f0 / B2R f1) /\
    (forall x, x < - B2R f0 / B2R f1 -> B2R (q_initial r) * quad 0 (B2R f1) (B2R f0) x < 0) /\ (forall x, - B2R f0 / B2R f1 < x -> 0 < B2R (q_initial r) * quad 0 (B2R f1) (B2R f0) x).
Proof.
  intros dbg n s2 f1 f0 M1 M0 N N1 ->. destruct n as [|n]; [lia|]. destruct (linear_value dbg n (Bsign f1) f1 f0 M1 M0 N1) as (root & F & A & E). rewrite xorb_nilpotent in E.
  eexists. split; [exact E|]. cbn [q_smaller q_bigger q_initial]. split; [reflexivity|]. split; [exact F|]. split; [exact A|].
  assert (V : forall x, B2R f1 * quad 0 (B2R f1) (B2R f0) x = B2R f1 * B2R f1 * (x - - B2R f0 / B2R f1)) by (intros x; unfold quad; field; exact N1).
  assert (0 < B2R f1 * B2R f1) by nra. split; intros x H'; rewrite V; nra.
Qed.
Print Assumptions signs_linear.
Theorem signs_linear_wrong : forall dbg n s2 f1 f0, moderate f1 -> moderate f0 -> (1 <= n)%nat -> B2R f1 <> 0 -> s2 = negb (Bsign f1) ->
  exists r, signs dbg n (mkQuad (B754_zero s2) f1 f0) = Ok r /\ fin (q_smaller r) = true /\ q_bigger r = finfinity /\ almost (B2R (q_smaller r)) (- B2R f0 / B2R f1) /\
    (forall x, x < - B2R f0 / B2R f1 -> B2R (q_initial r) * quad 0 (B2R f1) (B2R f0) x < 0) /\ (forall x, - B2R f0 / B2R f1 < x -> 0 < B2R (q_initial r) * quad 0 (B2R f1) (B2R f0) x).
Proof.
  intros dbg n s2 f1 f0 M1 M0 N N1 ->. destruct n as [|n]; [lia|]. destruct (linear_value dbg n (negb (Bsign f1)) f1 f0 M1 M0 N1) as (root & F & A & E).
  replace (xorb (negb (Bsign f1)) (Bsign f1)) with true in E by (destruct (Bsign f1); reflexivity).
  eexists. split; [exact E|]. cbn [q_smaller q_bigger q_initial]. split; [exact F|]. split; [reflexivity|]. split; [exact A|].
  assert (V : forall x, B2R f1 * quad 0 (B2R f1) (B2R f0) x = B2R f1 * B2R f1 * (x - - B2R f0 / B2R f1)) by (intros x; unfold quad; field; exact N1).
  assert (0 < B2R f1 * B2R f1) by nra. split; intros x H'; rewrite V; nra.
Qed.
Print Assumptions signs_linear_wrong.

(** C77 (shift).  In exact arithmetic, shifting a quadratic function moves its graph. *)
Theorem shift_moves : forall c2 c1 c0 s x, let '(a, b, c) := q_shift c2 c1 c0 s in quad a b c x = quad c2 c1 c0 (x - s).
Proof. intros. unfold q_shift, quad. ring. Qed.
Print Assumptions shift_moves.

(** ** Examples *)
Lemma moderate_pow x e : fin x = true -> (-500 <= e <= 500)%Z -> Rabs (B2R x) = bpow radix2 e -> moderate x.
Proof. intros F E H. split; [exact F|right]. rewrite H. split; apply bpow_le; lia. Qed.
Example one_moderate : moderate fone.
Proof. apply (moderate_pow _ 0); [reflexivity|lia|]. rewrite one_R, Rabs_R1. reflexivity. Qed.
Example two_moderate : moderate ftwo.
Proof. apply (moderate_pow _ 1); [reflexivity|lia|]. rewrite two_R, Rabs_pos_eq by lra. apply pow2. Qed.
Example minus_four_moderate : moderate (fneg ffour).
Proof. apply (moderate_pow _ 2); [reflexivity|lia|]. rewrite B2R_fneg, four_R, Rabs_Ropp, Rabs_pos_eq by lra. apply pow4. Qed.
Definition rough (r : res qsigns) (lo1 hi1 lo2 hi2 : f64) : bool :=
  match r with Ok s => flt lo1 (q_smaller s) && flt (q_smaller s) hi1 && flt lo2 (q_bigger s) && flt (q_bigger s) hi2 | _ => false end.
(** x^2 - 4x + 2: the hypotheses of [signs_right] hold, and the computed roots lie between 1/2 and 1 and between 2 and 4. *)
Example parabola : exists r, signs true 1 (mkQuad fone (fneg ffour) ftwo) = Ok r /\ q_initial r = fone /\
  almost_roots (B2R fone) (B2R (fneg ffour)) (B2R ftwo) (B2R (q_smaller r)) (B2R (q_bigger r)).
Proof.
  destruct (signs_right true 1 (mkQuad fone (fneg ffour) ftwo) one_moderate minus_four_moderate two_moderate) as (r & E & I & C); cbn [q_c2 q_c1 q_c0].
  - lia. - rewrite one_R. lra. - right. rewrite two_R. lra.
  - exists r. split; [exact E|]. split; [exact I|]. destruct C as [(_ & _ & C)|C]; [exfalso|apply C]. specialize (C 1). cbn [q_c2 q_c1 q_c0] in C.
    rewrite I in C. cbn [q_c2] in C. rewrite B2R_fneg, one_R, four_R, two_R in C. unfold quad in C. lra.
Qed.
Example parabola_run : rough (signs true 1 (mkQuad fone (fneg ffour) ftwo)) fhalf fone ftwo ffour = true.
Proof. vm_compute. reflexivity. Qed.
(** Coefficients so large that the discriminant overflows: one rescaling. *)
Definition huge : f64 := f64_of_Z (2 ^ 1000).
Example rescaled : match signs true 1 (mkQuad huge (fneg huge) (fneg huge)) with Err EFuel => true | _ => false end
  && rough (signs true 2 (mkQuad huge (fneg huge) (fneg huge))) (fneg fone) (fneg fhalf) fone ftwo = true.
Proof. vm_compute. reflexivity. Qed.
(** The linear function x + 2 with leading coefficient +0 and -0: the initial sign is positive in both cases, but in the second the smaller root is finite. *)
Example linear_two_zeros :
  match signs true 1 (mkQuad fzero fone ftwo), signs true 1 (mkQuad (fneg fzero) fone ftwo) with
  | Ok r, Ok r' => flt fzero (q_initial r) && flt fzero (q_initial r') && negb (fin (q_smaller r)) && feq (q_bigger r) (fneg ftwo) && feq (q_smaller r') (fneg ftwo) && negb (fin (q_bigger r'))
  | _, _ => false end = true.
Proof. vm_compute. reflexivity. Qed.
(** The constant one is reported zero. *)
Example constant_lost : match signs true 1 (mkQuad fzero fzero fone) with Ok r => feq (q_initial r) fzero | _ => false end = true.
Proof. vm_compute. reflexivity. Qed.
