(** When the accuracy makes a difference at every height of the input. *)
From Coq Require Import ZArith Bool List Lia Reals Lra.
From Flocq Require Import Core BinarySingleNaN.
From Verif Require Import F64 F64Arith GeomModel SegmentsModel CurveOrderProofs SweepModel SweepSpec TopoModel BinOpModel PropsBinOp PosModel PosSpec PosProofs2.
Import ListNotations.
Local Open Scope R_scope.

Lemma lt_R (x y : f64) : fin x = true -> fin y = true -> B2R x < B2R y -> (key x < key y)%Z.
Proof. intros Fx Fy L. apply Z.nle_gt. intro H. apply key_le_R in H; [lra|assumption..]. Qed.

Lemma ulp_small (x m : R) : Rabs x <= m -> ulp radix2 fexp64 x <= Rmax (bpow radix2 (-1074)) (m * bpow radix2 (-52)).
Proof.
  intro H. destruct (Req_dec x 0) as [->|NZ].
  { change fexp64 with (FLT_exp (-1074) 53). rewrite ulp_FLT_0 by reflexivity. apply Rmax_l. }
  change fexp64 with (FLT_exp (-1074) 53). destruct (Rlt_le_dec (Rabs x) (bpow radix2 (-1074 + 53))) as [L|L].
  - rewrite ulp_FLT_small by (try reflexivity; exact L). apply Rmax_l.
  - apply Rle_trans with (2 := Rmax_r _ _). apply Rle_trans with (Rabs x * bpow radix2 (-52)).
    + apply (ulp_FLT_le radix2 (-1074) 53 x). apply Rle_trans with (2 := L). apply bpow_le. lia.
    + apply Rmult_le_compat_r; [apply bpow_ge_0|exact H].
Qed.

Lemma step_up (y acc : f64) m : fin y = true -> fin acc = true -> Rabs (B2R y) <= m -> 0 < B2R acc -> m * bpow radix2 (-52) <= B2R acc -> flt y (fadd y acc) = true.
Proof.
  intros Fy Fa H P Q.
  assert (T : bpow radix2 (-1074) <= B2R acc).
  { replace (bpow radix2 (-1074)) with (ulp radix2 fexp64 0) by (change fexp64 with (FLT_exp (-1074) 53); apply ulp_FLT_0; reflexivity).
    rewrite <- (succ_0 radix2 fexp64). apply succ_le_lt; [typeclasses eauto|apply generic_format_0|apply generic_format_B2R|exact P]. }
  assert (U : ulp radix2 fexp64 (B2R y) <= B2R acc). { eapply Rle_trans; [apply ulp_small, H|]. apply Rmax_lub; assumption. }
  assert (S1 : succ radix2 fexp64 (B2R y) <= B2R y + B2R acc). { eapply Rle_trans; [apply succ_le_plus_ulp; typeclasses eauto|]. lra. }
  assert (S2 : succ radix2 fexp64 (B2R y) <= rnd64 (B2R y + B2R acc)).
  { rewrite <- (round_generic radix2 fexp64 (round_mode mode_NE) (succ radix2 fexp64 (B2R y))) by (apply generic_format_succ; [typeclasses eauto|apply generic_format_B2R]). apply round_le; [typeclasses eauto..|exact S1]. }
  pose proof (Bplus_correct 53 1024 _ _ mode_NE y acc Fy Fa) as B. fold (fadd y acc) in B. destruct (Rlt_bool _ _) eqn:E.
  - destruct B as (BR & BF & _). rewrite flt_key; [|apply fin_nonnan; assumption..]. apply Z.ltb_lt. apply lt_R; [assumption|exact BF|]. rewrite BR.
    destruct (Req_dec (B2R y) 0) as [Z|NZ].
    + rewrite Z in *. rewrite Rplus_0_l in *. rewrite round_generic; [exact P|typeclasses eauto|apply generic_format_B2R].
    + eapply Rlt_le_trans; [apply succ_gt_id; exact NZ|exact S2].
  - destruct B as (BS & B). unfold binary_overflow in BS. cbn in BS.
    destruct (fadd y acc) as [s|s| |s mm e HH]; try discriminate BS. cbn in BS.
    assert (s = false) as ->.
    { cbn [Bsign] in B. destruct s; [|reflexivity]. exfalso. assert (Bsign acc = false) as X. { destruct acc as [s'|s'| |[] m' e' H']; try discriminate Fa; try reflexivity; cbn in P; exfalso; [lra|]. assert (F2R (Float radix2 (Z.neg m') e') < 0) by (apply F2R_lt_0; reflexivity). unfold F2R in *. cbn in *. lra. }
      rewrite X in B. injection BS as BS. congruence. }
    rewrite flt_key; [|apply fin_nonnan, Fy|reflexivity]. apply Z.ltb_lt. apply fin_key in Fy. change (key (B754_infinity false : f64)) with key_inf. lia.
Qed.

Lemma sum_fin (y z : f64) : fin y = true -> fin z = true -> Rabs (B2R y) <= bpow radix2 1022 -> Rabs (B2R z) <= bpow radix2 1022 -> fin (fadd y z) = true.
Proof.
  intros Fy Fz A B. pose proof (Bplus_correct 53 1024 _ _ mode_NE y z Fy Fz) as H. fold (fadd y z) in H. rewrite Rlt_bool_true in H; [apply H|].
  apply Rle_lt_trans with (bpow radix2 1023); [|apply bpow_lt; reflexivity]. apply abs_round_le_generic; [typeclasses eauto..|apply generic_format_bpow; vm_compute; discriminate|].
  eapply Rle_trans; [apply Rabs_triang|]. replace (bpow radix2 1023) with (bpow radix2 1022 + bpow radix2 1022); [lra|]. change (bpow radix2 1023) with (bpow radix2 (1 + 1022)). rewrite bpow_plus. change (bpow radix2 1) with 2. ring.
Qed.

Lemma between_R lo y hi : fin lo = true -> fin hi = true -> fle lo y = true -> fle y hi = true -> fin y = true /\ B2R lo <= B2R y <= B2R hi.
Proof.
  intros Fl Fh A B. destruct (fle_nonnan _ _ A) as [N1 N2]. destruct (fle_nonnan _ _ B) as [_ N3]. rewrite fle_key in A, B by assumption. apply Z.leb_le in A, B.
  assert (fin y = true) as Fy. { apply fin_key. split; [exact N2|]. apply fin_key in Fl, Fh. lia. }
  split; [exact Fy|]. split; apply key_le_R; assumption.
Qed.

Lemma roomy_intro a acc (M : f64) : fin acc = true -> fin M = true -> 0 < B2R acc -> B2R M <= bpow radix2 1022 -> B2R M * bpow radix2 (-52) <= B2R acc ->
  (forall i, (i < arena_len a)%nat -> fle (fneg M) (start_y a i) = true /\ fle (end_y a i) M = true) -> roomy a acc.
Proof.
  intros Fa Fm P H1 H2 H3. assert (Fn : fin (fneg M) = true) by (destruct M; exact Fm). assert (NR : B2R (fneg M) = - B2R M) by apply B2R_Bopp.
  assert (AB : forall y, fle (fneg M) y = true -> fle y M = true -> fin y = true /\ Rabs (B2R y) <= B2R M).
  { intros y A B. destruct (between_R _ _ _ Fn Fm A B) as (Fy & L). split; [exact Fy|]. apply Rabs_le. lra. }
  exists (fneg M), M. split; [exact H3|]. split.
  - intros y A B. destruct (AB y A B) as [Fy Hy]. eapply step_up; eassumption.
  - intros y w A B C D. destruct (AB y A B) as [Fy Hy]. destruct (AB w C D) as [Fw Hw]. apply sum_fin; try assumption; lra.
Qed.

(** A greatest absolute value. *)
Lemma max_bound (l : list f64) : Forall (fun x => fin x = true) l -> exists M, fin M = true /\ (B2R M = 0 \/ exists x, In x l /\ B2R M = Rabs (B2R x)) /\ forall x, In x l -> Rabs (B2R x) <= B2R M.
Proof.
  induction 1 as [|x l Fx _ (M & FM & C & B)].
  - exists fzero. split; [reflexivity|]. split; [left; reflexivity|intros ? []].
  - destruct (Rle_lt_dec (Rabs (B2R x)) (B2R M)) as [L|L].
    + exists M. split; [exact FM|]. split. { destruct C as [C|(y & I & E)]; [left; exact C|right; exists y; split; [right; exact I|exact E]]. }
      intros y [<-|I]; [exact L|apply B, I].
    + exists (fabs x). split; [rewrite fin_fabs; exact Fx|]. unfold fabs. rewrite B2R_Babs. split. { right. exists x. split; [left; reflexivity|reflexivity]. }
      intros y [<-|I]; [lra|]. apply B in I. lra.
Qed.

Lemma quarter_ge (eps : f64) r : fin eps = true -> bpow radix2 (-1000) <= B2R eps -> r * bpow radix2 (-50) <= B2R eps -> fin (fdiv eps ffour) = true /\ 0 < B2R (fdiv eps ffour) /\ r * bpow radix2 (-52) <= B2R (fdiv eps ffour).
Proof.
  intros F P Q. assert (R4 : B2R ffour = 4).
  { rewrite B2R_key by reflexivity. replace (key ffour) with (2 ^ 1076)%Z by (vm_compute; reflexivity). rewrite (IZR_Zpower radix2) by lia. rewrite <- bpow_plus. reflexivity. }
  pose proof (Bdiv_correct 53 1024 _ _ mode_NE eps ffour) as H. fold (fdiv eps ffour) in H. rewrite R4 in H. specialize (H ltac:(lra)).
  assert (EX : rnd64 (B2R eps / 4) = B2R eps / 4).
  { apply round_generic; [typeclasses eauto|]. replace (B2R eps / 4) with (B2R eps / 2 / 2) by field.
    assert (0 < bpow radix2 (-1000)) by apply bpow_gt_0. assert (bpow radix2 (-1021) <= bpow radix2 (-1002)) by (apply bpow_le; lia). assert (bpow radix2 (-1000) = 4 * bpow radix2 (-1002)) as X. { change (-1000)%Z with (2 + -1002)%Z. rewrite bpow_plus. reflexivity. }
    apply generic_half; [apply generic_half; [apply generic_format_B2R|]|]; rewrite Rabs_right; lra. }
  rewrite EX in H. assert (0 < B2R eps). { pose proof (bpow_gt_0 radix2 (-1000)). lra. }
  rewrite Rlt_bool_true in H. 2:{ rewrite Rabs_right by lra. pose proof (abs_B2R_lt_emax 53 1024 eps) as A. rewrite Rabs_right in A by lra. lra. }
  destruct H as (HR & HF & _). rewrite HR. split; [change (fin (fdiv eps ffour) = fin eps) in HF; congruence|]. split; [lra|].
  replace (bpow radix2 (-50)) with (4 * bpow radix2 (-52)) in Q; [lra|]. change (-50)%Z with (2 + -52)%Z. rewrite bpow_plus. reflexivity.
Qed.

(** The accuracy that [binary_op] chooses is coarse enough for heights up to 2^1022. *)
Lemma roomy_default a eps : sweepable a -> fin eps = true -> B2R eps_min <= B2R eps ->
  (forall i, (i < arena_len a)%nat -> forall y, y = start_y a i \/ y = end_y a i -> Rabs (B2R y) <= B2R eps * bpow radix2 46 /\ Rabs (B2R y) <= bpow radix2 1022) ->
  roomy a (fdiv eps ffour).
Proof.
  intros SA FE ME H. set (ys := flat_map (fun i => [start_y a i; end_y a i]) (seq 0 (arena_len a))).
  assert (IN : forall y, In y ys <-> exists i, (i < arena_len a)%nat /\ (y = start_y a i \/ y = end_y a i)).
  { intro y. unfold ys. rewrite in_flat_map. split.
    - intros (i & A & [B|[B|[]]]); apply in_seq in A; exists i; (split; [lia|]); auto.
    - intros (i & A & B). exists i. split; [apply in_seq; lia|]. cbn. destruct B as [->| ->]; auto. }
  destruct (max_bound ys) as (M & FM & C & B).
  { apply Forall_forall. intros y Hy. apply IN in Hy. destruct Hy as (i & L & D). destruct (sp_finite _ SA _ L) as [[_ F1] [_ F2]]. destruct D as [->| ->]; assumption. }
  assert (E : bpow radix2 (-1000) <= B2R eps) by (destruct eps_min_R as [X _]; lra). pose proof (bpow_gt_0 radix2 (-1000)) as P0.
  assert (BM : B2R M <= B2R eps * bpow radix2 46 /\ B2R M <= bpow radix2 1022).
  { destruct C as [->|(y & I & ->)]; [split; [apply Rmult_le_pos; [lra|apply bpow_ge_0]|apply bpow_ge_0]|]. apply IN in I. destruct I as (i & L & D). exact (H i L y D). }
  destruct (quarter_ge eps (B2R M) FE E) as (FQ & PQ & Q).
  { apply Rle_trans with (B2R eps * bpow radix2 46 * bpow radix2 (-50)); [apply Rmult_le_compat_r; [apply bpow_ge_0|apply BM]|]. rewrite Rmult_assoc, <- bpow_plus. rewrite <- (Rmult_1_r (B2R eps)) at 2. apply Rmult_le_compat_l; [lra|]. change 1 with (bpow radix2 0). apply bpow_le. lia. }
  apply (roomy_intro a _ M FQ FM PQ (proj2 BM) Q). intros i L. destruct (sp_finite _ SA _ L) as [[_ F1] [_ F2]].
  assert (Fn : fin (fneg M) = true) by (destruct M; exact FM). assert (NR : B2R (fneg M) = - B2R M) by apply B2R_Bopp.
  assert (B1 : Rabs (B2R (start_y a i)) <= B2R M) by (apply B, IN; eauto). assert (B2 : Rabs (B2R (end_y a i)) <= B2R M) by (apply B, IN; eauto).
  apply Rabs_le_inv in B1, B2. split; rewrite fle_key by (apply fin_nonnan; assumption); apply Z.leb_le, key_le_R; try assumption; lra.
Qed.
