(** Comparing curves: accuracies that the heights resolve. *)
From Coq Require Import Reals Lra.
From Flocq Require Import Core BinarySingleNaN.
From Coq Require Import List Bool ZArith Arith Lia.
From Verif Require Import F64 F64Arith TreeVecModel GeomModel SegmentsModel CurveOrderModel CurveOrderSpec CurveOrderProofs SweepModel PosModel PosProofs5 CompareModel CompareSpec CompareArith.
Import ListNotations.
Local Open Scope R_scope.

Lemma err_small (x m acc : R) : Rabs x <= m -> bpow radix2 (-1070) <= acc -> m * bpow radix2 (-49) <= acc -> Rabs (rnd64 x - x) <= acc / 16.
Proof.
  intros H A B. assert (U : ulp radix2 fexp64 x <= acc / 8).
  { eapply Rle_trans; [apply ulp_small, H|]. apply Rmax_lub.
    - replace (bpow radix2 (-1070)) with (16 * bpow radix2 (-1074)) in A by (change (-1070)%Z with (4 + -1074)%Z; rewrite bpow_plus; simpl; lra). pose proof (bpow_gt_0 radix2 (-1074)). lra.
    - replace (bpow radix2 (-49)) with (8 * bpow radix2 (-52)) in B by (change (-49)%Z with (3 + -52)%Z; rewrite bpow_plus; simpl; lra). lra. }
  pose proof (error_le_half_ulp radix2 fexp64 (fun z => negb (Z.even z)) x) as E. eapply Rle_trans; [exact E|]. lra.
Qed.

(** Sixteen times the spacing of the floats up to twice the largest height is enough. *)
Lemma resolved_enough (acc lo hi : f64) m : fin lo = true -> fin hi = true -> fin acc = true -> Rabs (B2R lo) <= m -> Rabs (B2R hi) <= m -> 4 * m < bpow radix2 1024 ->
  bpow radix2 (-1070) <= B2R acc -> m * bpow radix2 (-48) <= B2R acc -> resolved acc lo hi.
Proof.
  intros Fl Fh Fc Bl Bh SM A B a b La Lb D. destruct (fle_nonnan _ _ La) as (Nl & Na). destruct (fle_nonnan _ _ Lb) as (Nb & Nh). destruct (fle_nonnan _ _ D) as (_ & Nd).
  pose proof (bpow_gt_0 radix2 (-1070)) as P1. pose proof (bpow_gt_0 radix2 (-48)) as P2. assert (M0 : 0 <= m) by (pose proof (Rabs_pos (B2R lo)); lra).
  destruct (fhalf_mul acc Fc) as (Fx & Rx).
  assert (B2 : m * bpow radix2 (-49) <= B2R acc / 2). { replace (bpow radix2 (-48)) with (2 * bpow radix2 (-49)) in B by (change (-48)%Z with (1 + -49)%Z; rewrite bpow_plus; simpl; lra). lra. }
  assert (P3 : bpow radix2 (-49) <= 1) by (change 1 with (bpow radix2 0); apply bpow_le; lia).
  assert (HX : 7 / 16 * B2R acc <= B2R (fmul fhalf acc)).
  { rewrite Rx. pose proof (err_small (B2R acc / 2) (B2R acc / 2) (B2R acc)) as E. assert (E' : Rabs (rnd64 (B2R acc / 2) - B2R acc / 2) <= B2R acc / 16).
    { apply E; [rewrite Rabs_pos_eq by lra; lra|exact A|]. apply Rle_trans with (B2R acc / 2 * 1); [apply Rmult_le_compat_l; lra|lra]. }
    apply Rabs_le_inv in E'. lra. }
  assert (Ka : (key lo <= key a)%Z) by (rewrite fle_key in La by assumption; apply Z.leb_le, La). assert (Kb : (key b <= key hi)%Z) by (rewrite fle_key in Lb by assumption; apply Z.leb_le, Lb).
  assert (POS : (0 < key (fmul fhalf acc))%Z). { apply Z.nle_gt. intro H. change 0%Z with (key fzero) in H. apply key_le_R in H; [|exact Fx|reflexivity]. change (B2R fzero) with 0 in H. lra. }
  assert (Kd : (0 < key (fsub b a))%Z). { pose proof (fin_nonnan _ Fx) as Nx. rewrite fle_key in D by assumption. apply Z.leb_le in D. lia. }
  assert (FF : fin a = true /\ fin b = true).
  { split; destruct a as [sa|[]| |sa ma ea Ha]; try reflexivity; try discriminate Na; destruct b as [sb|[]| |sb mb eb Hb]; try reflexivity; try discriminate Nb; try discriminate Nd; try (exfalso; vm_compute in Kd; discriminate Kd).
    all: exfalso. all: try (apply (fin_between' lo hi) in Kb; discriminate).
    all: first [destruct lo as [sl|[]| |sl ml el Hl]; try discriminate Fl; destruct hi as [sh|[]| |sh mh eh Hh]; try discriminate Fh; discriminate La || discriminate Lb]. }
  destruct FF as (Fa & Fb).
  assert (LT : (key a < key b)%Z).
  { apply Z.nle_gt. intro H. rewrite fsub_fneg in Kd. assert (FN : fin (fneg a) = true) by (rewrite fin_fneg; exact Fa).
    pose proof (fadd_mono b a (fneg a) Nb Na FN H) as M. destruct (fadd_fin a (fneg a) Fa FN) as (F0 & R0).
    - rewrite B2R_fneg, Rplus_opp_r, round_0 by typeclasses eauto. rewrite Rabs_R0. apply bpow_gt_0.
    - assert (key (fadd a (fneg a)) = key fzero) as K. { apply fin_keys; [exact F0|reflexivity|]. rewrite R0, B2R_fneg, Rplus_opp_r, round_0 by typeclasses eauto. reflexivity. }
      rewrite K in M. change (key fzero) with 0%Z in M. lia. }
  assert (Tl : tame lo) by (apply R_tame; [exact Fl|rewrite Rabs_mult, (Rabs_pos_eq 2) by lra; lra]). assert (Th : tame hi) by (apply R_tame; [exact Fh|rewrite Rabs_mult, (Rabs_pos_eq 2) by lra; lra]).
  assert (Ta : tame a) by (apply (tame_between lo hi); [assumption..|lia]). assert (Tb : tame b) by (apply (tame_between lo hi); [assumption..|lia]).
  assert (Ra : B2R lo <= B2R a) by (apply key_le_R; assumption). assert (Rb : B2R b <= B2R hi) by (apply key_le_R; assumption). assert (Rab : B2R a <= B2R b) by (apply key_le_R; [assumption..|lia]).
  apply Rabs_le_inv in Bl. apply Rabs_le_inv in Bh.
  assert (B3 : (2 * m) * bpow radix2 (-49) <= B2R acc) by lra.
  destruct (tame_sub b a Tb Ta) as (Fs & Rs). assert (HD : B2R (fmul fhalf acc) <= B2R (fsub b a)). { apply key_le_R; [assumption..|]. rewrite fle_key in D by (assumption || apply fin_nonnan, Fx). apply Z.leb_le, D. }
  assert (E1 := err_small (B2R b - B2R a) (2 * m) (B2R acc) ltac:(apply Rabs_le; lra) A B3). apply Rabs_le_inv in E1. rewrite <- Rs in E1.
  pose proof (tame_add a b Ta Tb) as Fab. destruct (fadd_R a b Fa Fb Fab) as (Rab' & _).
  assert (E2 := err_small (B2R a + B2R b) (2 * m) (B2R acc) ltac:(apply Rabs_le; lra) A B3). apply Rabs_le_inv in E2. rewrite <- Rab' in E2.
  destruct (fhalf_mul _ Fab) as (Fm & Rm). assert (HS : Rabs (B2R (fadd a b)) <= 2 * m).
  { destruct (half_mid a b Fab) as (_ & Km). destruct (tame_mid a b Ta Tb ltac:(lia)) as (_ & M1 & M2).
    rewrite Rab'. apply Rabs_le. split.
    - replace (- (2 * m)) with (2 * - m) by lra. apply Rle_trans with (2 * B2R a); [lra|]. rewrite <- (rnd_gen (2 * B2R a)) by (apply generic_double, Fa). apply rnd_le. lra.
    - apply Rle_trans with (2 * B2R b); [|lra]. rewrite <- (rnd_gen (2 * B2R b)) by (apply generic_double, Fb). apply rnd_le. lra. }
  assert (E3 := err_small (B2R (fadd a b) / 2) (2 * m) (B2R acc)). assert (E4 : Rabs (rnd64 (B2R (fadd a b) / 2) - B2R (fadd a b) / 2) <= B2R acc / 16).
  { apply E3; [|exact A|exact B3]. unfold Rdiv. rewrite Rabs_mult, (Rabs_pos_eq (/2)) by lra. lra. }
  apply Rabs_le_inv in E4. rewrite <- Rm in E4. exists (fmul fhalf (fadd a b)). split; apply flt_R; try assumption; lra.
Qed.
