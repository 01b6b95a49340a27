(** Proofs about the bands of cubic curves. *)
From Coq Require Import ZArith Bool Lia Reals Lra Psatz List.
From Flocq Require Import Core BinarySingleNaN.
From Verif Require Import F64 F64Arith CurveOrderProofs TreeVecModel GeomModel SegmentsModel SweepModel PosModel CompareModel CompareArith LineModel LineSpec LineProofs LineProofs2 NearArith QuadProofs ExactModel CubicModel CubicSpec CubicProofs CubicProofs2 CubicProofs3 CubicProofs4.
Import ListNotations.
Local Open Scope R_scope.

Section Bands.
Variable roots_between : f64 -> f64 -> f64 -> f64 -> f64 -> list f64.
Variable poly_eval : f64 -> f64 -> f64 -> f64 -> f64 -> f64.
Variable candidates : cubic -> list f64.
Hypothesis LI : looks_inside roots_between.
Notation solve_t := (solve_t roots_between poly_eval).
Notation sx := (seg_solve_x roots_between poly_eval).
Notation ext := (seg_extent roots_between poly_eval candidates).
Variables p0 p1 p2 p3 : point.
Notation c := (mkCubic p0 p1 p2 p3).
Notation s := (SCubic p0 p1 p2 p3).
Variable M : R.
Hypothesis CW : curve_within M c.
Hypothesis MV : usual_size M.
Hypothesis DOWN : flt (py p0) (py p3) = true.
Variable eps : f64.
Hypothesis FE : fin eps = true.
Hypothesis EP : 0 <= B2R eps <= M.
Notation tau := (tau M).
Lemma size_huge : M <= huge. Proof. destruct MV as (_ & B). apply Rle_trans with (1 := B). apply bpow_le. lia. Qed.

Section At.
Variable y : f64.
Hypothesis L0 : fle (py p0) y = true.
Hypothesis L1 : fle y (py p3) = true.
Lemma solve_ok : exists t, solve_t false c y = Ok t /\ in_unit t /\ at_y sx s y = px (eval_cubic c t) /\
  (feq y (py p0) = true -> t = fzero) /\ (feq y (py p3) = true -> t = fone).
Proof.
  destruct (solve_cases c M CW MV y L0 L1 DOWN roots_between poly_eval LI) as (t & E & U & _ & S0 & S1 & _). exists t. split; [exact E|]. split; [exact U|]. split; [|auto].
  cbn [at_y]. unfold seg_solve_x, solve_x_for_y. cbn [seg_cubic]. rewrite E. reflexivity.
Qed.
Lemma window_ok : exists a b, window s y eps = (a, b) /\ fin a = true /\ fin b = true /\ fle (py p0) a = true /\ fle a y = true /\ fle y b = true /\ fle b (py p3) = true /\
  (feq y (py p0) = true -> feq a (py p0) = true) /\ (feq y (py p3) = true -> feq b (py p3) = true) /\ fle (fsub y eps) a = true /\ fle b (fadd y eps) = true.
Proof.
  destruct CW as (W0 & _ & _ & W3). pose proof size_huge as MH. exists (ws p0 p3 eps y), (we p0 p3 eps y). split; [reflexivity|].
  destruct (ws_R p0 p3 M W0 W3 MH eps FE EP y L0 L1) as (Fs & Es & Rs). destruct (we_R p0 p3 M W0 W3 MH eps FE EP y L0 L1) as (Fe & Ee & Re). pose proof (Fy p0 p3 M W0 W3 y L0 L1) as FY.
  assert (F0 : fin (py p0) = true) by apply W0. assert (F3 : fin (py p3) = true) by apply W3. destruct (ends_R p0 p3 M W0 W3 MH eps FE EP y L0 L1) as (G1 & G2 & _).
  split; [exact Fs|]. split; [exact Fe|]. repeat split; try (apply fle_R; [assumption..|lra]).
  - intros H. apply feq_R in H; [|assumption..]. apply feq_R; [assumption..|]. lra.
  - intros H. apply feq_R in H; [|assumption..]. apply feq_R; [assumption..|]. lra.
  - apply fle_R; [assumption..|]. rewrite Es. apply Rmax_l.
  - apply fle_R; [assumption..|]. rewrite Ee. apply Rmin_l.
Qed.
End At.

Section Band.
Variable y : f64.
Hypothesis L0 : fle (py p0) y = true.
Hypothesis L1 : fle y (py p3) = true.
Notation lo := (lower sx ext s y eps).
Notation hi := (upper sx ext s y eps).
Lemma band_val : exists a b ta tb, window s y eps = (a, b) /\ fle (py p0) a = true /\ fle a y = true /\ fle y b = true /\ fle b (py p3) = true /\
  fle (fsub y eps) a = true /\ fle b (fadd y eps) = true /\
  solve_t false c a = Ok ta /\ solve_t false c b = Ok tb /\ in_unit ta /\ in_unit tb /\
  (feq y (py p0) = true -> ta = fzero) /\ (feq y (py p3) = true -> tb = fone) /\
  at_y sx s a = px (eval_cubic c ta) /\ at_y sx s b = px (eval_cubic c tb) /\
  fin lo = true /\ fin hi = true /\
  let r := box_x candidates (subseg c ta tb) in
  B2R lo = rnd64 (B2R (fst r) - B2R eps) /\ B2R hi = rnd64 (B2R (snd r) + B2R eps) /\
  Rabs (B2R lo - (B2R (fst r) - B2R eps)) <= 3 * tau /\ Rabs (B2R hi - (B2R (snd r) + B2R eps)) <= 3 * tau.
Proof.
  destruct (window_ok y L0 L1) as (a & b & W & Fa & Fb & A0 & A1 & B0 & B1 & SA & SB & N1 & N2).
  assert (Na : nan a = false) by (apply fin_nonnan; assumption). assert (Nb : nan b = false) by (apply fin_nonnan; assumption).
  assert (A2 : fle a (py p3) = true). { destruct (fle_nonnan _ _ A1), (fle_nonnan _ _ L1). fk. zb. lia. } assert (B2 : fle (py p0) b = true). { destruct (fle_nonnan _ _ B0), (fle_nonnan _ _ L0). fk. zb. lia. }
  destruct (solve_ok a A0 A2) as (ta & Ea & Ua & Xa & Za & _). destruct (solve_ok b B2 B1) as (tb & Eb & Ub & Xb & _ & Ob).
  exists a, b, ta, tb. split; [exact W|]. do 6 (split; [assumption|]). split; [exact Ea|]. split; [exact Eb|]. split; [exact Ua|]. split; [exact Ub|]. split; [auto|]. split; [auto|]. split; [exact Xa|]. split; [exact Xb|].
  assert (LB : lo = fsub (fst (box_x candidates (subseg c ta tb))) eps /\ hi = fadd (snd (box_x candidates (subseg c ta tb))) eps).
  { unfold lower, upper, local_bbox. rewrite W. unfold seg_extent, extent. cbn [seg_cubic]. rewrite Ea, Eb. split; reflexivity. }
  destruct LB as (-> & ->). destruct (box_val c M CW MV ta tb Ua Ub candidates) as (FL & FH & (s1 & S1 & V1) & (s2 & S2 & V2) & _).
  set (r := box_x candidates (subseg c ta tb)) in *. pose proof (M_nonneg c M CW) as M0. destruct (tau_pos M M0) as (TP & UM & HT). pose proof size_huge as MH. pose proof u_4. pose proof u_pos.
  destruct (N_facts c M CW MV) as (_ & TB & _). 
  assert (BX : forall t, 0 <= t <= 1 -> Rabs (cx (real_curve c) t) <= M). { intros t T. destruct CW as (W0 & W1 & W2 & W3). apply bern3_abs; [exact T|apply W0|apply W1|apply W2|apply W3]. }
  assert (BL : Rabs (B2R (fst r)) <= 3 / 2 * M). { apply Rle_trans with (1 := abs_near _ _ _ _ (BX _ (along_unit _ _ _ (proj2 Ua) (proj2 Ub) S1)) V1). lra. }
  assert (BH : Rabs (B2R (snd r)) <= 3 / 2 * M). { apply Rle_trans with (1 := abs_near _ _ _ _ (BX _ (along_unit _ _ _ (proj2 Ua) (proj2 Ub) S2)) V2). lra. }
  apply abs_le in BL, BH.
  destruct (sub_val (fst r) eps FL FE) as (G1 & E1); [apply abs_le; lra..|]. destruct (add_val (snd r) eps FH FE) as (G2 & E2); [apply abs_le; lra..|].
  split; [exact G1|]. split; [exact G2|]. cbv zeta. split; [exact E1|]. split; [exact E2|]. rewrite E1, E2. split.
  - apply Rle_trans with (1 := sub_err _ _ (gen_B2R _) (gen_B2R _)). assert (Rabs (B2R (fst r) - B2R eps) <= 3 * M) by (apply abs_le; lra). apply Rle_trans with (u * (3 * M)); [apply Rmult_le_compat_l; lra|]. lra.
  - apply Rle_trans with (1 := plus_err _ _ (gen_B2R _) (gen_B2R _)). assert (Rabs (B2R (snd r) + B2R eps) <= 3 * M) by (apply abs_le; lra). apply Rle_trans with (u * (3 * M)); [apply Rmult_le_compat_l; lra|]. lra.
Qed.
(** What is between the smallest and the largest position is in the band. *)
Lemma between (x : f64) r1 r2 : fin x = true -> fin lo = true -> fin hi = true -> B2R lo = rnd64 (r1 - B2R eps) -> B2R hi = rnd64 (r2 + B2R eps) -> r1 <= B2R x <= r2 ->
  fle lo x = true /\ fle x hi = true.
Proof.
  intros FX F1 F2 E1 E2 R. split; (apply fle_R; [assumption..|]).
  - rewrite E1, <- (rnd_gen (B2R x)) by apply gen_B2R. apply rnd_le. lra.
  - rewrite E2, <- (rnd_gen (B2R x)) by apply gen_B2R. apply rnd_le. lra.
Qed.
(** The positions at the ends of the window are in the band. *)
Lemma ends_in_band a b : window s y eps = (a, b) ->
  (fle lo (at_y sx s a) = true /\ fle (at_y sx s a) hi = true) /\ (fle lo (at_y sx s b) = true /\ fle (at_y sx s b) hi = true).
Proof.
  intros W. destruct band_val as (a' & b' & ta & tb & W' & _ & _ & _ & _ & _ & _ & _ & _ & Ua & Ub & _ & _ & Xa & Xb & F1 & F2 & E1 & E2 & _). rewrite W in W'. injection W' as <- <-.
  destruct (box_val c M CW MV ta tb Ua Ub candidates) as (_ & _ & _ & _ & BE & _). set (r := box_x candidates (subseg c ta tb)) in *.
  rewrite Xa, Xb. destruct (eval_val c M CW MV ta Ua) as ((Fa & _) & _). destruct (eval_val c M CW MV tb Ub) as ((Fb & _) & _).
  split; (eapply between; [assumption|exact F1|exact F2|exact E1|exact E2|]); apply BE; cbn; auto.
Qed.
Lemma curve_start : feq y (py p0) = true -> B2R (at_y sx s y) = B2R (px p0) /\ fle lo (px p0) = true /\ fle (px p0) hi = true.
Proof.
  intros H. destruct (solve_ok y L0 L1) as (t & _ & _ & X & Z & _). specialize (Z H). subst t. destruct (eval_start c M CW MV) as (FS & ES). split; [rewrite X; exact ES|].
  destruct band_val as (a & b & ta & tb & _ & _ & _ & _ & _ & _ & _ & _ & _ & Ua & Ub & Za & _ & _ & _ & F1 & F2 & E1 & E2 & _). specialize (Za H). subst ta.
  destruct (box_val c M CW MV fzero tb Ua Ub candidates) as (_ & _ & _ & _ & BE & _). specialize (BE _ (or_introl eq_refl)). cbn [subseg cb0] in BE. rewrite ES in BE.
  destruct CW as ((FX & _) & _). eapply between; [exact FX|exact F1|exact F2|exact E1|exact E2|exact BE].
Qed.
Lemma curve_end : feq y (py p3) = true -> B2R (at_y sx s y) = B2R (px p3) /\ fle lo (px p3) = true /\ fle (px p3) hi = true.
Proof.
  intros H. destruct (solve_ok y L0 L1) as (t & _ & _ & X & _ & Z). specialize (Z H). subst t. destruct (eval_end c M CW) as (FS & ES). split; [rewrite X; exact ES|].
  destruct band_val as (a & b & ta & tb & _ & _ & _ & _ & _ & _ & _ & _ & _ & Ua & Ub & _ & Zb & _ & _ & F1 & F2 & E1 & E2 & _). specialize (Zb H). subst tb.
  destruct (box_val c M CW MV ta fone Ua Ub candidates) as (_ & _ & _ & _ & BE & _). specialize (BE _ (or_intror (or_introl eq_refl))). cbn [subseg cb3] in BE. rewrite ES in BE.
  destruct CW as (_ & _ & _ & (FX & _)). eapply between; [exact FX|exact F1|exact F2|exact E1|exact E2|exact BE].
Qed.
End Band.
End Bands.
