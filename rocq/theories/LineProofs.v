(** Proofs about the positions of straight lines. *)
From Coq Require Import ZArith Bool Lia Reals Lra List.
From Flocq Require Import Core BinarySingleNaN Plus_error Relative.
From Verif Require Import F64 F64Arith PosProofs2 CompareModel CompareSpec CompareArith GeomModel LineModel LineSpec.
Local Open Scope R_scope.

#[local] Instance vexp : Valid_exp fexp64 := fexp_correct 53 1024 _.
#[local] Instance mexp : Monotone_exp fexp64 := fexp_monotone 53 1024.

(** ** Rounding errors *)
Definition u : R := bpow radix2 (-53).
Definition h : R := bpow radix2 (-1075).
Lemma u_pos : 0 < u. Proof. apply bpow_gt_0. Qed.
Lemma u_small : u <= /1024.
Proof. replace (/1024) with (bpow radix2 (-10)) by (simpl; lra). apply bpow_le. lia. Qed.
Lemma h_pos : 0 < h. Proof. apply bpow_gt_0. Qed.
Lemma h_small : h <= u. Proof. apply bpow_le. lia. Qed.

Lemma plus_err (x y : R) : generic_format radix2 fexp64 x -> generic_format radix2 fexp64 y -> Rabs (rnd64 (x + y) - (x + y)) <= u * Rabs (x + y).
Proof.
  intros Gx Gy. destruct (FLT_plus_error_N_ex radix2 (-1074) 53 (fun x => negb (Z.even x)) x y Gx Gy) as (e & Be & E).
  change (round radix2 (FLT_exp (-1074) 53) (Znearest (fun x => negb (Z.even x)))) with rnd64 in E. rewrite E.
  replace ((x + y) * (1 + e) - (x + y)) with (e * (x + y)) by ring. rewrite Rabs_mult. apply Rmult_le_compat_r; [apply Rabs_pos|].
  apply Rle_trans with (1 := Be). assert (U : u_ro radix2 53 = u). { unfold u_ro, u. change (/2) with (bpow radix2 (-1)). rewrite <- bpow_plus. reflexivity. }
  rewrite U. pose proof u_pos. apply Rmult_le_reg_r with (1 + u); [lra|]. unfold Rdiv. rewrite Rmult_assoc, Rinv_l by lra. nra.
Qed.
Lemma sub_err (x y : R) : generic_format radix2 fexp64 x -> generic_format radix2 fexp64 y -> Rabs (rnd64 (x - y) - (x - y)) <= u * Rabs (x - y).
Proof. intros Gx Gy. unfold Rminus at 1 3 4. apply plus_err; [exact Gx|apply generic_format_opp, Gy]. Qed.
Lemma any_err (x : R) : Rabs (rnd64 x - x) <= u * Rabs x + h.
Proof.
  pose proof h_pos as H. pose proof u_pos as U. pose proof (Rabs_pos x) as P. destruct (Rle_or_lt (bpow radix2 (-1022)) (Rabs x)) as [L|L].
  - pose proof (relative_error_N_FLT radix2 (-1074) 53 ltac:(reflexivity) (fun x => negb (Z.even x)) x L) as E.
    change (round radix2 (FLT_exp (-1074) 53) (Znearest (fun x => negb (Z.even x)))) with rnd64 in E.
    replace (/ 2 * bpow radix2 (- (53) + 1)) with u in E; [lra|]. unfold u. change (/2) with (bpow radix2 (-1)). rewrite <- bpow_plus. reflexivity.
  - pose proof (error_le_half_ulp radix2 fexp64 (fun x => negb (Z.even x)) x) as E.
    change (round radix2 fexp64 (Znearest (fun x => negb (Z.even x)))) with rnd64 in E.
    assert (UL : ulp radix2 fexp64 x = bpow radix2 (-1074)). { apply (ulp_FLT_small radix2 (-1074) 53). apply Rlt_trans with (1 := L). apply bpow_lt. lia. }
    assert (E' : Rabs (rnd64 x - x) <= /2 * bpow radix2 (-1074)) by (rewrite <- UL; exact E). clear E. rename E' into E.
    replace (/ 2 * bpow radix2 (-1074)) with h in E; [nra|]. unfold h. change (/2) with (bpow radix2 (-1)). rewrite <- bpow_plus. reflexivity.
Qed.
Lemma abs_le (x b : R) : Rabs x <= b <-> - b <= x <= b.
Proof. split; [apply Rabs_le_inv|apply Rabs_le]. Qed.

(** ** Comparisons and values *)
Lemma fle_R (x y : f64) : fin x = true -> fin y = true -> fle x y = true <-> B2R x <= B2R y.
Proof.
  intros Fx Fy. rewrite fle_key by (apply fin_nonnan; assumption). rewrite Z.leb_le. apply key_le_R; assumption.
Qed.
Lemma feq_R (x y : f64) : fin x = true -> fin y = true -> feq x y = true <-> B2R x = B2R y.
Proof.
  intros Fx Fy. rewrite feq_key by (apply fin_nonnan; assumption). rewrite Z.eqb_eq. split; [|apply fin_keys; assumption].
  intros E. rewrite !B2R_key by assumption. rewrite E. reflexivity.
Qed.
Lemma fmax_R (x y : f64) : fin x = true -> fin y = true -> fin (fmax x y) = true /\ B2R (fmax x y) = Rmax (B2R x) (B2R y).
Proof.
  intros Fx Fy. pose proof (fle_R y x Fy Fx) as L1. pose proof (fle_R x y Fx Fy) as L2. unfold fmax. rewrite !fin_nonnan by assumption.
  destruct (fle y x) eqn:E; (split; [assumption|]).
  - rewrite Rmax_left; [reflexivity|]. apply L1. reflexivity.
  - rewrite Rmax_right; [reflexivity|]. destruct (Rle_or_lt (B2R y) (B2R x)) as [Q|Q]; [apply L1 in Q; discriminate|lra].
Qed.
Lemma fmin_R (x y : f64) : fin x = true -> fin y = true -> fin (fmin x y) = true /\ B2R (fmin x y) = Rmin (B2R x) (B2R y).
Proof.
  intros Fx Fy. pose proof (fle_R y x Fy Fx) as L1. pose proof (fle_R x y Fx Fy) as L2. unfold fmin. rewrite !fin_nonnan by assumption.
  destruct (fle x y) eqn:E; (split; [assumption|]).
  - rewrite Rmin_left; [reflexivity|]. apply L2. reflexivity.
  - rewrite Rmin_right; [reflexivity|]. destruct (Rle_or_lt (B2R x) (B2R y)) as [Q|Q]; [apply L2 in Q; discriminate|lra].
Qed.
Lemma big_fin (v : R) : Rabs v <= bpow radix2 1023 -> Rabs (rnd64 v) < bpow radix2 1024.
Proof.
  intro H. apply Rle_lt_trans with (bpow radix2 1023); [|apply bpow_lt; lia]. apply abs_round_le_generic; [typeclasses eauto..|apply generic_pow; lia|exact H].
Qed.
Lemma huge_pow k : 8 * huge = bpow radix2 1023 /\ (k = k :> R).
Proof. split; [|reflexivity]. unfold huge. change 8 with (bpow radix2 3). rewrite <- bpow_plus. reflexivity. Qed.
Lemma sub_val (x y : f64) : fin x = true -> fin y = true -> Rabs (B2R x) <= 4 * huge -> Rabs (B2R y) <= 4 * huge ->
  fin (fsub x y) = true /\ B2R (fsub x y) = rnd64 (B2R x - B2R y).
Proof.
  intros Fx Fy Bx By. rewrite fsub_fneg. pose proof (proj1 (huge_pow 0)) as H. destruct (fadd_fin x (fneg y) Fx) as (F & E).
  - rewrite fin_fneg. exact Fy.
  - rewrite B2R_fneg. apply big_fin. rewrite <- H. apply abs_le in Bx, By. apply abs_le. lra.
  - split; [exact F|]. rewrite E, B2R_fneg. reflexivity.
Qed.
Lemma add_val (x y : f64) : fin x = true -> fin y = true -> Rabs (B2R x) <= 4 * huge -> Rabs (B2R y) <= 4 * huge ->
  fin (fadd x y) = true /\ B2R (fadd x y) = rnd64 (B2R x + B2R y).
Proof.
  intros Fx Fy Bx By. pose proof (proj1 (huge_pow 0)) as H. apply fadd_fin; [assumption..|].
  apply big_fin. rewrite <- H. apply abs_le in Bx, By. apply abs_le. lra.
Qed.
Lemma rnd_0 : rnd64 0 = 0.
Proof. apply rnd_gen, generic_format_0. Qed.
Lemma rnd_abs (v w : R) : generic_format radix2 fexp64 w -> Rabs v <= w -> Rabs (rnd64 v) <= w.
Proof. intros G H. apply abs_round_le_generic; [typeclasses eauto..|exact G|exact H]. Qed.

(** ** A line *)
Section Line.
Variables p0 p1 : point.
Variable M : R.
Hypothesis W0 : within M p0.
Hypothesis W1 : within M p1.
Hypothesis MH : M <= huge.
Hypothesis DOWN : flt (py p0) (py p1) = true.
Notation x0 := (B2R (px p0)).
Notation x1 := (B2R (px p1)).
Notation y0 := (B2R (py p0)).
Notation y1 := (B2R (py p1)).
Definition D : R := rnd64 (y1 - y0).
Definition d : R := rnd64 (x1 - x0).
Definition A (Y : R) : R := rnd64 (x0 + rnd64 (rnd64 (rnd64 (Y - y0) / D) * d)).

Lemma M_pos : 0 <= M. Proof. destruct W0 as (_ & _ & B & _). pose proof (Rabs_pos x0). lra. Qed.
Lemma y_lt : y0 < y1. Proof. apply flt_R; [apply W0|apply W1|exact DOWN]. Qed.
Lemma bounds : -M <= x0 <= M /\ -M <= x1 <= M /\ -M <= y0 <= M /\ -M <= y1 <= M.
Proof. destruct W0 as (_ & _ & B1 & B2), W1 as (_ & _ & B3 & B4). apply abs_le in B1, B2, B3, B4. lra. Qed.
Lemma D_pos : 0 < D.
Proof.
  unfold D. pose proof y_lt. assert (0 <= rnd64 (y1 - y0)). { rewrite <- rnd_0. apply rnd_le. lra. }
  assert (rnd64 (y1 + - y0) <> 0); [|unfold Rminus in *; lra].
  apply round_plus_neq_0; [typeclasses eauto..|apply gen_B2R|apply generic_format_opp, gen_B2R|lra].
Qed.
Lemma D_gen : generic_format radix2 fexp64 D. Proof. apply generic_format_round; typeclasses eauto. Qed.
Lemma d_gen : generic_format radix2 fexp64 d. Proof. apply generic_format_round; typeclasses eauto. Qed.
Definition quot (Y : R) : R := rnd64 (rnd64 (Y - y0) / D).
Lemma num_range Y : y0 <= Y <= y1 -> 0 <= rnd64 (Y - y0) <= D.
Proof. intros [L1 L2]. split; [rewrite <- rnd_0; apply rnd_le; lra|apply rnd_le; lra]. Qed.
Lemma ratio_range Y : y0 <= Y <= y1 -> 0 <= rnd64 (Y - y0) / D <= 1.
Proof.
  intros H. apply num_range in H. pose proof D_pos. split.
  - apply Rmult_le_pos; [lra|]. apply Rlt_le, Rinv_0_lt_compat. assumption.
  - apply Rmult_le_reg_r with D; [assumption|]. unfold Rdiv. rewrite Rmult_assoc, Rinv_l by lra. lra.
Qed.
Lemma quot_range Y : y0 <= Y <= y1 -> 0 <= quot Y <= 1.
Proof.
  intros H. apply ratio_range in H. unfold quot. split; [rewrite <- rnd_0; apply rnd_le; lra|]. rewrite <- (rnd_gen 1) by apply generic_one. apply rnd_le. lra.
Qed.
Lemma prod_abs t : 0 <= t <= 1 -> Rabs (t * d) <= Rabs d.
Proof. intros H. rewrite Rabs_mult, (Rabs_pos_eq t) by lra. pose proof (Rabs_pos d). nra. Qed.
Lemma d_abs : Rabs d <= 3 * M.
Proof.
  pose proof bounds as (B1 & B2 & _). pose proof (sub_err x1 x0 (gen_B2R _) (gen_B2R _)) as E. fold d in E. pose proof u_small. pose proof u_pos. pose proof M_pos.
  assert (X : Rabs (x1 - x0) <= 2 * M) by (apply abs_le; lra). assert (u * Rabs (x1 - x0) <= M) by nra. apply abs_le in E, X. apply abs_le. lra.
Qed.

Lemma at_val (y : f64) : fin y = true -> y0 <= B2R y <= y1 -> fin (line_at p0 p1 y) = true /\ B2R (line_at p0 p1 y) = A (B2R y).
Proof.
  intros Fy R. pose proof bounds as (B1 & B2 & B3 & B4). pose proof M_pos as MP. pose proof D_pos as DP. pose proof d_abs as DA.
  assert (Hh : 0 < huge) by apply bpow_gt_0.
  destruct W0 as (Fx0 & Fy0 & _ & _), W1 as (Fx1 & Fy1 & _ & _). unfold line_at.
  assert (feq (py p0) (py p1) = false) as ->. { destruct (feq _ _) eqn:E; [|reflexivity]. apply feq_R in E; [|assumption..]. pose proof y_lt. lra. }
  cbv zeta. destruct (sub_val y (py p0) Fy Fy0) as (FN & EN); [apply abs_le; lra..|].
  destruct (sub_val (py p1) (py p0) Fy1 Fy0) as (FD & ED); [apply abs_le; lra..|].
  destruct (sub_val (px p1) (px p0) Fx1 Fx0) as (Fd & Ed); [apply abs_le; lra..|].
  fold D in ED. fold d in Ed.
  destruct (fdiv_fin (fsub y (py p0)) (fsub (py p1) (py p0)) FN) as (FQ & EQ).
  { rewrite ED. lra. }
  { rewrite EN, ED. apply Rle_lt_trans with 1; [|change 1 with (bpow radix2 0); apply bpow_lt; lia]. apply abs_le. pose proof (quot_range _ R) as Q. unfold quot in Q. lra. }
  rewrite EN, ED in EQ. fold (quot (B2R y)) in EQ. pose proof (quot_range _ R) as Q.
  destruct (fmul_fin (fdiv (fsub y (py p0)) (fsub (py p1) (py p0))) (fsub (px p1) (px p0)) FQ Fd) as (FM & EM).
  { rewrite EQ, Ed. apply (shrink_lt (fsub (px p1) (px p0))). rewrite Ed. apply prod_abs, Q. }
  rewrite EQ, Ed in EM.
  assert (AM : Rabs (rnd64 (quot (B2R y) * d)) <= Rabs d). { apply rnd_abs; [apply generic_format_abs, d_gen|apply prod_abs, Q]. }
  destruct (add_val (px p0) (fmul (fdiv (fsub y (py p0)) (fsub (py p1) (py p0))) (fsub (px p1) (px p0))) Fx0 FM) as (FS & ES).
  { apply abs_le. lra. } { rewrite EM. lra. }
  split; [exact FS|]. rewrite ES, EM. reflexivity.
Qed.

Lemma quot_mono Y Y' : Y <= Y' -> quot Y <= quot Y'.
Proof.
  intros H. unfold quot. apply rnd_le. apply Rmult_le_compat_r; [apply Rlt_le, Rinv_0_lt_compat, D_pos|]. apply rnd_le. lra.
Qed.
Lemma A_mono Y Y' : Y <= Y' -> (0 <= d -> A Y <= A Y') /\ (d <= 0 -> A Y' <= A Y).
Proof.
  intros H. apply quot_mono in H. unfold A. fold (quot Y) (quot Y').
  split; intros S; apply rnd_le; apply Rplus_le_compat_l; apply rnd_le; nra.
Qed.
Lemma A_start : A y0 = x0.
Proof. unfold A. rewrite Rminus_diag_eq by reflexivity. rewrite rnd_0. unfold Rdiv. rewrite Rmult_0_l, rnd_0, Rmult_0_l, rnd_0, Rplus_0_r. apply rnd_gen, gen_B2R. Qed.
Lemma A_end : A y1 = rnd64 (x0 + d).
Proof.
  unfold A. fold D. pose proof D_pos. unfold Rdiv. rewrite Rinv_r by lra. rewrite (rnd_gen 1) by apply generic_one. rewrite Rmult_1_l, (rnd_gen d) by apply d_gen. reflexivity.
Qed.
Lemma end_close : Rabs (A y1 - x1) <= 4 * u * M.
Proof.
  rewrite A_end. pose proof bounds as (B1 & B2 & _). pose proof M_pos. pose proof u_pos. pose proof u_small.
  pose proof (sub_err x1 x0 (gen_B2R _) (gen_B2R _)) as E1. fold d in E1. assert (X1 : Rabs (x1 - x0) <= 2 * M) by (apply abs_le; lra).
  assert (X2 : u * Rabs (x1 - x0) <= 2 * u * M) by nra. pose proof (plus_err x0 d (gen_B2R _) d_gen) as E2.
  assert (X3 : Rabs (x0 + d) <= 2 * M). { apply abs_le in E1. apply abs_le. assert (2 * u * M <= M) by nra. lra. }
  assert (X4 : u * Rabs (x0 + d) <= 2 * u * M) by nra. apply abs_le in E1, E2. apply abs_le. lra.
Qed.
Lemma d_sign : (x0 <= x1 -> 0 <= d) /\ (x1 <= x0 -> d <= 0).
Proof. unfold d. split; intro H; rewrite <- rnd_0; apply rnd_le; lra. Qed.

(** ** Accuracy *)
Lemma quot_err (y : f64) : y0 <= B2R y <= y1 -> Rabs (quot (B2R y) - (B2R y - y0) / (y1 - y0)) <= 5 * u.
Proof.
  intros R. pose proof y_lt as L. pose proof u_pos. pose proof u_small. pose proof h_small. pose proof (ratio_range _ R) as RR. pose proof D_pos as DP.
  set (n := rnd64 (B2R y - y0)) in *. set (T := (B2R y - y0) / (y1 - y0)).
  assert (T0 : 0 <= T <= 1). { unfold T. split; [apply Rmult_le_pos; [lra|]; apply Rlt_le, Rinv_0_lt_compat; lra|]. apply Rmult_le_reg_r with (y1 - y0); [lra|]. unfold Rdiv. rewrite Rmult_assoc, Rinv_l by lra. lra. }
  assert (TE : B2R y - y0 = T * (y1 - y0)). { unfold T. field. lra. }
  pose proof (sub_err (B2R y) y0 (gen_B2R _) (gen_B2R _)) as E1. fold n in E1. pose proof (sub_err y1 y0 (gen_B2R _) (gen_B2R _)) as E2. fold D in E2.
  rewrite (Rabs_pos_eq (B2R y - y0)) in E1 by lra. rewrite (Rabs_pos_eq (y1 - y0)) in E2 by lra. rewrite TE in E1.
  set (w := y1 - y0) in *. assert (w_pos : 0 < w) by (unfold w; lra).
  assert (Q : Rabs (n / D - T) <= 3 * u).
  { set (r := n / D) in *. assert (nE : n = r * D). { unfold r. field. lra. }
    apply abs_le in E1, E2. rewrite nE in E1. assert (UW : u * w <= w / 1024) by nra. assert (DW : w * (1 - /1024) <= D) by lra.
    assert (0 <= T * w <= w) by nra. assert (0 <= u * (T * w) <= u * w) by nra. assert (0 <= T * (u * w) <= u * w) by nra.
    assert (E3 : - (2 * (u * w)) <= (r - T) * D <= 2 * (u * w)).
    { replace ((r - T) * D) with ((r * D - T * w) - T * (D - w)) by ring.
      assert (- (u * w) <= T * (D - w) <= u * w). { split; [apply Rle_trans with (T * (- (u * w))); [lra|]; apply Rmult_le_compat_l; lra|apply Rle_trans with (T * (u * w)); [apply Rmult_le_compat_l; lra|lra]]. }
      lra. }
    assert (K : 2 * (u * w) <= 3 * u * D). { assert (u * (w * (1 - /1024)) <= u * D) by (apply Rmult_le_compat_l; lra). nra. }
    apply abs_le. split; apply Rmult_le_reg_r with D; try exact DP; lra. }
  pose proof (any_err (n / D)) as E. fold (quot (B2R y)) in E. rewrite (Rabs_pos_eq (n / D)) in E by lra.
  assert (u * (n / D) <= u) by nra. unfold quot in *. fold n in E |- *. apply abs_le in E, Q. apply abs_le. lra.
Qed.
Lemma A_err (y : f64) : y0 <= B2R y <= y1 -> Rabs (A (B2R y) - line_x p0 p1 (B2R y)) <= 32 * u * M + h.
Proof.
  intros R. pose proof bounds as (B1 & B2 & _). pose proof M_pos as MP. pose proof u_pos as UP. pose proof u_small. pose proof h_pos as HP.
  pose proof (quot_err y R) as E1. pose proof (quot_range _ R) as Q. pose proof y_lt as L. unfold line_x. set (T := (B2R y - y0) / (y1 - y0)) in *.
  assert (T0 : 0 <= T <= 1). { unfold T. split; [apply Rmult_le_pos; [lra|]; apply Rlt_le, Rinv_0_lt_compat; lra|]. apply Rmult_le_reg_r with (y1 - y0); [lra|]. unfold Rdiv. rewrite Rmult_assoc, Rinv_l by lra. lra. }
  unfold A. fold (quot (B2R y)). set (t := quot (B2R y)) in *.
  pose proof (sub_err x1 x0 (gen_B2R _) (gen_B2R _)) as E2. fold d in E2. assert (X1 : Rabs (x1 - x0) <= 2 * M) by (apply abs_le; lra).
  assert (X2 : u * Rabs (x1 - x0) <= 2 * u * M) by nra. pose proof d_abs as DA.
  assert (E3 : Rabs (t * d - T * (x1 - x0)) <= 17 * u * M).
  { replace (t * d - T * (x1 - x0)) with ((t - T) * d + T * (d - (x1 - x0))) by ring. apply Rle_trans with (1 := Rabs_triang _ _). rewrite !Rabs_mult.
    assert (Rabs (t - T) * Rabs d <= 5 * u * (3 * M)). { apply Rmult_le_compat; try apply Rabs_pos; assumption. }
    assert (Rabs T * Rabs (d - (x1 - x0)) <= 1 * (2 * u * M)). { apply Rmult_le_compat; try apply Rabs_pos; [rewrite Rabs_pos_eq; lra|lra]. } lra. }
  pose proof (any_err (t * d)) as E4. pose proof (prod_abs t Q) as PA. assert (X3 : u * Rabs (t * d) <= 3 * u * M) by nra.
  assert (AM : Rabs (rnd64 (t * d)) <= Rabs d) by (apply rnd_abs; [apply generic_format_abs, d_gen|exact PA]).
  pose proof (plus_err x0 (rnd64 (t * d)) (gen_B2R _) ltac:(apply generic_format_round; typeclasses eauto)) as E5.
  set (m := rnd64 (t * d)) in *. assert (X4 : Rabs (x0 + m) <= 4 * M). { apply abs_le in DA. apply Rle_trans with (1 := Rabs_triang _ _). assert (Rabs x0 <= M) by (apply abs_le; lra). assert (Rabs d <= 3 * M) by (apply abs_le; lra). lra. }
  assert (X5 : u * Rabs (x0 + m) <= 4 * u * M) by nra. assert (0 <= u * M) by nra. apply abs_le in E3, E4, E5. apply abs_le. lra.
Qed.
Lemma A_abs Y : y0 <= Y <= y1 -> Rabs (A Y) <= 5 * M.
Proof.
  intros R. pose proof bounds as (B1 & B2 & _). pose proof M_pos as MP. pose proof u_pos as UP. pose proof u_small. pose proof (quot_range _ R) as Q. unfold A. fold (quot Y). pose proof (prod_abs _ Q) as PA.
  pose proof d_abs as DA. assert (AM : Rabs (rnd64 (quot Y * d)) <= Rabs d) by (apply rnd_abs; [apply generic_format_abs, d_gen|exact PA]).
  pose proof (plus_err x0 (rnd64 (quot Y * d)) (gen_B2R _) ltac:(apply generic_format_round; typeclasses eauto)) as E5. set (m := rnd64 (quot Y * d)) in *.
  assert (X4 : Rabs (x0 + m) <= 4 * M). { apply Rle_trans with (1 := Rabs_triang _ _). assert (Rabs x0 <= M) by (apply abs_le; lra). lra. }
  assert (u * Rabs (x0 + m) <= M) by nra. apply abs_le in E5, X4. apply abs_le. lra.
Qed.
End Line.
