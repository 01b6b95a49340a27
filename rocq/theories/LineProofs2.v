(** Proofs about the bands of straight lines. *)
From Coq Require Import ZArith Bool Lia Reals Lra List.
From Flocq Require Import Core BinarySingleNaN.
From Verif Require Import F64 F64Arith CurveOrderProofs CompareArith GeomModel SegmentsModel SweepModel SweepSpec SweepProofs2 RangeSpec MergeSpec LineModel LineSpec LineProofs.
Local Open Scope R_scope.

Lemma fin_mid (x y z : f64) : fin x = true -> fin z = true -> fle x y = true -> fle y z = true -> fin y = true.
Proof. destruct x, y, z; cbn; intros; try discriminate; try reflexivity; destruct s0; discriminate. Qed.
Lemma Rmin_case (x y : R) : (Rmin x y = x /\ x <= y) \/ (Rmin x y = y /\ y <= x).
Proof. unfold Rmin. destruct (Rle_dec x y); [left|right]; lra. Qed.
Lemma Rmax_case' (x y : R) : (Rmax x y = x /\ y <= x) \/ (Rmax x y = y /\ x <= y).
Proof. unfold Rmax. destruct (Rle_dec x y); [right|left]; lra. Qed.

Section Bands.
Variables p0 p1 : point.
Variable M : R.
Hypothesis W0 : within M p0.
Hypothesis W1 : within M p1.
Hypothesis MH : M <= huge.
Hypothesis DOWN : flt (py p0) (py p1) = true.
Variable eps : f64.
Hypothesis FE : fin eps = true.
Hypothesis EP : 0 <= B2R eps <= M.
Variable solve_x : segment -> f64 -> f64.
Variable extent : segment -> f64 -> f64 -> f64 * f64.
Notation s := (SLine p0 p1).
Notation y0 := (B2R (py p0)).
Notation y1 := (B2R (py p1)).
Notation A := (LineProofs.A p0 p1).
Notation e := (B2R eps).
Notation lower := (lower solve_x extent).
Notation upper := (upper solve_x extent).
Notation at_y := (at_y solve_x).

Section At.
Variable y : f64.
Hypothesis L0 : fle (py p0) y = true.
Hypothesis L1 : fle y (py p1) = true.
Lemma Fy : fin y = true.
Proof. apply (fin_mid (py p0) y (py p1)); [apply W0|apply W1|assumption..]. Qed.
Lemma y_range : y0 <= B2R y <= y1.
Proof. split; (apply fle_R; [| |assumption]); try apply Fy; [apply W0|apply W1]. Qed.
Lemma at_R : fin (at_y s y) = true /\ B2R (at_y s y) = A (B2R y).
Proof. apply (at_val p0 p1 M W0 W1 MH DOWN y Fy y_range). Qed.
Lemma ends_R : fin (fsub y eps) = true /\ fin (fadd y eps) = true /\ B2R (fsub y eps) = rnd64 (B2R y - e) /\ B2R (fadd y eps) = rnd64 (B2R y + e) /\
  B2R (fsub y eps) <= B2R y <= B2R (fadd y eps).
Proof.
  pose proof y_range as R. pose proof (bounds p0 p1 M W0 W1) as (_ & _ & B3 & B4). assert (0 < huge) by apply bpow_gt_0.
  destruct (sub_val y eps Fy FE) as (F1 & E1); [apply abs_le; lra..|]. destruct (add_val y eps Fy FE) as (F2 & E2); [apply abs_le; lra..|].
  rewrite E1, E2. do 4 (split; [first [assumption|reflexivity]|]). split.
  - rewrite <- (rnd_gen (B2R y)) at 2 by apply gen_B2R. apply rnd_le. lra.
  - rewrite <- (rnd_gen (B2R y)) at 1 by apply gen_B2R. apply rnd_le. lra.
Qed.
Definition ws : f64 := fst (window s y eps).
Definition we : f64 := snd (window s y eps).
Lemma ws_R : fin ws = true /\ B2R ws = Rmax (B2R (fsub y eps)) y0 /\ y0 <= B2R ws <= B2R y.
Proof.
  destruct ends_R as (F1 & F2 & _ & _ & K). pose proof y_range as R. destruct (fmax_R (fsub y eps) (py p0) F1 ltac:(apply W0)) as (F & E).
  unfold ws, window. cbn [fst snd seg_start]. split; [exact F|]. split; [exact E|]. rewrite E. split; [apply Rmax_r|apply Rmax_lub; lra].
Qed.
Lemma we_R : fin we = true /\ B2R we = Rmin (B2R (fadd y eps)) y1 /\ B2R y <= B2R we <= y1.
Proof.
  destruct ends_R as (F1 & F2 & _ & _ & K). pose proof y_range as R. destruct (fmin_R (fadd y eps) (py p1) F2 ltac:(apply W1)) as (F & E).
  unfold we, window. cbn [fst snd seg_end]. split; [exact F|]. split; [exact E|]. rewrite E. split; [apply Rmin_glb; lra|apply Rmin_r].
Qed.
Definition lo : R := Rmin (A (B2R ws)) (A (B2R we)).
Definition hi : R := Rmax (A (B2R ws)) (A (B2R we)).
Lemma box_R : fin (lower s y eps) = true /\ B2R (lower s y eps) = rnd64 (lo - e) /\ fin (upper s y eps) = true /\ B2R (upper s y eps) = rnd64 (hi + e) /\
  Rabs lo <= 5 * M /\ Rabs hi <= 5 * M /\ generic_format radix2 fexp64 lo /\ generic_format radix2 fexp64 hi.
Proof.
  destruct ws_R as (F1 & E1 & R1). destruct we_R as (F2 & E2 & R2). pose proof y_range as R.
  destruct (at_val p0 p1 M W0 W1 MH DOWN ws F1) as (FA & EA); [lra|]. destruct (at_val p0 p1 M W0 W1 MH DOWN we F2) as (FB & EB); [lra|].
  pose proof (A_abs p0 p1 M W0 W1 DOWN (B2R ws) ltac:(lra)) as BA. pose proof (A_abs p0 p1 M W0 W1 DOWN (B2R we) ltac:(lra)) as BB.
  destruct (fmin_R _ _ FA FB) as (FL & EL). destruct (fmax_R _ _ FA FB) as (FU & EU). rewrite EA, EB in EL, EU. fold lo in EL. fold hi in EU.
  assert (BL : Rabs lo <= 5 * M). { unfold lo. destruct (Rmin_case (A (B2R ws)) (A (B2R we))) as [(-> & _)|(-> & _)]; assumption. }
  assert (BU : Rabs hi <= 5 * M). { unfold hi. destruct (Rmax_case' (A (B2R ws)) (A (B2R we))) as [(-> & _)|(-> & _)]; assumption. }
  assert (K : lower s y eps = fsub (fmin (line_at p0 p1 ws) (line_at p0 p1 we)) eps /\ upper s y eps = fadd (fmax (line_at p0 p1 ws) (line_at p0 p1 we)) eps).
  { unfold LineModel.lower, LineModel.upper, local_bbox, ws, we. destruct (window s y eps). split; reflexivity. }
  destruct K as [-> ->]. set (lf := fmin (line_at p0 p1 ws) (line_at p0 p1 we)) in *. set (hf := fmax (line_at p0 p1 ws) (line_at p0 p1 we)) in *.
  pose proof (huge_pow 0) as (HP & _). assert (0 < huge) by apply bpow_gt_0. apply abs_le in BL as BL', BU as BU'.
  destruct (fadd_fin lf (fneg eps) FL) as (F3 & E3). { rewrite fin_fneg. exact FE. } { rewrite B2R_fneg, EL. apply big_fin. rewrite <- HP. apply abs_le. lra. }
  destruct (fadd_fin hf eps FU FE) as (F4 & E4). { rewrite EU. apply big_fin. rewrite <- HP. apply abs_le. lra. }
  rewrite <- fsub_fneg in F3, E3. rewrite B2R_fneg, EL in E3. rewrite EU in E4.
  split; [exact F3|]. split; [exact E3|]. split; [exact F4|]. split; [exact E4|]. split; [exact BL|]. split; [exact BU|].
  rewrite <- EL, <- EU. split; apply gen_B2R.
Qed.
(** Between the ends of the window. *)
Lemma in_window (Y : R) : B2R ws <= Y <= B2R we -> lo <= A Y <= hi.
Proof.
  intros [H1 H2]. destruct (A_mono p0 p1 M W0 W1 DOWN _ _ H1) as [U1 D1]. destruct (A_mono p0 p1 M W0 W1 DOWN _ _ H2) as [U2 D2]. unfold lo, hi.
  pose proof (Rmin_l (A (B2R ws)) (A (B2R we))). pose proof (Rmin_r (A (B2R ws)) (A (B2R we))). pose proof (Rmax_l (A (B2R ws)) (A (B2R we))). pose proof (Rmax_r (A (B2R ws)) (A (B2R we))).
  destruct (Rle_or_lt 0 (d p0 p1)) as [Q|Q]; [specialize (U1 Q); specialize (U2 Q); lra|]. specialize (D1 (Rlt_le _ _ Q)); specialize (D2 (Rlt_le _ _ Q)); lra.
Qed.
Lemma near_window (Y : f64) : fle (py p0) Y = true -> fle Y (py p1) = true -> fle (fsub y eps) Y = true -> fle Y (fadd y eps) = true -> fin Y = true /\ B2R ws <= B2R Y <= B2R we.
Proof.
  intros K1 K2 K3 K4. assert (FY : fin Y = true) by (apply (fin_mid (py p0) Y (py p1)); [apply W0|apply W1|assumption..]). split; [exact FY|].
  destruct ends_R as (F1 & F2 & _). destruct ws_R as (_ & E1 & _). destruct we_R as (_ & E2 & _).
  apply fle_R in K1; [|apply W0|exact FY]. apply fle_R in K2; [|exact FY|apply W1]. apply fle_R in K3; [|assumption..]. apply fle_R in K4; [|assumption..].
  rewrite E1, E2. split; [apply Rmax_lub|apply Rmin_glb]; assumption.
Qed.
Lemma below_lower (x : f64) : fin x = true -> lo - e <= B2R x -> fle (lower s y eps) x = true.
Proof. intros F H. destruct box_R as (F1 & E1 & _). apply fle_R; [assumption..|]. rewrite E1, <- (rnd_gen (B2R x)) by apply gen_B2R. apply rnd_le, H. Qed.
Lemma above_upper (x : f64) : fin x = true -> B2R x <= hi + e -> fle x (upper s y eps) = true.
Proof. intros F H. destruct box_R as (_ & _ & F1 & E1 & _). apply fle_R; [assumption..|]. rewrite E1, <- (rnd_gen (B2R x)) by apply gen_B2R. apply rnd_le, H. Qed.
Lemma box_contains (Y : f64) : fle (py p0) Y = true -> fle Y (py p1) = true -> fle (fsub y eps) Y = true -> fle Y (fadd y eps) = true ->
  fle (lower s y eps) (at_y s Y) = true /\ fle (at_y s Y) (upper s y eps) = true.
Proof.
  intros K1 K2 K3 K4. destruct (near_window Y K1 K2 K3 K4) as (FY & R). apply in_window in R as B.
  destruct (at_val p0 p1 M W0 W1 MH DOWN Y FY) as (F & E). { destruct ws_R as (_ & _ & ?). destruct we_R as (_ & _ & ?). lra. }
  split; [apply below_lower|apply above_upper]; try exact F; cbn [LineModel.at_y]; rewrite E; lra.
Qed.
Definition tol : R := 64 * u * M + h.
Lemma lower_err : Rabs (B2R (lower s y eps) - (lo - e)) <= 6 * u * M /\ Rabs (B2R (upper s y eps) - (hi + e)) <= 6 * u * M.
Proof.
  destruct box_R as (_ & E1 & _ & E2 & B1 & B2 & G1 & G2). rewrite E1, E2. pose proof u_pos. pose proof (M_pos p0 M W0).
  pose proof (sub_err lo e G1 (gen_B2R _)) as K1. pose proof (plus_err hi e G2 (gen_B2R _)) as K2.
  assert (Rabs (lo - e) <= 6 * M) by (apply abs_le in B1; apply abs_le; lra). assert (Rabs (hi + e) <= 6 * M) by (apply abs_le in B2; apply abs_le; lra).
  assert (u * Rabs (lo - e) <= u * (6 * M)) by (apply Rmult_le_compat_l; lra). assert (u * Rabs (hi + e) <= u * (6 * M)) by (apply Rmult_le_compat_l; lra). lra.
Qed.
Lemma box_real (Y : f64) : fle (py p0) Y = true -> fle Y (py p1) = true -> fle (fsub y eps) Y = true -> fle Y (fadd y eps) = true ->
  B2R (lower s y eps) <= line_x p0 p1 (B2R Y) - e + tol /\ line_x p0 p1 (B2R Y) + e - tol <= B2R (upper s y eps).
Proof.
  intros K1 K2 K3 K4. destruct (near_window Y K1 K2 K3 K4) as (FY & R). apply in_window in R as B.
  pose proof (A_err p0 p1 M W0 W1 DOWN Y) as E. assert (R' : y0 <= B2R Y <= y1). { destruct ws_R as (_ & _ & ?). destruct we_R as (_ & _ & ?). lra. }
  specialize (E R'). destruct lower_err as [J1 J2]. pose proof u_pos. pose proof (M_pos p0 M W0). assert (0 <= u * M) by (apply Rmult_le_pos; lra).
  apply abs_le in E, J1, J2. unfold tol. lra.
Qed.
Definition attained (Y : f64) : Prop := fle (py p0) Y = true /\ fle Y (py p1) = true /\ fle (fsub y eps) Y = true /\ fle Y (fadd y eps) = true.
Lemma ends_attained : attained ws /\ attained we.
Proof.
  destruct ends_R as (F1 & F2 & _ & _ & K). destruct ws_R as (Fs & Es & Rs). destruct we_R as (Fe & Ee & Re). pose proof y_range as R.
  assert (F0 : fin (py p0) = true) by apply W0. assert (F3 : fin (py p1) = true) by apply W1.
  split; (repeat apply conj); (apply fle_R; [assumption..|]); try lra.
  - rewrite Es. apply Rmax_l.
  - rewrite Ee. apply Rmin_l.
Qed.
Lemma line_near (Y : f64) : attained Y -> Rabs (A (B2R Y) - line_x p0 p1 (B2R Y)) <= 32 * u * M + h.
Proof.
  intros (K1 & K2 & K3 & K4). destruct (near_window Y K1 K2 K3 K4) as (FY & R). apply (A_err p0 p1 M W0 W1 DOWN Y).
  destruct ws_R as (_ & _ & ?). destruct we_R as (_ & _ & ?). lra.
Qed.
Lemma box_tight : (exists Y, attained Y /\ Rabs (B2R (lower s y eps) - (line_x p0 p1 (B2R Y) - e)) <= tol) /\
  (exists Y, attained Y /\ Rabs (B2R (upper s y eps) - (line_x p0 p1 (B2R Y) + e)) <= tol).
Proof.
  destruct ends_attained as [T1 T2]. pose proof (line_near _ T1) as N1. pose proof (line_near _ T2) as N2. destruct lower_err as [J1 J2].
  pose proof u_pos. pose proof (M_pos p0 M W0). assert (0 <= u * M) by (apply Rmult_le_pos; lra). unfold lo, hi in J1, J2. apply abs_le in N1, N2, J1, J2. unfold tol. split.
  - destruct (Rmin_case (A (B2R ws)) (A (B2R we))) as [(E & _)|(E & _)]; rewrite E in J1; [exists ws|exists we]; (split; [assumption|]); apply abs_le; lra.
  - destruct (Rmax_case' (A (B2R ws)) (A (B2R we))) as [(E & _)|(E & _)]; rewrite E in J2; [exists ws|exists we]; (split; [assumption|]); apply abs_le; lra.
Qed.
End At.

(** The start is in the box at its own height, and so is the end if the tolerance covers the rounding error. *)
Lemma self_attained y : fle (py p0) y = true -> fle y (py p1) = true -> attained y y.
Proof.
  intros L0 L1. destruct (ends_R y L0 L1) as (F1 & F2 & _ & _ & K). pose proof (Fy y L0 L1). split; [assumption|]. split; [assumption|].
  split; (apply fle_R; [assumption..|]); lra.
Qed.
Lemma at_start y : feq (py p0) y = true -> fin (at_y s y) = true /\ B2R (at_y s y) = B2R (px p0).
Proof.
  intros E. assert (F0 : fin (py p0) = true) by apply W0. assert (F1 : fin (py p1) = true) by apply W1. pose proof (y_lt p0 p1 M W0 W1 DOWN) as L.
  destruct (feq_nonnan _ _ E) as (N0 & N). assert (L0 : fle (py p0) y = true) by (fk; zb; lia). assert (L1 : fle y (py p1) = true) by (pose proof (fin_nonnan _ F1); pose proof DOWN; fk; zb; lia).
  destruct (at_R y L0 L1) as (F & V). split; [exact F|]. rewrite V. apply feq_R in E; [|exact F0|apply Fy; assumption]. rewrite <- E. apply A_start.
Qed.
Lemma start_in y : feq (py p0) y = true -> fle (lower s y eps) (px p0) = true /\ fle (px p0) (upper s y eps) = true.
Proof.
  intros E. assert (F0 : fin (py p0) = true) by apply W0. assert (F1 : fin (py p1) = true) by apply W1.
  destruct (feq_nonnan _ _ E) as (N0 & N). assert (L0 : fle (py p0) y = true) by (fk; zb; lia). assert (L1 : fle y (py p1) = true) by (pose proof (fin_nonnan _ F1); pose proof DOWN; fk; zb; lia).
  destruct (self_attained y L0 L1) as (K1 & K2 & K3 & K4). destruct (box_contains y L0 L1 y K1 K2 K3 K4) as [B1 B2]. destruct (at_start y E) as (F & V).
  destruct (box_R y L0 L1) as (FL & _ & FU & _). assert (FX : fin (px p0) = true) by apply W0.
  apply fle_R in B1; [|assumption..]. apply fle_R in B2; [|assumption..]. rewrite V in B1, B2. split; apply fle_R; assumption.
Qed.
Lemma end_in y : 4 * u * M <= e -> feq (py p1) y = true -> fle (lower s y eps) (px p1) = true /\ fle (px p1) (upper s y eps) = true.
Proof.
  intros BIG E. assert (F0 : fin (py p0) = true) by apply W0. assert (F1 : fin (py p1) = true) by apply W1. pose proof (y_lt p0 p1 M W0 W1 DOWN) as L.
  destruct (feq_nonnan _ _ E) as (N1 & N). assert (L1 : fle y (py p1) = true) by (fk; zb; lia). assert (L0 : fle (py p0) y = true) by (pose proof (fin_nonnan _ F0); pose proof DOWN; fk; zb; lia).
  destruct (self_attained y L0 L1) as (K1 & K2 & K3 & K4). destruct (near_window y L0 L1 y K1 K2 K3 K4) as (FY & R). apply in_window in R; [|assumption..].
  apply feq_R in E; [|exact F1|exact FY]. rewrite <- E in R. pose proof (end_close p0 p1 M W0 W1 DOWN) as C. apply abs_le in C.
  split; [apply below_lower|apply above_upper]; try assumption; try apply W1; lra.
Qed.
End Bands.
