(** Proofs about the extent of a part of a cubic curve. *)
From Coq Require Import ZArith Bool Lia Reals Lra Psatz List.
From Flocq Require Import Core BinarySingleNaN.
From Verif Require Import F64 F64Arith CurveOrderProofs TreeVecModel GeomModel SegmentsModel SweepModel PosModel CompareModel CompareArith LineSpec LineProofs LineProofs2 NearArith QuadProofs ExactModel CubicModel CubicSpec CubicProofs CubicProofs2 CubicProofs3.
Import ListNotations.
Local Open Scope R_scope.

Definition along (t0 t1 s : R) : R := t0 + s * (t1 - t0).
Lemma along_unit t0 t1 s : 0 <= t0 <= 1 -> 0 <= t1 <= 1 -> 0 <= s <= 1 -> 0 <= along t0 t1 s <= 1.
Proof. intros A B C. unfold along. split; nra. Qed.
Lemma sub_along rc t0 t1 s : cx (subsegment rc t0 t1) s = cx rc (along t0 t1 s).
Proof. unfold cx, subsegment, cubic_at, deriv_at, along. cbn [q0 q1 q2 q3 rx ry]. unfold cx, cy, deriv0, deriv1, deriv2, rtriple, rdiff, bern3, bern2. cbn [rx ry]. field. Qed.
Lemma convex a b t m : 0 <= t <= 1 -> Rabs a <= m -> Rabs b <= m -> Rabs ((1 - t) * a + t * b) <= m.
Proof. intros T A B. apply abs_le in A, B. apply abs_le. split; nra. Qed.
Lemma blossom1 a b c d t0 t1 m : 0 <= t0 <= 1 -> 0 <= t1 <= 1 -> Rabs a <= m -> Rabs b <= m -> Rabs c <= m -> Rabs d <= m ->
  Rabs (bern3 a b c d t0 + (t1 - t0) * (1 / 3) * bern2 (3 * (b - a)) (3 * (c - b)) (3 * (d - c)) t0) <= m.
Proof.
  intros T0 T1 A B C D. replace (bern3 a b c d t0 + (t1 - t0) * (1 / 3) * bern2 (3 * (b - a)) (3 * (c - b)) (3 * (d - c)) t0) with ((1 - t1) * bern2 a b c t0 + t1 * bern2 b c d t0) by (unfold bern3, bern2; field).
  apply convex; [exact T1|apply bern2_abs; assumption..].
Qed.
Lemma blossom2 a b c d t0 t1 m : 0 <= t0 <= 1 -> 0 <= t1 <= 1 -> Rabs a <= m -> Rabs b <= m -> Rabs c <= m -> Rabs d <= m ->
  Rabs (bern3 a b c d t1 - (t1 - t0) * (1 / 3) * bern2 (3 * (b - a)) (3 * (c - b)) (3 * (d - c)) t1) <= m.
Proof.
  intros T0 T1 A B C D. replace (bern3 a b c d t1 - (t1 - t0) * (1 / 3) * bern2 (3 * (b - a)) (3 * (c - b)) (3 * (d - c)) t1) with ((1 - t0) * bern2 a b c t1 + t0 * bern2 b c d t1) by (unfold bern3, bern2; field).
  apply convex; [exact T0|apply bern2_abs; assumption..].
Qed.

(** The smallest and the largest of some numbers. *)
Lemma fold_box (xs : list f64) : forall a b, fin a = true -> fin b = true -> Forall (fun x => fin x = true) xs ->
  let r := fold_left (fun b x => (fmin (fst b) x, fmax (snd b) x)) xs (a, b) in
  fin (fst r) = true /\ fin (snd r) = true /\ (exists x, In x (a :: xs) /\ B2R (fst r) = B2R x) /\ (exists x, In x (b :: xs) /\ B2R (snd r) = B2R x) /\
  (forall x, In x (a :: xs) -> B2R (fst r) <= B2R x) /\ (forall x, In x (b :: xs) -> B2R x <= B2R (snd r)).
Proof.
  induction xs as [|x xs IH]; intros a b FA FB F; cbn [fold_left].
  - cbn [fst snd]. split; [exact FA|]. split; [exact FB|]. split; [exists a; cbn; auto|]. split; [exists b; cbn; auto|]. split; intros x [<-|[]]; lra.
  - inversion F as [|? ? Fx Fxs]; subst. cbn [fst snd]. destruct (fmin_R a x FA Fx) as (F1 & E1). destruct (fmax_R b x FB Fx) as (F2 & E2).
    destruct (IH _ _ F1 F2 Fxs) as (G1 & G2 & (w1 & I1 & V1) & (w2 & I2 & V2) & B1 & B2). split; [exact G1|]. split; [exact G2|]. split; [|split; [|split]].
    + destruct I1 as [<-|I1]; [|exists w1; split; [right; right; exact I1|exact V1]]. rewrite E1 in V1. destruct (Rmin_case (B2R a) (B2R x)) as [(Q & _)|(Q & _)]; rewrite Q in V1; [exists a|exists x]; cbn; auto.
    + destruct I2 as [<-|I2]; [|exists w2; split; [right; right; exact I2|exact V2]]. rewrite E2 in V2. destruct (Rmax_case' (B2R b) (B2R x)) as [(Q & _)|(Q & _)]; rewrite Q in V2; [exists b|exists x]; cbn; auto.
    + assert (K := B1 (fmin a x) (or_introl eq_refl)). rewrite E1 in K. pose proof (Rmin_l (B2R a) (B2R x)). pose proof (Rmin_r (B2R a) (B2R x)). intros z [<-|[<-|I]]; [lra|lra|apply B1; right; exact I].
    + assert (K := B2 (fmax b x) (or_introl eq_refl)). rewrite E2 in K. pose proof (Rmax_l (B2R b) (B2R x)). pose proof (Rmax_r (B2R b) (B2R x)). intros z [<-|[<-|I]]; [lra|lra|apply B2; right; exact I].
Qed.

Section Sub.
Variable c : cubic.
Variable M : R.
Hypothesis CW : curve_within M c.
Hypothesis MV : usual_size M.
Notation tau := (tau M).
Notation coord := (coord M).
Variables t0 t1 : f64.
Hypothesis U0 : in_unit t0.
Hypothesis U1 : in_unit t1.
Notation T0 := (B2R t0).
Notation T1 := (B2R t1).
Notation sub := (subseg c t0 t1).
Notation rsub := (subsegment (real_curve c) T0 T1).
Ltac pm := first [eassumption|lra].
Lemma scale_val : par (fmul (fsub t1 t0) fthird) ((T1 - T0) * (1 / 3)) (1 / 3) (1 + / 10).
Proof.
  destruct U0 as (F0 & R0), U1 as (F1 & R1). pose proof u_pos as UP.
  assert (P : par (fsub t1 t0) (T1 - T0) 1 1).
  { assert (BD : Rabs (T1 - T0) <= 1) by (apply abs_le; lra).
    assert (HB : forall r, Rabs r <= 1 -> Rabs r <= 4 * huge). { intros r H. apply Rle_trans with (4 * 1); [lra|]. apply Rmult_le_compat_l; [lra|]. change 1 with (bpow radix2 0). apply bpow_le. lia. }
    destruct (sub_val t1 t0 F1 F0) as (G & V); [apply HB, abs_le; lra..|]. split; [exact G|]. split; [exact BD|]. split; [|lra]. rewrite V. apply Rle_trans with (1 := sub_err _ _ (gen_B2R _) (gen_B2R _)). nra. }
  pose proof par_third as P3.
  eapply par_mul; pm.
Qed.
Lemma ctrl_vals p0 p1 p2 p3 : fin p0 = true -> Rabs (B2R p0) <= M -> fin p1 = true -> Rabs (B2R p1) <= M -> fin p2 = true -> Rabs (B2R p2) <= M -> fin p3 = true -> Rabs (B2R p3) <= M ->
  let b0 := B2R p0 in let b1 := B2R p1 in let b2 := B2R p2 in let b3 := B2R p3 in
  coord (eval3 p0 p1 p2 p3 t0) (bern3 b0 b1 b2 b3 T0) 1 124 /\
  coord (fadd (eval3 p0 p1 p2 p3 t0) (fmul (fmul (fsub t1 t0) fthird) (deriv3 p0 p1 p2 p3 t0)))
    (bern3 b0 b1 b2 b3 T0 + (T1 - T0) * (1 / 3) * bern2 (3 * (b1 - b0)) (3 * (b2 - b1)) (3 * (b3 - b2)) T0) 1 124 /\
  coord (fsub (eval3 p0 p1 p2 p3 t1) (fmul (fmul (fsub t1 t0) fthird) (deriv3 p0 p1 p2 p3 t1)))
    (bern3 b0 b1 b2 b3 T1 - (T1 - T0) * (1 / 3) * bern2 (3 * (b1 - b0)) (3 * (b2 - b1)) (3 * (b3 - b2)) T1) 1 124 /\
  coord (eval3 p0 p1 p2 p3 t1) (bern3 b0 b1 b2 b3 T1) 1 124.
Proof.
  intros FP0 V0 FP1 V1 FP2 V2 FP3 V3 b0 b1 b2 b3. pose proof (M_nonneg c M CW) as M0. pose proof (M_1000 M MV) as MB. destruct U0 as (F0 & R0), U1 as (F1 & R1). pose proof scale_val as S.
  assert (EX : forall p, fin p = true -> Rabs (B2R p) <= M -> coord p (B2R p) 1 0) by (intros p F B; apply coord_exact; [exact F|lra|lra]).
  pose proof (EX _ FP0 V0) as C0. pose proof (EX _ FP1 V1) as C1. pose proof (EX _ FP2 V2) as C2. pose proof (EX _ FP3 V3) as C3. clear EX.
  pose proof (eval3_val M M0 MB t0 F0 R0 _ _ _ _ _ _ _ _ C0 C1 C2 C3) as E0. pose proof (eval3_val M M0 MB t1 F1 R1 _ _ _ _ _ _ _ _ C0 C1 C2 C3) as E1.
  pose proof (deriv3_val M M0 MB t0 F0 R0 _ _ _ _ _ _ _ _ C0 C1 C2 C3) as D0. pose proof (deriv3_val M M0 MB t1 F1 R1 _ _ _ _ _ _ _ _ C0 C1 C2 C3) as D1.
  fold b0 b1 b2 b3 in V0, V1, V2, V3, C0, C1, C2, C3, E0, E1, D0, D1.
  set (d0 := deriv3 p0 p1 p2 p3 t0) in *. set (d1 := deriv3 p0 p1 p2 p3 t1) in *. set (k := fmul (fsub t1 t0) fthird) in *.
  assert (A0 : coord (fmul k d0) ((T1 - T0) * (1 / 3) * bern2 (3 * (b1 - b0)) (3 * (b2 - b1)) (3 * (b3 - b2)) T0) 2 (65 + 7 / 10)) by (eapply coord_mul_l; pm).
  assert (A1 : coord (fmul k d1) ((T1 - T0) * (1 / 3) * bern2 (3 * (b1 - b0)) (3 * (b2 - b1)) (3 * (b3 - b2)) T1) 2 (65 + 7 / 10)) by (eapply coord_mul_l; pm).
  pose proof (coord_add M M0 MB _ _ _ _ _ _ _ _ 3 124 E0 A0 ltac:(lra) ltac:(lra)) as B0. pose proof (coord_sub M M0 MB _ _ _ _ _ _ _ _ 3 124 E1 A1 ltac:(lra) ltac:(lra)) as B1.
  split; [|split; [|split]].
  - apply (coord_weak M M0 _ _ 1 55); [lra|lra|exact E0].
  - apply (coord_bound M _ _ _ _ 1) in B0; [exact B0| |lra]. rewrite Rmult_1_l. apply blossom1; assumption.
  - apply (coord_bound M _ _ _ _ 1) in B1; [exact B1| |lra]. rewrite Rmult_1_l. apply blossom2; assumption.
  - apply (coord_weak M M0 _ _ 1 55); [lra|lra|exact E1].
Qed.
Lemma sub_x : coord (px (cb0 sub)) (rx (q0 rsub)) 1 124 /\ coord (px (cb1 sub)) (rx (q1 rsub)) 1 124 /\ coord (px (cb2 sub)) (rx (q2 rsub)) 1 124 /\ coord (px (cb3 sub)) (rx (q3 rsub)) 1 124.
Proof. destruct CW as ((A & _ & A' & _) & (B & _ & B' & _) & (C & _ & C' & _) & (D & _ & D' & _)). apply ctrl_vals; assumption. Qed.
Lemma sub_y : coord (py (cb0 sub)) (ry (q0 rsub)) 1 124 /\ coord (py (cb1 sub)) (ry (q1 rsub)) 1 124 /\ coord (py (cb2 sub)) (ry (q2 rsub)) 1 124 /\ coord (py (cb3 sub)) (ry (q3 rsub)) 1 124.
Proof. destruct CW as ((_ & A & _ & A') & (_ & B & _ & B') & (_ & C & _ & C') & (_ & D & _ & D')). apply ctrl_vals; assumption. Qed.
Definition N : R := M + 124 * tau.
Lemma N_facts : 0 <= N /\ 124 * tau <= / 1000 * M /\ N <= bpow radix2 1000 /\ CubicProofs.tau N <= 101 / 100 * tau.
Proof.
  pose proof (M_nonneg c M CW) as M0. destruct (tau_pos M M0) as (TP & UM & HT). pose proof (tau_M M MV) as TM. pose proof u_4 as U4. pose proof u_pos as UP.
  assert (TB : 124 * tau <= / 1000 * M). { apply Rle_trans with (124 * ((1 + / 1000) * u * M)); [lra|]. rewrite <- Rmult_assoc. apply Rmult_le_compat_r; lra. }
  split; [unfold N; lra|]. split; [exact TB|]. split.
  - unfold N. destruct MV as (_ & B). change 1000%Z with (1 + 999)%Z. rewrite bpow_plus. simpl (bpow radix2 1). pose proof (bpow_gt_0 radix2 999). lra.
  - unfold CubicProofs.tau at 1. unfold N. assert (u * (124 * tau) <= / 1000 * tau) by (rewrite <- Rmult_assoc; apply Rmult_le_compat_r; lra). unfold CubicProofs.tau in *. lra.
Qed.
Lemma sub_near s : 0 <= s <= 1 -> Rabs (cx (real_curve sub) s - cx (real_curve c) (along T0 T1 s)) <= 124 * tau.
Proof.
  intros RS. rewrite <- sub_along. unfold cx. destruct sub_x as ((_ & _ & S0 & _) & (_ & _ & S1 & _) & (_ & _ & S2 & _) & (_ & _ & S3 & _)). cbn [real_curve real_point q0 q1 q2 q3 rx] in *.
  match goal with |- Rabs (bern3 ?a ?b ?c ?d ?t - bern3 ?a' ?b' ?c' ?d' ?t) <= _ => replace (bern3 a b c d t - bern3 a' b' c' d' t) with (bern3 (a - a') (b - b') (c - c') (d - d') t) by (unfold bern3; ring) end.
  apply bern3_abs; assumption.
Qed.
Lemma sub_within : curve_within (2 * M) sub.
Proof.
  pose proof (M_nonneg c M CW) as M0. destruct N_facts as (_ & TB & _).
  assert (G : forall p v, coord p v 1 124 -> fin p = true /\ Rabs (B2R p) <= 2 * M). { intros p v (F & B & E & _). split; [exact F|]. apply Rle_trans with (1 := abs_near _ _ _ _ B E). lra. }
  destruct sub_x as (S0 & S1 & S2 & S3), sub_y as (S0' & S1' & S2' & S3').
  repeat split; first [eapply G; eassumption].
Qed.
Lemma sub_eval t : in_unit t -> fin (px (eval_cubic sub t)) = true /\ Rabs (B2R (px (eval_cubic sub t)) - cx (real_curve sub) (B2R t)) <= 56 * tau.
Proof.
  intros (FT & RT). pose proof (M_nonneg c M CW) as M0. destruct sub_x as (S0 & S1 & S2 & S3). destruct (tau_pos M M0) as (TP & _). destruct N_facts as (N0 & TB & NB & NT).
  assert (G : forall p v, coord p v 1 124 -> CubicProofs.coord N p (B2R p) 1 0).
  { intros p v (F & B & E & _). apply coord_exact; [exact F| |lra]. unfold N. rewrite Rmult_1_l. rewrite Rmult_1_l in B. apply (abs_near _ _ _ _ B E). }
  destruct (eval3_val N N0 NB t FT RT _ _ _ _ _ _ _ _ (G _ _ S0) (G _ _ S1) (G _ _ S2) (G _ _ S3)) as (F & _ & E & _). split; [exact F|]. apply Rle_trans with (1 := E). lra.
Qed.

(** The extent. *)
Lemma flt_fle x y : flt x y = true -> fle x y = true.
Proof. intros H. destruct (flt_nonnan _ _ H). fk. zb. lia. Qed.
Variable candidates : cubic -> list f64.
Lemma extrema_unit q t : In t (extrema candidates q) <-> In t (candidates q) /\ fin t = true /\ 0 < B2R t < 1.
Proof.
  unfold extrema. rewrite filter_In, andb_true_iff. split.
  - intros (I & G & L). split; [exact I|]. unfold fgt in G. assert (F : fin t = true). { apply (fin_mid fzero t fone); [reflexivity|reflexivity|apply flt_fle, G|apply flt_fle, L]. }
    split; [exact F|]. apply flt_R in G; [|reflexivity|exact F]. apply flt_R in L; [|exact F|reflexivity]. rewrite one_R in L. change (B2R fzero) with 0 in G. lra.
  - intros (I & F & R). split; [exact I|]. unfold fgt. split; (apply flt_R; [first [assumption|reflexivity]..|]); rewrite ?one_R, ?zero_R; lra.
Qed.
Lemma box_val : let r := box_x candidates sub in
  fin (fst r) = true /\ fin (snd r) = true /\
  (exists s, 0 <= s <= 1 /\ Rabs (B2R (fst r) - cx (real_curve c) (along T0 T1 s)) <= 180 * tau) /\
  (exists s, 0 <= s <= 1 /\ Rabs (B2R (snd r) - cx (real_curve c) (along T0 T1 s)) <= 180 * tau) /\
  (forall x, In x [px (cb0 sub); px (cb3 sub)] -> B2R (fst r) <= B2R x <= B2R (snd r)) /\
  (forall t, In t (extrema candidates sub) -> B2R (fst r) <= B2R (px (eval_cubic sub t)) <= B2R (snd r)).
Proof.
  pose proof (M_nonneg c M CW) as M0. destruct (tau_pos M M0) as (TP & _).
  unfold box_x. set (ts := extrema candidates sub). set (x0 := px (cb0 sub)). set (x3 := px (cb3 sub)).
  assert (E : fold_left (fun b t => (fmin (fst b) (px (eval_cubic sub t)), fmax (snd b) (px (eval_cubic sub t)))) ts (fmin x0 x3, fmax x0 x3)
    = fold_left (fun b x => (fmin (fst b) x, fmax (snd b) x)) (map (fun t => px (eval_cubic sub t)) ts) (fmin x0 x3, fmax x0 x3)).
  { generalize (fmin x0 x3, fmax x0 x3). induction ts as [|t ts IH]; intros b; [reflexivity|]. cbn [fold_left map]. apply IH. }
  cbv zeta. rewrite E. destruct sub_x as (S0 & _ & _ & S3).
  assert (F0 : fin x0 = true) by apply S0. assert (F3 : fin x3 = true) by apply S3.
  destruct (fmin_R x0 x3 F0 F3) as (FL & EL). destruct (fmax_R x0 x3 F0 F3) as (FH & EH).
  assert (UN : forall t, In t ts -> in_unit t). { intros t I. apply extrema_unit in I as (_ & F & R). split; [exact F|lra]. }
  assert (FA : Forall (fun x => fin x = true) (map (fun t => px (eval_cubic sub t)) ts)). { apply Forall_forall. intros x I. apply in_map_iff in I as (t & <- & I). apply (sub_eval t (UN t I)). }
  destruct (fold_box _ _ _ FL FH FA) as (G1 & G2 & (w1 & I1 & V1) & (w2 & I2 & V2) & B1 & B2).
  set (r := fold_left _ _ _) in *. split; [exact G1|]. split; [exact G2|].
  assert (P : forall x, In x (x0 :: x3 :: map (fun t => px (eval_cubic sub t)) ts) -> exists s, 0 <= s <= 1 /\ Rabs (B2R x - cx (real_curve c) (along T0 T1 s)) <= 180 * tau).
  { intros x [<-|[<-|I]].
    - exists 0. split; [lra|]. rewrite <- sub_along. destruct S0 as (_ & _ & S0 & _). replace (cx rsub 0) with (rx (q0 rsub)) by (unfold cx, bern3; ring). fold x0 in S0. lra.
    - exists 1. split; [lra|]. rewrite <- sub_along. destruct S3 as (_ & _ & S3 & _). replace (cx rsub 1) with (rx (q3 rsub)) by (unfold cx, bern3; ring). fold x3 in S3. lra.
    - apply in_map_iff in I as (t & <- & I). apply UN in I as U. exists (B2R t). split; [apply U|]. destruct (sub_eval t U) as (_ & K). apply Rle_trans with (1 := abs_dist _ _ _ _ _ K (sub_near _ (proj2 U))). lra. }
  split; [|split; [|split]].
  - destruct I1 as [<-|I1]; [|rewrite V1; apply P; right; right; exact I1]. rewrite V1, EL. destruct (Rmin_case (B2R x0) (B2R x3)) as [(-> & _)|(-> & _)]; apply P; cbn; auto.
  - destruct I2 as [<-|I2]; [|rewrite V2; apply P; right; right; exact I2]. rewrite V2, EH. destruct (Rmax_case' (B2R x0) (B2R x3)) as [(-> & _)|(-> & _)]; apply P; cbn; auto.
  - intros x I. pose proof (B1 _ (or_introl eq_refl)) as K1. pose proof (B2 _ (or_introl eq_refl)) as K2. rewrite EL in K1. rewrite EH in K2.
    pose proof (Rmin_l (B2R x0) (B2R x3)). pose proof (Rmin_r (B2R x0) (B2R x3)). pose proof (Rmax_l (B2R x0) (B2R x3)). pose proof (Rmax_r (B2R x0) (B2R x3)).
    destruct I as [<-|[<-|[]]]; lra.
  - intros t I. split; [apply B1|apply B2]; right; apply in_map_iff; exists t; auto.
Qed.
Lemma box_covers acc s : finds_extremes candidates (2 * M) acc -> 0 <= s <= 1 -> let r := box_x candidates sub in
  B2R (fst r) <= cx (real_curve c) (along T0 T1 s) + acc + 180 * tau /\ cx (real_curve c) (along T0 T1 s) - acc - 180 * tau <= B2R (snd r).
Proof.
  intros FX RS r. pose proof (M_nonneg c M CW) as M0. destruct (tau_pos M M0) as (TP & _). destruct box_val as (_ & _ & _ & _ & BE & BX). fold r in BE, BX.
  destruct (FX sub sub_within s RS) as (lo & hi & LO & HI & B). pose proof (sub_near s RS) as NS. apply abs_le in NS.
  assert (G : forall w, w = 0 \/ w = 1 \/ (exists t, In t (candidates sub) /\ fin t = true /\ 0 < B2R t < 1 /\ w = B2R t) -> B2R (fst r) - 56 * tau <= cx (real_curve sub) w <= B2R (snd r) + 56 * tau).
  { intros w [->|[->|(t & I & F & R & ->)]].
    - replace (cx (real_curve sub) 0) with (B2R (px (cb0 sub))) by (unfold cx, bern3; cbn [real_curve real_point q0 q1 q2 q3 rx]; ring). pose proof (BE _ (or_introl eq_refl)). lra.
    - replace (cx (real_curve sub) 1) with (B2R (px (cb3 sub))) by (unfold cx, bern3; cbn [real_curve real_point q0 q1 q2 q3 rx]; ring). pose proof (BE _ (or_intror (or_introl eq_refl))). lra.
    - assert (I' : In t (extrema candidates sub)) by (apply extrema_unit; auto). specialize (BX t I'). destruct (sub_eval t ltac:(split; [exact F|lra])) as (_ & K). apply abs_le in K. lra. }
  apply G in LO, HI. lra.
Qed.
End Sub.
