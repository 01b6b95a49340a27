(** Rounding errors of evaluating and cutting cubic curves. *)
From Coq Require Import ZArith Bool Lia Reals Lra Psatz.
From Flocq Require Import Core BinarySingleNaN.
From Verif Require Import F64 F64Arith GeomModel PosModel CompareModel CompareArith LineProofs NearArith QuadProofs ExactModel LineSpec CubicModel CubicSpec CubicProofs.
Local Open Scope R_scope.

Lemma three_R : B2R fthree = 3.
Proof.
  assert (F : fin fthree = true) by reflexivity. rewrite B2R_key by exact F. replace (key fthree) with (3 * 2 ^ 1074)%Z by (vm_compute; reflexivity).
  rewrite mult_IZR, (IZR_Zpower radix2) by lia. rewrite Rmult_assoc, <- bpow_plus. simpl. lra.
Qed.
Lemma par_three : par fthree 3 3 0.
Proof. pose proof (par_exact fthree 3 eq_refl) as P. rewrite three_R in P. apply P; [apply abs_le; lra|lra]. Qed.
Lemma par_two : par ftwo 2 2 0.
Proof. pose proof (par_exact ftwo 2 eq_refl) as P. change (B2R ftwo) with (B2R F64Arith.ftwo) in P. rewrite ftwo_R in P. apply P; [apply abs_le; lra|lra]. Qed.
Lemma par_third : par fthird (1 / 3) (1 / 3) (1 / 3 + / 100).
Proof.
  unfold fthird. change GeomModel.fone with fone. change (f64_of_Z 3) with fthree.
  destruct (fdiv_fin fone fthree eq_refl) as (F & V). { rewrite three_R. lra. } { rewrite one_R, three_R. apply big_fin. apply Rle_trans with 1; [apply abs_le; lra|]. change 1 with (bpow radix2 0). apply bpow_le. lia. }
  rewrite one_R, three_R in V. split; [exact F|]. split; [apply abs_le; lra|]. split; [|lra]. rewrite V. apply Rle_trans with (1 := any_err _). pose proof h_u. pose proof u_pos. rewrite Rabs_pos_eq by lra. lra.
Qed.

(** Convexity. *)
Lemma bern3_weights t : 0 <= t <= 1 -> 0 <= (1 - t) * (1 - t) * (1 - t) /\ 0 <= 3 * (1 - t) * (1 - t) * t /\ 0 <= 3 * (1 - t) * t * t /\ 0 <= t * t * t /\
  (1 - t) * (1 - t) * (1 - t) + 3 * (1 - t) * (1 - t) * t + 3 * (1 - t) * t * t + t * t * t = 1.
Proof. intros T. repeat split; try (repeat apply Rmult_le_pos; lra); ring. Qed.
Lemma bern3_range a b c d t lo hi : 0 <= t <= 1 -> lo <= a <= hi -> lo <= b <= hi -> lo <= c <= hi -> lo <= d <= hi -> lo <= bern3 a b c d t <= hi.
Proof.
  intros T A B C D. unfold bern3. destruct (bern3_weights t T) as (W0 & W1 & W2 & W3 & S).
  set (w0 := (1 - t) * (1 - t) * (1 - t)) in *. set (w1 := 3 * (1 - t) * (1 - t) * t) in *. set (w2 := 3 * (1 - t) * t * t) in *. set (w3 := t * t * t) in *.
  split.
  - replace lo with (w0 * lo + w1 * lo + w2 * lo + w3 * lo) by (rewrite <- !Rmult_plus_distr_r, S; ring). repeat apply Rplus_le_compat; apply Rmult_le_compat_l; lra.
  - replace hi with (w0 * hi + w1 * hi + w2 * hi + w3 * hi) by (rewrite <- !Rmult_plus_distr_r, S; ring). repeat apply Rplus_le_compat; apply Rmult_le_compat_l; lra.
Qed.
Lemma bern3_abs a b c d t m : 0 <= t <= 1 -> Rabs a <= m -> Rabs b <= m -> Rabs c <= m -> Rabs d <= m -> Rabs (bern3 a b c d t) <= m.
Proof. intros T A B C D. apply abs_le in A, B, C, D. apply abs_le. apply bern3_range; assumption. Qed.
Lemma bern2_abs a b c t m : 0 <= t <= 1 -> Rabs a <= m -> Rabs b <= m -> Rabs c <= m -> Rabs (bern2 a b c t) <= m.
Proof.
  intros T A B C. apply abs_le in A, B, C. apply abs_le. unfold bern2. assert (W0 : 0 <= (1 - t) * (1 - t)) by nra. assert (W1 : 0 <= 2 * (1 - t) * t) by nra. assert (W2 : 0 <= t * t) by nra.
  set (w0 := (1 - t) * (1 - t)) in *. set (w1 := 2 * (1 - t) * t) in *. set (w2 := t * t) in *. assert (S : w0 + w1 + w2 = 1) by (unfold w0, w1, w2; ring).
  split; nra.
Qed.

Section Eval.
Variable M : R.
Hypothesis M0 : 0 <= M.
Hypothesis MB : M <= bpow radix2 1000.
Notation tau := (tau M).
Notation coord := (coord M).
Variable t : f64.
Hypothesis FT : fin t = true.
Hypothesis T : 0 <= B2R t <= 1.
Notation T' := (B2R t).
Lemma par_t : par t T' 1 0.
Proof. apply par_exact; [exact FT|apply abs_le; lra|lra]. Qed.
Ltac pm := first [eassumption|lra].
Lemma powers : par (fmul (fmul (fsub fone t) (fsub fone t)) (fsub fone t)) ((1 - T') * (1 - T') * (1 - T')) 1 (5 + / 10) /\
  par (fmul (fmul (fsub fone t) (fsub fone t)) fthree) ((1 - T') * (1 - T') * 3) 3 (12 + / 10) /\ par (fmul (fsub fone t) fthree) ((1 - T') * 3) 3 (6 + / 10) /\
  par (fmul (fsub fone t) (fsub fone t)) ((1 - T') * (1 - T')) 1 (3 + / 100) /\ par (fmul (fsub fone t) ftwo) ((1 - T') * 2) 2 (4 + / 10).
Proof.
  pose proof (par_rest t FT T) as P1. pose proof par_three as P3. pose proof par_two as P2.
  assert (Q : par (fmul (fsub fone t) (fsub fone t)) ((1 - T') * (1 - T')) 1 (3 + / 100)) by (eapply par_mul; pm).
  split; [eapply par_mul; pm|]. split; [eapply par_mul; pm|]. split; [eapply par_mul; pm|]. split; [exact Q|]. eapply par_mul; pm.
Qed.
Lemma comb (v w a b B s : R) : Rabs v <= B -> Rabs w <= B -> 0 <= a -> 0 <= b -> a + b <= s -> Rabs (v * a + w * b) <= s * B.
Proof.
  intros V W A1 B1 S. assert (0 <= B) by (apply Rle_trans with (2 := V); apply Rabs_pos). apply Rle_trans with (B * a + B * b).
  - apply Rle_trans with (1 := Rabs_triang _ _). rewrite !Rabs_mult, (Rabs_pos_eq a), (Rabs_pos_eq b) by assumption. apply Rplus_le_compat; apply Rmult_le_compat_r; assumption.
  - rewrite <- Rmult_plus_distr_l, Rmult_comm. apply Rmult_le_compat_r; assumption.
Qed.
Lemma eval3_val p0 p1 p2 p3 v0 v1 v2 v3 : coord p0 v0 1 0 -> coord p1 v1 1 0 -> coord p2 v2 1 0 -> coord p3 v3 1 0 ->
  coord (eval3 p0 p1 p2 p3 t) (bern3 v0 v1 v2 v3 T') 1 55.
Proof.
  intros C0 C1 C2 C3. destruct powers as (W0 & W1 & W2 & _). pose proof par_t as W3. unfold eval3.
  assert (V0 : Rabs v0 <= M) by (rewrite <- (Rmult_1_l M); apply C0). assert (V1 : Rabs v1 <= M) by (rewrite <- (Rmult_1_l M); apply C1).
  assert (V2 : Rabs v2 <= M) by (rewrite <- (Rmult_1_l M); apply C2). assert (V3 : Rabs v3 <= M) by (rewrite <- (Rmult_1_l M); apply C3).
  assert (A0 : coord (fmul p0 (fmul (fmul (fsub fone t) (fsub fone t)) (fsub fone t))) (v0 * ((1 - T') * (1 - T') * (1 - T'))) 1 (7 + 3 / 10)) by (eapply coord_mul; pm).
  assert (A1 : coord (fmul p1 (fmul (fmul (fsub fone t) (fsub fone t)) fthree)) (v1 * ((1 - T') * (1 - T') * 3)) 3 (16 + 3 / 10)) by (eapply coord_mul; pm).
  assert (A2 : coord (fmul p2 (fmul (fsub fone t) fthree)) (v2 * ((1 - T') * 3)) 3 (10 + 3 / 10)) by (eapply coord_mul; pm).
  assert (A3 : coord (fmul p3 t) (v3 * T') 1 (2 + / 5)) by (eapply coord_mul; pm).
  assert (B1 : coord (fadd (fmul p2 (fmul (fsub fone t) fthree)) (fmul p3 t)) (v2 * ((1 - T') * 3) + v3 * T') 4 (16 + 3 / 5)) by (eapply coord_add; pm).
  apply (coord_bound M _ _ _ _ 3) in B1; [|apply comb; [assumption..|lra|lra|lra]|lra].
  assert (B2 : coord (fmul (fadd (fmul p2 (fmul (fsub fone t) fthree)) (fmul p3 t)) t) ((v2 * ((1 - T') * 3) + v3 * T') * T') 3 (20 + 4 / 5)) by (eapply coord_mul; pm).
  apply (coord_bound M _ _ _ _ (9 / 8)) in B2; [|replace ((v2 * ((1 - T') * 3) + v3 * T') * T') with (v2 * ((1 - T') * 3 * T') + v3 * (T' * T')) by ring; apply comb; [assumption..|nra|nra|]|lra].
  2: { pose proof (Rle_0_sqr (4 * T' - 3)) as S. unfold Rsqr in S. lra. }
  assert (B3 : coord (fadd (fmul p1 (fmul (fmul (fsub fone t) (fsub fone t)) fthree)) (fmul (fadd (fmul p2 (fmul (fsub fone t) fthree)) (fmul p3 t)) t))
    (v1 * ((1 - T') * (1 - T') * 3) + (v2 * ((1 - T') * 3) + v3 * T') * T') (33 / 8) (41 + 3 / 10)) by (eapply coord_add; pm).
  apply (coord_bound M _ _ _ _ 3) in B3; [| |lra].
  2: { replace (v1 * ((1 - T') * (1 - T') * 3) + (v2 * ((1 - T') * 3) + v3 * T') * T') with (v1 * ((1 - T') * (1 - T') * 3) + (bern2 0 (3 / 2 * v2) v3 T')) by (unfold bern2; field).
       assert (E : v1 * ((1 - T') * (1 - T') * 3) + bern2 0 (3 / 2 * v2) v3 T' = (v1 * ((1 - T') * (1 - T') * 3) + v2 * (3 * (1 - T') * T')) * 1 + v3 * (T' * T')) by (unfold bern2; field). rewrite E.
       assert (K : Rabs (v1 * ((1 - T') * (1 - T') * 3) + v2 * (3 * (1 - T') * T')) <= (3 - 3 * T') * M) by (apply comb; [assumption..|nra|nra|nra]).
       apply Rle_trans with (1 := Rabs_triang _ _). rewrite Rmult_1_r. assert (K2 : Rabs (v3 * (T' * T')) <= T' * T' * M). { rewrite Rabs_mult, (Rabs_pos_eq (T' * T')), Rmult_comm by nra. apply Rmult_le_compat_l; [nra|assumption]. }
       assert (T' * T' * M <= T' * M) by (apply Rmult_le_compat_r; nra). assert (0 <= T' * M) by nra. lra. }
  assert (B4 : coord (fmul (fadd (fmul p1 (fmul (fmul (fsub fone t) (fsub fone t)) fthree)) (fmul (fadd (fmul p2 (fmul (fsub fone t) fthree)) (fmul p3 t)) t)) t)
    ((v1 * ((1 - T') * (1 - T') * 3) + (v2 * ((1 - T') * 3) + v3 * T') * T') * T') 3 (45 + 2 / 5)) by (eapply coord_mul; pm).
  apply (coord_bound M _ _ _ _ 1) in B4; [| |lra].
  2: { replace ((v1 * ((1 - T') * (1 - T') * 3) + (v2 * ((1 - T') * 3) + v3 * T') * T') * T') with (bern3 0 v1 v2 v3 T') by (unfold bern3; ring).
       apply Rle_trans with M; [|lra]. apply bern3_abs; try assumption. rewrite Rabs_R0. exact M0. }
  pose proof (coord_add M M0 MB _ _ _ _ _ _ _ _ 2 55 A0 B4 ltac:(lra) ltac:(lra)) as B5. cbv zeta.
  assert (E : v0 * ((1 - T') * (1 - T') * (1 - T')) + (v1 * ((1 - T') * (1 - T') * 3) + (v2 * ((1 - T') * 3) + v3 * T') * T') * T' = bern3 v0 v1 v2 v3 T') by (unfold bern3; ring).
  rewrite E in B5. apply (coord_bound M _ _ _ _ 1) in B5; [exact B5| |lra]. rewrite Rmult_1_l. apply bern3_abs; assumption.
Qed.
Lemma deriv3_val p0 p1 p2 p3 v0 v1 v2 v3 : coord p0 v0 1 0 -> coord p1 v1 1 0 -> coord p2 v2 1 0 -> coord p3 v3 1 0 ->
  coord (deriv3 p0 p1 p2 p3 t) (bern2 (3 * (v1 - v0)) (3 * (v2 - v1)) (3 * (v3 - v2)) T') 6 168.
Proof.
  intros C0 C1 C2 C3. destruct powers as (_ & _ & _ & W0 & W1). pose proof par_t as W2. pose proof par_three as P3. unfold deriv3, eval2. cbv zeta.
  assert (G : forall p q v w, coord p v 1 0 -> coord q w 1 0 -> coord (fmul fthree (fsub p q)) (3 * (v - w)) 6 (13 + / 5)).
  { intros p q v w Cp Cq. assert (S : coord (fsub p q) (v - w) 2 (2 + / 100)) by (eapply coord_sub; pm). eapply coord_mul_l; pm. }
  pose proof (G _ _ _ _ C1 C0) as D0. pose proof (G _ _ _ _ C2 C1) as D1. pose proof (G _ _ _ _ C3 C2) as D2. clear G.
  set (d0 := fmul fthree (fsub p1 p0)) in *. set (d1 := fmul fthree (fsub p2 p1)) in *. set (d2 := fmul fthree (fsub p3 p2)) in *.
  set (e0 := 3 * (v1 - v0)) in *. set (e1 := 3 * (v2 - v1)) in *. set (e2 := 3 * (v3 - v2)) in *.
  assert (V1 : Rabs e1 <= 6 * M) by apply D1. assert (V2 : Rabs e2 <= 6 * M) by apply D2. assert (V0 : Rabs e0 <= 6 * M) by apply D0.
  assert (A0 : coord (fmul d0 (fmul (fsub fone t) (fsub fone t))) (e0 * ((1 - T') * (1 - T'))) 6 (38 + / 2)) by (eapply coord_mul; pm).
  assert (A1 : coord (fmul d1 (fmul (fsub fone t) ftwo)) (e1 * ((1 - T') * 2)) 12 (64 + / 2)) by (eapply coord_mul; pm).
  assert (A2 : coord (fmul d2 t) (e2 * T') 6 (20 + / 2)) by (eapply coord_mul; pm).
  assert (B1 : coord (fadd (fmul d1 (fmul (fsub fone t) ftwo)) (fmul d2 t)) (e1 * ((1 - T') * 2) + e2 * T') 18 (103 + / 10)) by (eapply coord_add; pm).
  apply (coord_bound M _ _ _ _ 12) in B1; [| |lra].
  2: { replace (12 * M) with (2 * (6 * M)) by ring. apply comb; [assumption..|lra|lra|lra]. }
  assert (B2 : coord (fmul (fadd (fmul d1 (fmul (fsub fone t) ftwo)) (fmul d2 t)) t) ((e1 * ((1 - T') * 2) + e2 * T') * T') 12 (116 + / 4)) by (eapply coord_mul; pm).
  apply (coord_bound M _ _ _ _ 6) in B2; [| |lra].
  2: { replace ((e1 * ((1 - T') * 2) + e2 * T') * T') with (e1 * (2 * (1 - T') * T') + e2 * (T' * T')) by ring. replace (6 * M) with (1 * (6 * M)) by ring. apply comb; [assumption..|nra|nra|nra]. }
  pose proof (coord_add M M0 MB _ _ _ _ _ _ _ _ 12 168 A0 B2 ltac:(lra) ltac:(lra)) as B4.
  assert (E : e0 * ((1 - T') * (1 - T')) + (e1 * ((1 - T') * 2) + e2 * T') * T' = bern2 e0 e1 e2 T') by (unfold bern2; ring).
  rewrite E in B4. apply (coord_bound M _ _ _ _ 6) in B4; [|apply bern2_abs; assumption|lra]. exact B4.
Qed.
End Eval.
