(** Relative errors. *)
From Coq Require Import ZArith Bool Lia Reals Lra.
From Flocq Require Import Core BinarySingleNaN Plus_error Relative.
From Verif Require Import F64 F64Arith CompareModel CompareSpec CompareArith LineProofs.
Local Open Scope R_scope.

Definition near (k x y : R) : Prop := exists e, Rabs e <= k * u /\ x = y * (1 + e).
Lemma u_tiny : u <= / 1048576.
Proof. replace (/1048576) with (bpow radix2 (-20)) by (simpl; lra). apply bpow_le. lia. Qed.
Lemma near_refl k x : 0 <= k -> near k x x.
Proof. intros H. exists 0. pose proof u_pos. rewrite Rabs_R0. split; [nra|ring]. Qed.
Lemma near_weak k k' x y : k <= k' -> near k x y -> near k' x y.
Proof. intros H (e & B & E). exists e. split; [|exact E]. pose proof u_pos. nra. Qed.
Lemma e_small k e : 0 <= k <= 16 -> Rabs e <= k * u -> Rabs e <= /1024.
Proof. intros K H. pose proof u_tiny. pose proof u_pos. assert (k * u <= 16 * u) by (apply Rmult_le_compat_r; lra). lra. Qed.
Lemma prod_small k1 k2 e1 e2 : 0 <= k1 <= 16 -> 0 <= k2 <= 16 -> Rabs e1 <= k1 * u -> Rabs e2 <= k2 * u -> Rabs (e1 * e2) <= u / 8.
Proof.
  intros K1 K2 H1 H2. rewrite Rabs_mult. pose proof u_tiny. pose proof u_pos.
  assert (Rabs e1 <= 16 * u) by (apply Rle_trans with (1 := H1); apply Rmult_le_compat_r; lra). assert (Rabs e2 <= 16 * u) by (apply Rle_trans with (1 := H2); apply Rmult_le_compat_r; lra).
  apply Rle_trans with (16 * u * (16 * u)). { apply Rmult_le_compat; try apply Rabs_pos; assumption. } nra.
Qed.
Lemma near_mul k1 k2 x y x' y' : 0 <= k1 <= 16 -> 0 <= k2 <= 16 -> near k1 x y -> near k2 x' y' -> near (k1 + k2 + /8) (x * x') (y * y').
Proof.
  intros K1 K2 (e1 & B1 & ->) (e2 & B2 & ->). exists (e1 + e2 + e1 * e2). split; [|ring].
  pose proof (prod_small k1 k2 e1 e2 K1 K2 B1 B2). apply abs_le in B1, B2, H. apply abs_le. lra.
Qed.
Lemma near_trans k1 k2 x y z : 0 <= k1 <= 16 -> 0 <= k2 <= 16 -> near k1 x y -> near k2 y z -> near (k1 + k2 + /8) x z.
Proof.
  intros K1 K2 (e1 & B1 & ->) (e2 & B2 & ->). exists (e1 + e2 + e1 * e2). split; [|ring].
  pose proof (prod_small k1 k2 e1 e2 K1 K2 B1 B2). apply abs_le in B1, B2, H. apply abs_le. lra.
Qed.
Lemma inv_err k e : 0 <= k <= 16 -> Rabs e <= k * u -> exists e', Rabs e' <= (k + /8) * u /\ (1 + e) * (1 + e') = 1.
Proof.
  intros K B. pose proof (e_small k e K B) as S. apply abs_le in S. exists (- e / (1 + e)). split; [|field; lra].
  assert (X : - e / (1 + e) = - e + e * (e / (1 + e))) by (field; lra). rewrite X.
  assert (B' : Rabs (e / (1 + e)) <= (2 * k) * u). { unfold Rdiv. rewrite Rabs_mult. rewrite (Rabs_pos_eq (/ (1 + e))) by (apply Rlt_le, Rinv_0_lt_compat; lra).
    assert (/ (1 + e) <= 2). { replace 2 with (/ (/2)) by lra. apply Rinv_le; lra. } assert (0 < / (1 + e)) by (apply Rinv_0_lt_compat; lra). pose proof (Rabs_pos e). nra. }
  assert (P : Rabs (e * (e / (1 + e))) <= u / 8).
  { rewrite Rabs_mult. pose proof u_tiny. pose proof u_pos. apply Rle_trans with (16 * u * (32 * u)); [|nra]. apply Rmult_le_compat; try apply Rabs_pos.
    - apply Rle_trans with (1 := B). apply Rmult_le_compat_r; lra.
    - apply Rle_trans with (1 := B'). apply Rmult_le_compat_r; lra. }
  apply abs_le in B, P. apply abs_le. lra.
Qed.
Lemma near_sym k x y : 0 <= k <= 16 -> near k x y -> near (k + /8) y x.
Proof. intros K (e & B & ->). destruct (inv_err k e K B) as (e' & B' & E'). exists e'. split; [exact B'|]. rewrite Rmult_assoc, E'. ring. Qed.
Lemma near_inv k x y : 0 <= k <= 16 -> near k x y -> near (k + /8) (/ x) (/ y).
Proof.
  intros K (e & B & ->). destruct (inv_err k e K B) as (e' & B' & E'). exists e'. split; [exact B'|]. pose proof (e_small k e K B) as S. apply abs_le in S.
  rewrite Rinv_mult. f_equal. apply Rmult_eq_reg_l with (1 + e); [|lra]. rewrite E'. apply Rinv_r. lra.
Qed.
Lemma near_div k1 k2 x y x' y' : 0 <= k1 <= 16 -> 0 <= k2 <= 15 -> near k1 x y -> near k2 x' y' -> near (k1 + k2 + /4) (x / x') (y / y').
Proof.
  intros K1 K2 H1 H2. apply (near_weak (k1 + (k2 + /8) + /8)); [lra|]. apply near_mul; [assumption|lra|assumption|]. apply near_inv; [lra|assumption].
Qed.
Lemma near_sqrt k x y : 0 <= k <= 16 -> 0 <= y -> near k x y -> near k (sqrt x) (sqrt y).
Proof.
  intros K P (e & B & ->). pose proof (e_small k e K B) as S. apply abs_le in S. exists (sqrt (1 + e) - 1). split.
  - apply Rle_trans with (2 := B). set (r := sqrt (1 + e)). assert (r * r = 1 + e) by (apply sqrt_sqrt; lra). assert (0 <= r) by apply sqrt_pos.
    assert (E : e = (r - 1) * (r + 1)) by lra. rewrite E, Rabs_mult. rewrite (Rabs_pos_eq (r + 1)) by lra. pose proof (Rabs_pos (r - 1)). nra.
  - rewrite sqrt_mult by lra. ring.
Qed.
Lemma near_opp k x y : near k x y -> near k (- x) (- y).
Proof. intros (e & B & ->). exists e. split; [exact B|ring]. Qed.
Lemma near_scale k c x y : near k x y -> near k (c * x) (c * y).
Proof. intros (e & B & ->). exists e. split; [exact B|ring]. Qed.
Lemma near_to_abs k x y : near k x y -> Rabs (x - y) <= k * u * Rabs y.
Proof.
  intros (e & B & ->). replace (y * (1 + e) - y) with (e * y) by ring. rewrite Rabs_mult. apply Rmult_le_compat_r; [apply Rabs_pos|exact B].
Qed.
Lemma abs_to_near k x y : 0 <= k -> Rabs (x - y) <= k * u * Rabs y -> near k x y.
Proof.
  intros K H. pose proof u_pos. destruct (Req_dec y 0) as [->|N].
  - rewrite Rabs_R0, Rmult_0_r in H. exists 0. rewrite Rabs_R0. split; [nra|]. apply abs_le in H. lra.
  - exists ((x - y) / y). split; [|field; exact N]. unfold Rdiv. rewrite Rabs_mult, Rabs_inv. apply Rmult_le_reg_r with (Rabs y); [apply Rabs_pos_lt, N|].
    rewrite Rmult_assoc, Rinv_l by (apply Rabs_no_R0, N). lra.
Qed.
Lemma near_add k x y x' y' : 0 <= k -> 0 <= y * y' -> near k x y -> near k x' y' -> near k (x + x') (y + y').
Proof.
  intros K P H1 H2. apply near_to_abs in H1, H2. apply abs_to_near; [exact K|]. replace (x + x' - (y + y')) with ((x - y) + (x' - y')) by ring.
  apply Rle_trans with (1 := Rabs_triang _ _).
  assert (E : Rabs (y + y') = Rabs y + Rabs y').
  { destruct (Rle_or_lt 0 y) as [Y|Y], (Rle_or_lt 0 y') as [Y'|Y'].
    - rewrite !Rabs_pos_eq by lra. reflexivity.
    - destruct Y as [Y|<-]; [exfalso; nra|]. rewrite Rabs_R0, !Rplus_0_l. reflexivity.
    - destruct Y' as [Y'|<-]; [exfalso; nra|]. rewrite Rabs_R0, !Rplus_0_r. reflexivity.
    - rewrite !Rabs_left by lra. ring. }
  rewrite E. lra.
Qed.
Lemma near_min k x y x' y' : 0 <= k <= 16 -> near k x y -> near k x' y' -> near k (Rmin x x') (Rmin y y') /\ near k (Rmax x x') (Rmax y y').
Proof.
  intros K H1 H2. assert (KU : 0 <= k * u <= /2). { pose proof u_pos. pose proof u_tiny. nra. }
  apply near_to_abs in H1, H2. set (d := k * u) in *.
  assert (G : forall a b, Rabs (a - b) <= d * Rabs b <-> b - d * Rabs b <= a <= b + d * Rabs b). { intros. rewrite abs_le. lra. }
  apply G in H1, H2.
  assert (MONO : forall a b, a <= b -> a - d * Rabs a <= b - d * Rabs b /\ a + d * Rabs a <= b + d * Rabs b).
  { intros a b L. unfold Rabs. destruct (Rcase_abs a), (Rcase_abs b); nra. }
  split; (apply abs_to_near; [apply K|]); fold d; apply G.
  - unfold Rmin. destruct (Rle_dec x x'), (Rle_dec y y'); try lra; [destruct (MONO y' y ltac:(lra))|destruct (MONO y y' ltac:(lra))]; lra.
  - unfold Rmax. destruct (Rle_dec x x'), (Rle_dec y y'); try lra; [destruct (MONO y' y ltac:(lra))|destruct (MONO y y' ltac:(lra))]; lra.
Qed.
(** Rounding. *)
Lemma near_rnd (v : R) : v = 0 \/ bpow radix2 (-1022) <= Rabs v -> near 1 (rnd64 v) v.
Proof.
  intros [->|L]; [rewrite rnd_0; apply near_refl; lra|]. apply abs_to_near; [lra|]. rewrite Rmult_1_l.
  pose proof (relative_error_N_FLT radix2 (-1074) 53 ltac:(reflexivity) (fun x => negb (Z.even x)) v L) as E.
  change (round radix2 (FLT_exp (-1074) 53) (Znearest (fun x => negb (Z.even x)))) with rnd64 in E.
  replace (/ 2 * bpow radix2 (- (53) + 1)) with u in E; [exact E|]. unfold u. change (/2) with (bpow radix2 (-1)). rewrite <- bpow_plus. reflexivity.
Qed.
Lemma near_rnd_plus (x y : R) : generic_format radix2 fexp64 x -> generic_format radix2 fexp64 y -> near 1 (rnd64 (x + y)) (x + y).
Proof. intros Gx Gy. apply abs_to_near; [lra|]. rewrite Rmult_1_l. apply plus_err; assumption. Qed.
Lemma near_rnd_minus (x y : R) : generic_format radix2 fexp64 x -> generic_format radix2 fexp64 y -> near 1 (rnd64 (x - y)) (x - y).
Proof. intros Gx Gy. apply abs_to_near; [lra|]. rewrite Rmult_1_l. apply sub_err; assumption. Qed.
(** Exact operations. *)
Lemma rnd_lt x y : rnd64 x < rnd64 y -> x < y.
Proof. intros H. destruct (Rle_or_lt y x) as [L|L]; [|exact L]. apply rnd_le in L. lra. Qed.
