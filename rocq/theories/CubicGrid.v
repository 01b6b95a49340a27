(** The contracts of CubicSpec.v can be met, and accurately: by looking at all multiples of a small power of two.  (Used by examples only.) *)
From Coq Require Import ZArith Bool Lia Reals Lra List Ranalysis.
From Flocq Require Import Core BinarySingleNaN.
From Verif Require Import F64 GeomModel SegmentsModel PosModel CompareArith LineSpec LineProofs ExactModel CubicModel CubicSpec CubicProofs.
Import ListNotations.
Local Open Scope R_scope.

Definition grid_point (k : Z) (n : nat) : f64 := @BinarySingleNaN.binary_normalize 53 1024 _ _ mode_NE (Z.of_nat n) (- k) false.
Definition grid (k : Z) : list f64 := map (grid_point k) (seq 0 (S (Z.to_nat (2 ^ k)))).
Definition grid_roots (k : Z) (acc : R) (k0 k1 k2 k3 e : f64) : list f64 :=
  filter (fun t => if Rle_dec (Rabs (poly k0 k1 k2 k3 (B2R t))) acc then true else false) (grid k).
Definition grid_candidates (k : Z) (c : cubic) : list f64 := grid k.

Section Grid.
Variable k : Z.
Hypothesis K : (0 <= k <= 50)%Z.

Lemma pow_k : IZR (2 ^ k) * bpow radix2 (- k) = 1 /\ 0 < bpow radix2 (- k).
Proof.
  split; [|apply bpow_gt_0]. change 2%Z with (radix_val radix2). rewrite IZR_Zpower by lia. rewrite <- bpow_plus. replace (k + - k)%Z with 0%Z by lia. reflexivity.
Qed.
Lemma point_val n : (Z.of_nat n <= 2 ^ k)%Z -> in_unit (grid_point k n) /\ B2R (grid_point k n) = IZR (Z.of_nat n) * bpow radix2 (- k).
Proof.
  intros L. destruct pow_k as (P & Q). set (v := IZR (Z.of_nat n) * bpow radix2 (- k)).
  assert (N0 : 0 <= IZR (Z.of_nat n)) by (apply IZR_le; lia). apply IZR_le in L as L'.
  assert (V : 0 <= v <= 1). { split; [apply Rmult_le_pos; lra|]. rewrite <- P. apply Rmult_le_compat_r; lra. }
  pose proof (binary_normalize_correct 53 1024 _ _ mode_NE (Z.of_nat n) (- k) false) as C.
  assert (F : F2R (Float radix2 (Z.of_nat n) (- k)) = v) by reflexivity. rewrite F in C.
  assert (G : generic_format radix2 (SpecFloat.fexp 53 1024) v).
  { apply generic_format_FLT. exists (Float radix2 (Z.of_nat n) (- k)); [symmetry; exact F| |].
    - cbn [Fnum]. rewrite Z.abs_eq by lia. apply Z.le_lt_trans with (1 := L). apply (Z.pow_lt_mono_r 2); lia.
    - cbn [Fexp]. change (SpecFloat.emin 53 1024) with (-1074)%Z. lia. }
  cbv zeta in C. rewrite round_generic in C; [|apply valid_rnd_round_mode|exact G].
  rewrite Rlt_bool_true in C. 2: { rewrite Rabs_pos_eq by lra. apply Rle_lt_trans with 1; [lra|]. change 1 with (bpow radix2 0). apply bpow_lt. lia. }
  destruct C as (C1 & C2 & _). fold (grid_point k n) in C1, C2. split; [split; [exact C2|rewrite C1; lra]|exact C1].
Qed.
Lemma grid_in t : In t (grid k) -> in_unit t.
Proof. unfold grid. rewrite in_map_iff. intros (n & <- & I). apply in_seq in I. apply point_val. lia. Qed.
Lemma grid_near t : 0 <= t <= 1 -> exists g, In g (grid k) /\ in_unit g /\ Rabs (B2R g - t) <= bpow radix2 (- k).
Proof.
  intros T. destruct pow_k as (P & Q). set (z := Zfloor (t * IZR (2 ^ k))).
  assert (P0 : 0 < IZR (2 ^ k)) by (apply IZR_lt; apply Z.pow_pos_nonneg; lia).
  assert (Z0 : (0 <= z)%Z). { apply Zfloor_lub. apply Rmult_le_pos; lra. }
  pose proof (Zfloor_lb (t * IZR (2 ^ k))) as L1. pose proof (Zfloor_ub (t * IZR (2 ^ k))) as L2. fold z in L1, L2.
  assert (Z1 : (z <= 2 ^ k)%Z). { apply le_IZR. apply Rle_trans with (1 := L1). rewrite <- (Rmult_1_l (IZR (2 ^ k))) at 2. apply Rmult_le_compat_r; lra. }
  assert (E : Z.of_nat (Z.to_nat z) = z) by lia. destruct (point_val (Z.to_nat z)) as (U & V); [lia|]. rewrite E in V.
  exists (grid_point k (Z.to_nat z)). split; [|split; [exact U|]].
  - unfold grid. apply in_map. apply in_seq. lia.
  - rewrite V. apply abs_le. assert (TE : t = t * IZR (2 ^ k) * bpow radix2 (- k)) by (rewrite Rmult_assoc, P; ring).
    pose proof (Rmult_le_compat_r _ _ _ (Rlt_le _ _ Q) L1) as A. pose proof (Rmult_lt_compat_r _ _ _ Q L2) as B. rewrite <- TE in A, B. lra.
Qed.

(** How fast a polynomial with coefficients of at most [m] can change. *)
Lemma poly_steep c0 c1 c2 c3 m s t : Rabs c1 <= m -> Rabs c2 <= m -> Rabs c3 <= m -> 0 <= s <= 1 -> 0 <= t <= 1 ->
  Rabs ((c0 + c1 * t + c2 * (t * t) + c3 * (t * t * t)) - (c0 + c1 * s + c2 * (s * s) + c3 * (s * s * s))) <= 6 * m * Rabs (t - s).
Proof.
  intros A B C S T. replace (_ - _) with ((c1 + c2 * (t + s) + c3 * (t * t + t * s + s * s)) * (t - s)) by ring.
  rewrite Rabs_mult. apply Rmult_le_compat_r; [apply Rabs_pos|].
  assert (W : 0 <= t * t <= 1 /\ 0 <= t * s <= 1 /\ 0 <= s * s <= 1). { repeat split; try (apply Rmult_le_pos; lra); rewrite <- (Rmult_1_l 1); apply Rmult_le_compat; lra. }
  replace (6 * m) with (m + m * 2 + m * 3) by ring. apply abs_add; [apply abs_add; [exact A|]|]; (apply abs_mul; [assumption|apply abs_le; lra]).
Qed.

Theorem grid_roots_inside acc : looks_inside (grid_roots k acc).
Proof. intros k0 k1 k2 k3 e t _ _ _ _ I. apply filter_In in I as (I & _). apply grid_in, I. Qed.
Theorem grid_roots_accurate M : 0 <= M -> finds_crossings (grid_roots k (96 * M * bpow radix2 (- k))) M (96 * M * bpow radix2 (- k)).
Proof.
  intros M0 k0 k1 k2 k3 e C. set (acc := 96 * M * bpow radix2 (- k)). assert (A0 : 0 <= acc). { destruct pow_k. apply Rmult_le_pos; lra. } split.
  - intros t I. apply filter_In in I as (_ & I). destruct (Rle_dec (Rabs (poly k0 k1 k2 k3 (B2R t))) acc); [assumption|discriminate].
  - intros L H. destruct (IVT (poly k0 k1 k2 k3) 0 1) as (z & Z & E); [unfold poly; reg|lra|lra|lra|].
    destruct (grid_near z Z) as (g & I & (_ & U) & N).
    assert (J : In g (grid_roots k acc k0 k1 k2 k3 e)).
    { apply filter_In. split; [exact I|]. destruct (Rle_dec _ acc) as [|NO]; [reflexivity|exfalso; apply NO].
      pose proof (poly_steep (B2R k0) (B2R k1) (B2R k2) (B2R k3) (16 * M) z (B2R g) (proj2 (C k1 ltac:(cbn; auto))) (proj2 (C k2 ltac:(cbn; auto))) (proj2 (C k3 ltac:(cbn; auto))) Z U) as P.
      fold (poly k0 k1 k2 k3 z) in P. fold (poly k0 k1 k2 k3 (B2R g)) in P. rewrite E, Rminus_0_r in P. apply Rle_trans with (1 := P). unfold acc. replace (96 * M * bpow radix2 (- k)) with (6 * (16 * M) * bpow radix2 (- k)) by ring.
      apply Rmult_le_compat_l; [lra|exact N]. }
    intros EMP. rewrite EMP in J. exact J.
Qed.
Theorem grid_candidates_accurate M : 0 <= M -> finds_extremes (grid_candidates k) M (96 * M * bpow radix2 (- k)).
Proof.
  intros M0 c W s S. destruct (grid_near s S) as (g & I & (F & U) & N).
  assert (X : Rabs (cx (real_curve c) (B2R g) - cx (real_curve c) s) <= 96 * M * bpow radix2 (- k)).
  { destruct W as ((_ & _ & W0 & _) & (_ & _ & W1 & _) & (_ & _ & W2 & _) & (_ & _ & W3 & _)). unfold cx, real_curve, real_point. cbn [q0 q1 q2 q3 rx].
    set (a := B2R (px (cb0 c))) in *. set (b := B2R (px (cb1 c))) in *. set (d := B2R (px (cb2 c))) in *. set (f := B2R (px (cb3 c))) in *.
    assert (EX : forall t, bern3 a b d f t = a + 3 * (b - a) * t + 3 * (d - 2 * b + a) * (t * t) + (f - 3 * d + 3 * b - a) * (t * t * t)) by (intros t; unfold bern3; ring).
    rewrite !EX. apply abs_le in W0, W1, W2, W3. apply Rle_trans with (1 := poly_steep a (3 * (b - a)) (3 * (d - 2 * b + a)) (f - 3 * d + 3 * b - a) (16 * M) s (B2R g) ltac:(apply abs_le; lra) ltac:(apply abs_le; lra) ltac:(apply abs_le; lra) S U).
    replace (96 * M * bpow radix2 (- k)) with (6 * (16 * M) * bpow radix2 (- k)) by ring. apply Rmult_le_compat_l; [lra|exact N]. }
  apply abs_le in X.
  assert (P : B2R g = 0 \/ B2R g = 1 \/ exists t, In t (grid_candidates k c) /\ fin t = true /\ 0 < B2R t < 1 /\ B2R g = B2R t).
  { destruct (Req_dec (B2R g) 0); [auto|]. destruct (Req_dec (B2R g) 1); [auto|]. right. right. exists g. split; [exact I|]. split; [exact F|]. split; [lra|reflexivity]. }
  exists (B2R g), (B2R g). split; [exact P|]. split; [exact P|]. lra.
Qed.
End Grid.
