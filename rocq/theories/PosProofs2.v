(** The midpoint of two numbers that are not adjacent lies strictly between them. *)
From Coq Require Import ZArith Bool Lia Reals Lra.
From Flocq Require Import Core BinarySingleNaN Plus_error.
From Verif Require Import F64 F64Arith.
Local Open Scope R_scope.

#[local] Instance vexp' : Valid_exp fexp64 := fexp_correct 53 1024 _.
#[local] Instance mexp' : Monotone_exp fexp64 := fexp_monotone 53 1024.

Lemma rnd_nearest (x g : R) : generic_format radix2 fexp64 g -> Rabs (rnd64 x - x) <= Rabs (g - x).
Proof. intro G. apply (round_N_pt radix2 fexp64 (fun x => negb (Z.even x)) x). exact G. Qed.

Lemma generic_half (s : R) : generic_format radix2 fexp64 s -> bpow radix2 (-1021) <= Rabs s -> generic_format radix2 fexp64 (s / 2).
Proof.
  intros G B. change fexp64 with (FLT_exp (-1074) 53) in *. apply FLT_format_generic in G; [|reflexivity]. destruct G as [[m e] G1 G2 G3]. cbn [Fnum Fexp] in G2, G3.
  assert (e <> -1074)%Z.
  { intros ->. apply (Rlt_not_le (bpow radix2 (-1021)) (Rabs s)); [|exact B]. rewrite G1, <- F2R_Zabs. change (bpow radix2 (-1021)) with (bpow radix2 (53 + -1074)). rewrite bpow_plus. unfold F2R. cbn [Fnum Fexp]. apply Rmult_lt_compat_r; [apply bpow_gt_0|].
    rewrite <- IZR_Zpower by lia. apply IZR_lt. exact G2. }
  apply generic_format_FLT. exists (Float radix2 m (e - 1)); cbn [Fnum Fexp]; [|exact G2|lia].
  rewrite G1. unfold F2R, Zminus. cbn [Fnum Fexp]. rewrite bpow_plus. change (bpow radix2 (-(1))) with (/2). lra.
Qed.

Lemma fmid_strict (a b z : f64) : fin a = true -> fin b = true -> fin z = true -> (key a < key z < key b)%Z ->
  fin (fadd a b) = true -> fin (fmid a b) = true /\ (key a < key (fmid a b) < key b)%Z.
Proof.
  intros Fa Fb Fz [Haz Hzb] Fs. destruct (fmid_between a b Fa Fb ltac:(lia) Fs) as (Fm & Lm & Um). split; [exact Fm|].
  assert (LT : forall x y : f64, fin x = true -> fin y = true -> (key x < key y)%Z -> B2R x < B2R y).
  { intros x y Fx Fy L. apply Rnot_le_lt. intro H. apply key_le_R in H; [lia|assumption..]. }
  pose proof (LT _ _ Fa Fz Haz) as RA. pose proof (LT _ _ Fz Fb Hzb) as RB. clear LT.
  pose proof (Bplus_correct 53 1024 _ _ mode_NE a b Fa Fb) as H. fold (fadd a b) in H.
  destruct (Rlt_bool _ _) eqn:E1.
  2: { destruct H as (HS & _). destruct (fadd a b); try discriminate; destruct (Bsign a); discriminate. }
  destruct H as (HR & _ & _). clear E1.
  pose proof (Bdiv_correct 53 1024 _ _ mode_NE (fadd a b) ftwo) as H.
  change (Bdiv mode_NE (fadd a b) ftwo) with (fmid a b) in H.
  rewrite ftwo_R in H. specialize (H ltac:(lra)).
  set (A := B2R a) in *. set (B := B2R b) in *. set (Z := B2R z) in *. set (s := B2R (fadd a b)) in *.
  assert (L1 : 2 * A <= s). { rewrite HR, <- (round_generic radix2 fexp64 (round_mode mode_NE) (2 * A)) by (apply generic_double; assumption). apply round_le; [typeclasses eauto..|]. lra. }
  assert (L2 : s <= 2 * B). { rewrite HR, <- (round_generic radix2 fexp64 (round_mode mode_NE) (2 * B)) by (apply generic_double; assumption). apply round_le; [typeclasses eauto..|]. lra. }
  assert (N : Rabs (s - (A + B)) <= Rabs (2 * Z - (A + B))). { rewrite HR. apply rnd_nearest. apply generic_double, Fz. }
  assert (N' : Rabs (2 * Z - (A + B)) < B - A) by (apply Rabs_def1; lra).
  assert (L3 : 2 * A < s). { apply Rnot_le_lt. intro X. assert (s = 2 * A) as Y by lra. rewrite Y in N. rewrite (Rabs_left1 (2 * A - (A + B))) in N; lra. }
  assert (L4 : s < 2 * B). { apply Rnot_le_lt. intro X. assert (s = 2 * B) as Y by lra. rewrite Y in N. rewrite (Rabs_right (2 * B - (A + B))) in N; lra. }
  assert (HM : B2R (fmid a b) = rnd64 (s / 2)).
  { assert (M1 : A <= rnd64 (s / 2)). { unfold A. rewrite <- (round_generic radix2 fexp64 (round_mode mode_NE) (B2R a)) at 1 by apply generic_format_B2R. apply round_le; [typeclasses eauto..|]. fold A. lra. }
    assert (M2 : rnd64 (s / 2) <= B). { unfold B. rewrite <- (round_generic radix2 fexp64 (round_mode mode_NE) (B2R b)) by apply generic_format_B2R. apply round_le; [typeclasses eauto..|]. fold B. lra. }
    rewrite Rlt_bool_true in H; [exact (proj1 H)|].
    pose proof (abs_B2R_lt_emax 53 1024 a) as A1. pose proof (abs_B2R_lt_emax 53 1024 b) as A2. fold A in A1. fold B in A2. apply Rabs_lt. apply Rabs_def2 in A1, A2. lra. }
  assert (K : A < B2R (fmid a b) < B).
  { rewrite HM. destruct (Rle_lt_dec (Rabs (A + B)) (bpow radix2 (-1021))) as [SM|BG].
    - assert (ES : s = A + B). { rewrite HR. apply round_generic; [typeclasses eauto|]. change fexp64 with (FLT_exp (-1074) 53). apply FLT_format_plus_small; [reflexivity|change (FLT_exp (-1074) 53) with fexp64; apply generic_format_B2R..|exact SM]. }
      pose proof (rnd_nearest (s / 2) Z (generic_format_B2R 53 1024 z)) as NR. set (m := rnd64 (s / 2)) in *. assert (Rabs (Z - s / 2) < (B - A) / 2) as X by (apply Rabs_def1; lra).
      assert (Rabs (m - s / 2) < (B - A) / 2) as Y by lra. apply Rabs_def2 in Y. lra.
    - assert (BS : bpow radix2 (-1021) <= Rabs s). { rewrite HR. apply abs_round_ge_generic; [typeclasses eauto..| |lra]. apply generic_format_bpow. vm_compute. discriminate. }
      rewrite round_generic; [lra|typeclasses eauto|]. apply generic_half; [apply generic_format_B2R|exact BS]. }
  split; apply Z.nle_gt; intro X; (apply key_le_R in X; [fold A B in X; lra|assumption..]).
Qed.
