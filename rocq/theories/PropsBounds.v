(** C86: the bounding box of a topology. *)
From Coq Require Import ZArith Bool Lia Reals Lra List.
From Flocq Require Import Core BinarySingleNaN.
From Verif Require Import F64 F64Arith GeomModel SegmentsModel PosModel CompareModel CompareArith LineSpec LineProofs ExactModel ExactSpec CubicModel CubicSpec CubicProofs CubicProofs3 CubicGrid BoundsModel BoundsSpec BoundsProofs PropsCubic.
Import ListNotations.
Local Open Scope R_scope.

(** C86.  For segments with coordinates of usual size: the bounding box is finite and contains the ends of all segments, without any slack; and up to 2^-46 of the size of the coordinates and
    the accuracy of the extremal points it contains all points of all segments. *)
Theorem bounding_box_covers : forall candidates ss M, ss <> [] -> bpow radix2 (-900) <= M <= bpow radix2 998 -> (forall s, In s ss -> segment_within M s) ->
  let r := bounding_box candidates ss in
  (fin (bx0 r) = true /\ fin (by0 r) = true /\ fin (bx1 r) = true /\ fin (by1 r) = true) /\
  (forall s p, In s ss -> p = seg_start s \/ p = seg_end s -> (fle (bx0 r) (px p) = true /\ fle (px p) (bx1 r) = true) /\ (fle (by0 r) (py p) = true /\ fle (py p) (by1 r) = true)) /\
  (forall acc, finds_bounds candidates (2 * M) acc -> forall s Y X, In s ss -> point_of s Y X -> nearly_in r (acc + bpow radix2 (-46) * M) Y X).
Proof.
  intros cands ss M NE MV W r. destruct ss as [|s0 ss]; [contradiction|]. destruct (box_join cands M MV s0 ss W) as ((F1 & F2 & F3 & F4) & C & _). fold r in F1, F2, F3, F4, C.
  assert (B46 : bpow radix2 (-46) * M = 128 * (u * M)). { replace (-46)%Z with (7 + -53)%Z by reflexivity. rewrite bpow_plus. unfold u. change (bpow radix2 7) with 128. ring. }
  split; [auto|]. split.
  - intros s p I P. destruct (seg_box cands M MV s (W s I)) as ((G1 & G2 & G3 & G4) & E & _). destruct (E p P) as (EX & EY). destruct (C s I) as (C1 & C2 & C3 & C4).
    assert (WP : within M p). { specialize (W s I). destruct P as [->| ->], s; cbn [seg_start seg_end segment_within] in *; tauto. } destruct WP as (FX & FY & _).
    split; split; (apply fle_R; [assumption..|lra]).
  - intros acc FB s Y X I P. destruct (seg_box cands M MV s (W s I)) as (_ & _ & _ & _ & _ & _ & N). specialize (N acc FB Y X P). destruct (C s I) as (C1 & C2 & C3 & C4).
    rewrite B46. unfold nearly_in in *. lra.
Qed.
Print Assumptions bounding_box_covers.

(** C86 (not too large).  Each side is within 2^-46 of the size of the coordinates of a point of a segment, whatever the candidates for extremal points are; and the box of nothing is kurbo's empty one. *)
Theorem bounding_box_tight : forall candidates ss M, bpow radix2 (-900) <= M <= bpow radix2 998 -> (forall s, In s ss -> segment_within M s) ->
  let r := bounding_box candidates ss in let near := bpow radix2 (-46) * M in
  (ss = [] -> r = mkRect (B754_infinity false) (B754_infinity false) (B754_infinity true) (B754_infinity true)) /\
  (ss <> [] ->
     (exists s Y X, In s ss /\ point_of s Y X /\ Rabs (B2R (bx0 r) - X) <= near) /\ (exists s Y X, In s ss /\ point_of s Y X /\ Rabs (B2R (bx1 r) - X) <= near) /\
     (exists s Y X, In s ss /\ point_of s Y X /\ Rabs (B2R (by0 r) - Y) <= near) /\ (exists s Y X, In s ss /\ point_of s Y X /\ Rabs (B2R (by1 r) - Y) <= near)).
Proof.
  intros cands ss M MV W r near. split; [intros ->; reflexivity|]. intros NE. destruct ss as [|s0 ss]; [contradiction|].
  destruct (box_join cands M MV s0 ss W) as (_ & _ & (s1 & I1 & E1) & (s2 & I2 & E2) & (s3 & I3 & E3) & (s4 & I4 & E4)). fold r in E1, E2, E3, E4.
  assert (B46 : near = 128 * (u * M)). { unfold near. replace (-46)%Z with (7 + -53)%Z by reflexivity. rewrite bpow_plus. unfold u. change (bpow radix2 7) with 128. ring. }
  rewrite B46, E1, E2, E3, E4.
  split; [|split; [|split]].
  - destruct (seg_box cands M MV s1 (W s1 I1)) as (_ & _ & (Y & X & P & D) & _). exists s1, Y, X. auto.
  - destruct (seg_box cands M MV s3 (W s3 I3)) as (_ & _ & _ & (Y & X & P & D) & _). exists s3, Y, X. auto.
  - destruct (seg_box cands M MV s2 (W s2 I2)) as (_ & _ & _ & _ & (Y & X & P & D) & _). exists s2, Y, X. auto.
  - destruct (seg_box cands M MV s4 (W s4 I4)) as (_ & _ & _ & _ & _ & (Y & X & P & D) & _). exists s4, Y, X. auto.
Qed.
Print Assumptions bounding_box_tight.

(** ** Examples *)
(** There are accurate candidates. *)
Lemma candidates_accurate M : 0 <= M -> finds_bounds (grid_candidates 50) M (96 * M * bpow radix2 (-50)).
Proof.
  intros M0 c W s S. split; [exact (grid_candidates_accurate 50 ltac:(lia) M M0 c W s S)|].
  destruct (grid_candidates_accurate 50 ltac:(lia) M M0 (flipc c) (flip_within M c W) s S) as (lo & hi & A & B & C). exists lo, hi. split; [exact A|]. split; [exact B|exact C].
Qed.
(** A line from (0, 0) to (1, 8), and a curve with the control points (0, 0), (4, 1), (4, 2), (0, 3): it bulges to 3, beyond all ends. *)
Definition bulge : list segment :=
  [SLine (mkPoint (f64_of_Z 0) (f64_of_Z 0)) (mkPoint (f64_of_Z 8) (f64_of_Z 1));
   SCubic (mkPoint (f64_of_Z 0) (f64_of_Z 0)) (mkPoint (f64_of_Z 1) (f64_of_Z 4)) (mkPoint (f64_of_Z 2) (f64_of_Z 4)) (mkPoint (f64_of_Z 3) (f64_of_Z 0))].
Lemma bulge_within : forall s, In s bulge -> segment_within 16 s.
Proof.
  intros s I. rewrite <- sixteen_R. apply segment_b_ok; [reflexivity|]. assert (H : forallb (segment_b sixteen) bulge = true) by (vm_compute; reflexivity).
  rewrite forallb_forall in H. apply H, I.
Qed.
Lemma sixteen_size : bpow radix2 (-900) <= 16 <= bpow radix2 998.
Proof. replace 16 with (bpow radix2 4) by (cbv; lra). split; apply bpow_le; lia. Qed.
Example bulge_box : let r := bounding_box (grid_candidates 50) bulge in 2 < B2R (bx1 r) < 5 /\ 7 < B2R (by1 r) < 9.
Proof.
  intros r. destruct (bounding_box_covers (grid_candidates 50) bulge 16 ltac:(discriminate) sixteen_size bulge_within) as (_ & _ & C). fold r in C.
  destruct (bounding_box_tight (grid_candidates 50) bulge 16 sixteen_size bulge_within) as (_ & T). destruct (T ltac:(discriminate)) as (_ & (s & Y & X & I & P & D) & _ & (s' & Y' & X' & I' & P' & D')). fold r in D, D'.
  specialize (C _ (candidates_accurate (2 * 16) ltac:(lra))).
  assert (K1 : 0 <= 96 * (2 * 16) * bpow radix2 (-50) <= / 1000). { split; [pose proof (bpow_ge_0 radix2 (-50)); lra|]. replace (bpow radix2 (-50)) with (/ 1125899906842624) by (cbv; lra). lra. }
  assert (K2 : 0 <= bpow radix2 (-46) * 16 <= / 1000). { replace (bpow radix2 (-46)) with (/ 70368744177664) by (cbv; lra). lra. }
  assert (V : forall n, In n [0; 1; 2; 3; 4; 8]%Z -> B2R (f64_of_Z n) = IZR n). { intros n J. repeat (destruct J as [<-|J]; [cbv; lra|]). contradiction. }
  assert (Q : forall s Y X, In s bulge -> point_of s Y X -> Y <= 8 /\ X <= 4).
  { clear - V. intros s Y X [<-|[<-|[]]].
    - intros (t & T & -> & ->). cbn [py px]. rewrite !V by (cbn; tauto). lra.
    - intros (t & T & <- & <-). unfold cy, cx, real_curve, real_point. cbn [q0 q1 q2 q3 rx ry cb0 cb1 cb2 cb3 py px]. rewrite !V by (cbn; tauto).
      split; (apply (CubicProofs2.bern3_range _ _ _ _ t (-100) _ T); lra). }
  destruct (C _ (B2R (f64_of_Z 8)) (B2R (f64_of_Z 1)) (or_introl eq_refl)) as (_ & C1). { exists 1. cbn [py px]. rewrite !V by (cbn; tauto). lra. }
  destruct (C _ (3 / 2) 3 (or_intror (or_introl eq_refl))) as (C2 & _). { exists (1 / 2). unfold cy, cx, bern3, real_curve, real_point. cbn [q0 q1 q2 q3 rx ry cb0 cb1 cb2 cb3 py px]. rewrite !V by (cbn; tauto). split; [lra|]. split; field. }
  rewrite !V in C1 by (cbn; tauto). apply abs_le in D, D'. destruct (Q _ _ _ I P), (Q _ _ _ I' P'). lra.
Qed.
