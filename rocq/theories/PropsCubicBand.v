(** C84: the bands of curves contain the computed positions, in floating-point arithmetic. *)
From Coq Require Import ZArith Bool Lia Reals Lra List.
From Flocq Require Import Core BinarySingleNaN.
From Verif Require Import F64 F64Arith CurveOrderProofs TreeVecModel GeomModel SegmentsModel SweepModel SweepSpec SweepProofs2 RangeModel RangeSpec MergeSpec PosModel CompareModel CompareArith LineModel LineSpec LineProofs LineProofs2 ExactModel ExactSpec
  CubicModel CubicSpec CubicProofs CubicProofs2 CubicProofs3 CubicProofs4 CubicProofs5 CubicProofs6 CubicGrid MixExample PropsCubic.
Import ListNotations.
Local Open Scope R_scope.

Lemma pow_44 M : bpow radix2 (-44) * M = 512 * u * M.
Proof. pose proof (pow_u 9 M) as E. change (-53 + 9)%Z with (-44)%Z in E. rewrite E. replace (bpow radix2 9) with 512 by (cbv; lra). ring. Qed.

(** C84 (one curve).  The band of a rising curve at height [y] contains the computed positions at all heights of the curve that are closer to [y] than the tolerance, by twice the accuracy of the root finder and 2^-44 of the size. *)
Theorem curve_band_covers : forall roots_between poly_eval candidates p0 p1 p2 p3 M y Y eps acc_roots acc_extremes, let c := mkCubic p0 p1 p2 p3 in let s := SCubic p0 p1 p2 p3 in
  curve_within M c -> usual_size M -> rises (real_curve c) ->
  looks_inside roots_between -> 0 <= acc_roots -> finds_crossings roots_between M acc_roots -> 0 <= acc_extremes -> finds_extremes candidates (2 * M) acc_extremes ->
  fin eps = true -> acc_extremes + bpow radix2 (-44) * M <= B2R eps <= M ->
  fle (py p0) y = true -> fle y (py p3) = true -> fle (py p0) Y = true -> fle Y (py p3) = true -> Rabs (B2R Y - B2R y) <= B2R eps - (2 * acc_roots + bpow radix2 (-44) * M) ->
  fle (lower (seg_solve_x roots_between poly_eval) (seg_extent roots_between poly_eval candidates) s y eps) (at_y (seg_solve_x roots_between poly_eval) s Y) = true /\
  fle (at_y (seg_solve_x roots_between poly_eval) s Y) (upper (seg_solve_x roots_between poly_eval) (seg_extent roots_between poly_eval candidates) s y eps) = true.
Proof.
  intros rb pe cands p0 p1 p2 p3 M y Y eps acc acc2 c s CW MV RI LI A1 FC A2 FX FE (E1 & E2) L0 L1 Y0 Y1 NY. rewrite pow_44 in E1, NY.
  assert (M0 : 0 <= M) by apply (M_nonneg c M CW). pose proof u_pos as UP. assert (UM : 0 <= u * M) by (apply Rmult_le_pos; lra).
  assert (D : flt (py p0) (py p3) = true) by (apply flt_R; [apply CW|apply CW|apply RI]).
  apply (curve_inside rb pe cands LI p0 p1 p2 p3 M CW MV D eps FE ltac:(lra) acc acc2 A1 FC FX RI y L0 L1 Y Y0 Y1 NY E1).
Qed.
Print Assumptions curve_band_covers.

(** C84 (contract).  So everything the theorems about the sweep and the topology assume of positions holds for lines and rising curves of usual size, if the tolerance is larger than twice the accuracy of the root finder, and that of the extremal points, by 2^-44 of the size. *)
Theorem mixed_positions_sound : forall a M eps roots_between poly_eval candidates acc_roots acc_extremes, sweepable a -> usual_size M -> (forall s, In s (segs a) -> segment_within M s) ->
  (forall p0 p1 p2 p3, In (SCubic p0 p1 p2 p3) (segs a) -> flt (py p0) (py p3) = true -> rises (real_curve (mkCubic p0 p1 p2 p3))) ->
  looks_inside roots_between -> 0 <= acc_roots -> finds_crossings roots_between M acc_roots -> 0 <= acc_extremes -> finds_extremes candidates (2 * M) acc_extremes ->
  fin eps = true -> B2R eps <= M -> 2 * acc_roots + bpow radix2 (-44) * M <= B2R eps -> acc_extremes + bpow radix2 (-44) * M <= B2R eps ->
  let at_y := at_y (seg_solve_x roots_between poly_eval) in
  let lower := lower (seg_solve_x roots_between poly_eval) (seg_extent roots_between poly_eval candidates) in
  let upper := upper (seg_solve_x roots_between poly_eval) (seg_extent roots_between poly_eval candidates) in
  positions_sound a eps lower upper at_y /\ starts_in_box a eps lower upper.
Proof.
  intros a M eps rb pe cands acc acc2 SW MV ST RI LI A1 FC A2 FX FE E1 E2 E3 at_y lower upper.
  assert (M0 : 0 <= M) by (destruct MV as (B & _); apply Rle_trans with (2 := B); apply bpow_ge_0). pose proof u_pos as UP. assert (UM : 0 <= u * M) by (apply Rmult_le_pos; lra).
  assert (E51 : bpow radix2 (-51) * M <= B2R eps). { apply Rle_trans with (bpow radix2 (-44) * M); [apply Rmult_le_compat_r; [exact M0|apply bpow_le; lia]|lra]. }
  destruct (mixed_positions a M eps rb pe cands SW MV ST LI FE ltac:(lra)) as (_ & SB & MEET). split; [split|exact SB]; [|exact MEET].
  intros y i N (R & SL & K). pose proof (registered_lt _ SW _ R) as L. assert (IN : In (seg_def a i) (segs a)) by (unfold seg_def; apply nth_In; exact L).
  pose proof (ST _ IN) as WI. unfold in_band, band_lo, band_hi, slanted, start_y, end_y in *. assert (EP : 0 <= B2R eps <= M) by (rewrite pow_44 in E2; lra).
  destruct (seg_def a i) as [p0 p1|p0 p1 p2 p3]; cbn [seg_start seg_end segment_within] in *.
  - destruct WI as (W0 & W1). assert (N0 : nan (py p0) = false) by apply fin_nonnan, W0. assert (N1 : nan (py p1) = false) by apply fin_nonnan, W1.
    assert (L0 : fle (py p0) y = true) by (fk; zb; lia). assert (L1 : fle y (py p1) = true) by (fk; zb; lia).
    destruct (self_attained p0 p1 M W0 W1 (size_huge M MV) eps FE EP y L0 L1) as (K1 & K2 & K3 & K4).
    apply (box_contains p0 p1 M W0 W1 (size_huge M MV) SL eps FE EP _ _ y L0 L1 y K1 K2 K3 K4).
  - destruct WI as (W0 & W1 & W2 & W3). assert (N0 : nan (py p0) = false) by apply fin_nonnan, W0. assert (N1 : nan (py p3) = false) by apply fin_nonnan, W3.
    assert (L0 : fle (py p0) y = true) by (fk; zb; lia). assert (L1 : fle y (py p3) = true) by (fk; zb; lia).
    apply (curve_band_covers rb pe cands p0 p1 p2 p3 M y y eps acc acc2); try assumption.
    + repeat split; first [apply W0|apply W1|apply W2|apply W3].
    + apply RI; assumption.
    + split; assumption.
    + rewrite Rminus_diag_eq, Rabs_R0 by reflexivity. lra.
Qed.
Print Assumptions mixed_positions_sound.

(** ** Examples *)
(** Curves whose control points do not go back rise. *)
Lemma rising (c : rcubic) : ry (q0 c) <= ry (q1 c) -> ry (q1 c) <= ry (q2 c) -> ry (q2 c) <= ry (q3 c) -> ry (q0 c) < ry (q3 c) -> rises c.
Proof.
  intros A B C D. split; [|exact D]. intros s t S ST T. unfold cy.
  assert (E : forall r, bern3 (ry (q0 c)) (ry (q1 c)) (ry (q2 c)) (ry (q3 c)) r =
    ry (q0 c) + (ry (q1 c) - ry (q0 c)) * (1 - (1 - r) * (1 - r) * (1 - r)) + (ry (q2 c) - ry (q1 c)) * (r * r * (3 - 2 * r)) + (ry (q3 c) - ry (q2 c)) * (r * r * r)) by (intros r; unfold bern3; ring).
  rewrite !E.
  assert (X1 : (1 - t) * (1 - t) * (1 - t) <= (1 - s) * (1 - s) * (1 - s)). { apply Rmult_le_compat; [apply Rmult_le_pos; lra|lra|apply Rmult_le_compat; lra|lra]. }
  assert (X3 : s * s * s <= t * t * t). { apply Rmult_le_compat; [apply Rmult_le_pos; lra|lra|apply Rmult_le_compat; lra|lra]. }
  assert (X2 : s * s * (3 - 2 * s) <= t * t * (3 - 2 * t)).
  { apply Rminus_le. replace (s * s * (3 - 2 * s) - t * t * (3 - 2 * t)) with (- ((t - s) * (2 * (t * (1 - t)) + 2 * (s * (1 - s)) + t * (1 - s) + s * (1 - t)))) by ring.
    assert (0 <= t * (1 - t)) by (apply Rmult_le_pos; lra). assert (0 <= s * (1 - s)) by (apply Rmult_le_pos; lra). assert (0 <= s * (1 - t)) by (apply Rmult_le_pos; lra).
    assert (0 <= t * (1 - s)) by (apply Rmult_le_pos; lra). assert (0 <= (t - s) * (2 * (t * (1 - t)) + 2 * (s * (1 - s)) + t * (1 - s) + s * (1 - t))) by (apply Rmult_le_pos; lra). lra. }
  repeat apply Rplus_le_compat; [lra|apply Rmult_le_compat_l; lra..].
Qed.
Definition rising_b (s : segment) : bool :=
  match s with SLine _ _ => true | SCubic p0 p1 p2 p3 => fle (py p0) (py p1) && fle (py p1) (py p2) && fle (py p2) (py p3) end.
Lemma rising_b_ok m p0 p1 p2 p3 : fin m = true -> segment_b m (SCubic p0 p1 p2 p3) = true -> rising_b (SCubic p0 p1 p2 p3) = true -> flt (py p0) (py p3) = true -> rises (real_curve (mkCubic p0 p1 p2 p3)).
Proof.
  intros FM W. apply segment_b_ok in W; [|exact FM]. destruct W as ((_ & F0 & _) & (_ & F1 & _) & (_ & F2 & _) & (_ & F3 & _)). cbn [rising_b]. rewrite !andb_true_iff. intros ((A & B) & C) D.
  apply fle_R in A; [|assumption..]. apply fle_R in B; [|assumption..]. apply fle_R in C; [|assumption..]. apply flt_R in D; [|assumption..]. apply rising; assumption.
Qed.
(** A line and a curve ([td_paths]), with accurate root finders: everything that is assumed of positions holds. *)
Example line_and_curve_sound : forall poly_eval, let rb := grid_roots 50 (96 * 16 * bpow radix2 (-50)) in let a := mx_arena (td_paths 0) in
  positions_sound a (f64_of_Z 2) (lower (seg_solve_x rb poly_eval) (seg_extent rb poly_eval (grid_candidates 50))) (upper (seg_solve_x rb poly_eval) (seg_extent rb poly_eval (grid_candidates 50))) (at_y (seg_solve_x rb poly_eval)) /\
  existsb (fun s => match s with SCubic p0 _ _ p3 => flt (py p0) (py p3) | _ => false end) (segs a) = true.
Proof.
  intros pe rb a. destruct (contracts_met 16 ltac:(lra)) as (LI & FC & _). destruct (contracts_met (2 * 16) ltac:(lra)) as (_ & _ & FX).
  destruct (mx_sound (f64_of_Z 2) (td_paths 0) (td_cmp 0)) as (_ & _ & _ & _ & _ & SW).
  { intros p. apply td_exact. vm_compute. reflexivity. }
  { exact td_ok. }
  assert (B : forallb (fun s => segment_b sixteen s && rising_b s) (segs a) = true) by (vm_compute; reflexivity). rewrite forallb_forall in B.
  assert (P0 : 0 <= bpow radix2 (-50)) by apply bpow_ge_0.
  assert (P1 : 100000 * bpow radix2 (-50) <= 1). { apply Rle_trans with (bpow radix2 17 * bpow radix2 (-50)); [apply Rmult_le_compat_r; [exact P0|cbv; lra]|]. rewrite <- bpow_plus. change 1 with (bpow radix2 0). apply bpow_le. lia. }
  assert (P2 : bpow radix2 (-44) * 16 = 1024 * bpow radix2 (-50)). { change (-44)%Z with (6 + -50)%Z. rewrite bpow_plus. replace (bpow radix2 6) with 64 by (cbv; lra). ring. }
  split; [|vm_compute; reflexivity].
  assert (E2 : B2R (f64_of_Z 2) = 2) by (change (f64_of_Z 2) with F64Arith.ftwo; apply ftwo_R).
  refine (proj1 (mixed_positions_sound a 16 (f64_of_Z 2) rb pe (grid_candidates 50) (96 * 16 * bpow radix2 (-50)) (96 * (2 * 16) * bpow radix2 (-50)) SW usual_sixteen _ _ LI _ FC _ FX _ _ _ _)); rewrite ?E2; try lra.
  - intros s I. rewrite <- sixteen_R. apply segment_b_ok; [reflexivity|]. specialize (B s I). apply andb_true_iff in B. apply B.
  - intros p0 p1 p2 p3 I. specialize (B _ I). apply andb_true_iff in B. apply (rising_b_ok sixteen); [reflexivity|apply B|apply B].
  - reflexivity.
Qed.
