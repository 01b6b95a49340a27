(** C81, C82: positions and bands of cubic curves, in floating-point arithmetic. *)
From Coq Require Import ZArith Bool Lia Reals Lra List.
From Flocq Require Import Core BinarySingleNaN.
From Verif Require Import F64 F64Arith CurveOrderProofs TreeVecModel GeomModel SegmentsModel SweepModel SweepSpec SweepProofs2 RangeModel RangeSpec MergeSpec PosModel CompareModel CompareArith LineModel LineSpec LineProofs LineProofs2 ExactModel ExactSpec
  CubicModel CubicSpec CubicProofs CubicProofs2 CubicProofs3 CubicProofs4 CubicProofs5 CubicGrid MixExample.
Import ListNotations.
Local Open Scope R_scope.

Lemma pow_u k M : bpow radix2 (-53 + k) * M = bpow radix2 k * (u * M).
Proof. rewrite bpow_plus. unfold u. ring. Qed.

(** C81.  At every height of a curve that goes down, [solve_x_for_y] answers a finite position; it is the start at the start and the end at the end; up to 2^-47 of
    the size of the coordinates it is within the extent of the control points, and the position of a point of the curve; the height of this point is the height
    asked for, up to 2^-46 of the size and the accuracy of the root finder.  With debug assertions it can at most fail the one about the signs. *)
Theorem cubic_positions : forall roots_between poly_eval c M y, curve_within M c -> usual_size M -> looks_inside roots_between ->
  flt (py (cb0 c)) (py (cb3 c)) = true -> fle (py (cb0 c)) y = true -> fle y (py (cb3 c)) = true ->
  exists x, solve_x_for_y roots_between poly_eval false c y = Ok x /\ fin x = true /\
  (forall dbg, solve_x_for_y roots_between poly_eval dbg c y = Ok x \/ dbg = true /\ solve_x_for_y roots_between poly_eval dbg c y = Err EAssert) /\
  (feq y (py (cb0 c)) = true -> feq x (px (cb0 c)) = true) /\ (feq y (py (cb3 c)) = true -> feq x (px (cb3 c)) = true) /\
  (forall l h, (forall p, In p [cb0 c; cb1 c; cb2 c; cb3 c] -> l <= B2R (px p) <= h) -> l - bpow radix2 (-47) * M <= B2R x <= h + bpow radix2 (-47) * M) /\
  (forall acc, 0 <= acc -> finds_crossings roots_between M acc ->
     exists Y X, passes (real_curve c) Y X /\ Rabs (B2R x - X) <= bpow radix2 (-47) * M /\ Rabs (B2R y - Y) <= acc + bpow radix2 (-46) * M).
Proof.
  intros rb pe c M y CW MV LI DOWN L0 L1. destruct (solve_cases c M CW MV y L0 L1 DOWN rb pe LI) as (t & E & U & D & Z & O & _).
  destruct (eval_val c M CW MV t U) as ((F & _ & EX & _) & _). pose proof (tau_M M MV) as TM. pose proof (M_nonneg c M CW) as M0. pose proof u_pos as UP.
  assert (B47 : bpow radix2 (-47) * M = 64 * (u * M)) by apply (pow_u 6 M). assert (B46 : bpow radix2 (-46) * M = 128 * (u * M)) by apply (pow_u 7 M). assert (0 <= u * M) by (apply Rmult_le_pos; lra).
  exists (px (eval_cubic c t)). split; [unfold solve_x_for_y; rewrite E; reflexivity|]. split; [exact F|]. split; [|split; [|split; [|split]]].
  - intros dbg. unfold solve_x_for_y. destruct (D dbg) as [-> | (-> & ->)]; [left|right; split]; reflexivity.
  - intros H'. rewrite (Z H'). destruct (eval_start c M CW MV) as (G & V). apply feq_R; [exact G|apply CW|exact V].
  - intros H'. rewrite (O H'). destruct (eval_end c M CW) as (G & V). apply feq_R; [exact G|apply CW|exact V].
  - intros l h B. assert (R : l <= cx (real_curve c) (B2R t) <= h). { apply bern3_range; [apply U|apply (B (cb0 c))|apply (B (cb1 c))|apply (B (cb2 c))|apply (B (cb3 c))]; cbn; auto. }
    apply abs_le in EX. lra.
  - intros acc AP FC. exists (cy (real_curve c) (B2R t)), (cx (real_curve c) (B2R t)). split; [exists (B2R t); split; [apply U|auto]|]. split; [apply Rle_trans with (1 := EX); lra|].
    pose proof (solve_height c M CW MV y L0 L1 DOWN rb pe LI acc t FC AP E) as H'. rewrite Rabs_minus_sym. lra.
Qed.
Print Assumptions cubic_positions.

(** C82.  The heights between which the extent of a curve is taken for its band are heights of the curve, at most [eps] from the height asked for; between the points of the curve that are found at these heights, at the parameters [ta] and [tb],
    the lower end is a position of the curve minus [eps], and the upper end one plus [eps], up to 2^-45 of the size of the coordinates; the band contains, in floating point, the positions at these heights;
    and up to the accuracy of the extremal points it contains all positions between them, and [eps] more. *)
Theorem cubic_bands : forall roots_between poly_eval candidates p0 p1 p2 p3 M y eps, let c := mkCubic p0 p1 p2 p3 in let s := SCubic p0 p1 p2 p3 in
  curve_within M c -> usual_size M -> looks_inside roots_between -> flt (py p0) (py p3) = true -> fin eps = true -> 0 <= B2R eps <= M -> fle (py p0) y = true -> fle y (py p3) = true ->
  let at_y := at_y (seg_solve_x roots_between poly_eval) s in
  let lo := lower (seg_solve_x roots_between poly_eval) (seg_extent roots_between poly_eval candidates) s y eps in
  let hi := upper (seg_solve_x roots_between poly_eval) (seg_extent roots_between poly_eval candidates) s y eps in
  let fuzz := bpow radix2 (-45) * M in
  exists a b ta tb, near_height p0 p3 y eps a /\ near_height p0 p3 y eps b /\ fle a y = true /\ fle y b = true /\
    solve_t roots_between poly_eval false c a = Ok ta /\ solve_t roots_between poly_eval false c b = Ok tb /\ in_unit ta /\ in_unit tb /\
    fin lo = true /\ fin hi = true /\
    (fle lo (at_y a) = true /\ fle (at_y a) hi = true) /\ (fle lo (at_y b) = true /\ fle (at_y b) hi = true) /\
    let x_at r := cx (real_curve c) (B2R ta + r * (B2R tb - B2R ta)) in
    (exists r, 0 <= r <= 1 /\ Rabs (B2R lo - (x_at r - B2R eps)) <= fuzz) /\
    (exists r, 0 <= r <= 1 /\ Rabs (B2R hi - (x_at r + B2R eps)) <= fuzz) /\
    (forall acc, finds_extremes candidates (2 * M) acc -> forall r, 0 <= r <= 1 ->
       B2R lo <= x_at r - B2R eps + acc + fuzz /\ x_at r + B2R eps - acc - fuzz <= B2R hi).
Proof.
  intros rb pe cands p0 p1 p2 p3 M y eps c s CW MV LI DOWN FE EP L0 L1 at_y lo hi fuzz.
  destruct (band_val rb pe cands LI p0 p1 p2 p3 M CW MV DOWN eps FE EP y L0 L1) as (a & b & ta & tb & W & A0 & A1 & B0 & B1 & N1 & N2 & Ea & Eb & Ua & Ub & _ & _ & Xa & Xb & FL & FH & _ & _ & EL & EH).
  fold c in CW. fold c in Ea. fold c in Eb. fold s in EL, EH, FL, FH. fold lo in FL, EL. fold hi in FH, EH.
  destruct (ends_in_band rb pe cands LI p0 p1 p2 p3 M CW MV DOWN eps FE EP y L0 L1 a b W) as (IA & IB).
  pose proof (tau_M M MV) as TM. pose proof (M_nonneg c M CW) as M0. pose proof u_pos as UP. assert (F45 : fuzz = 256 * (u * M)) by apply (pow_u 8 M). assert (0 <= u * M) by (apply Rmult_le_pos; lra).
  assert (F0 : fin (py p0) = true) by apply CW. assert (F3 : fin (py p3) = true) by apply CW. assert (FY : fin y = true) by (apply (fin_mid (py p0) y (py p3)); assumption).
  assert (T : forall x z w, fle x z = true -> fle z w = true -> fle x w = true). { intros x z w H1 H2. destruct (fle_nonnan _ _ H1), (fle_nonnan _ _ H2). fk. zb. lia. }
  assert (ENDS : fle y (fadd y eps) = true /\ fle (fsub y eps) y = true).
  { destruct CW as (W0 & _ & _ & W3). destruct (ends_R p0 p3 M W0 W3 (size_huge M MV) eps FE EP y L0 L1) as (G1 & G2 & _ & _ & K1 & K2). split; (apply fle_R; assumption). }
  exists a, b, ta, tb. split; [split; [exact A0|]; split; [apply (T _ _ _ A1 L1)|]; split; [exact N1|apply (T _ _ _ A1), ENDS]|].
  split; [split; [apply (T _ _ _ L0 B0)|]; split; [exact B1|]; split; [apply (T _ y), B0; apply ENDS|exact N2]|].
  split; [exact A1|]. split; [exact B0|]. split; [exact Ea|]. split; [exact Eb|]. split; [exact Ua|]. split; [exact Ub|]. split; [exact FL|]. split; [exact FH|]. split; [exact IA|]. split; [exact IB|].
  intros x_at. destruct (box_val c M CW MV ta tb Ua Ub cands) as (_ & _ & (r1 & R1 & V1) & (r2 & R2 & V2) & _). cbv zeta in EL, EH. fold c in EL, EH. set (r := box_x cands (subseg c ta tb)) in EL, EH, V1, V2. unfold along in V1, V2.
  split; [|split].
  - exists r1. split; [exact R1|]. unfold x_at. apply abs_le in EL, V1. apply abs_le. lra.
  - exists r2. split; [exact R2|]. unfold x_at. apply abs_le in EH, V2. apply abs_le. lra.
  - intros acc FX q Q. destruct (box_covers c M CW MV ta tb Ua Ub cands acc q FX Q) as (K1 & K2). fold r in K1, K2. unfold along in K1, K2. unfold x_at. apply abs_le in EL, EH. split; lra.
Qed.
Print Assumptions cubic_bands.

(** C82 (contracts).  What the theorems about the topology assume of positions -- numbers -- holds for the modelled functions, for every input of usual size: all that has to be assumed is that the root finder returns roots that are where it was told to look.
    Also, a segment starts in its band, and in the band of the segment that ends there. *)
Theorem mixed_positions : forall a M eps roots_between poly_eval candidates, sweepable a -> usual_size M -> (forall s, In s (segs a) -> segment_within M s) ->
  looks_inside roots_between -> fin eps = true -> bpow radix2 (-51) * M <= B2R eps <= M ->
  let at_y := at_y (seg_solve_x roots_between poly_eval) in
  let lower := lower (seg_solve_x roots_between poly_eval) (seg_extent roots_between poly_eval candidates) in
  let upper := upper (seg_solve_x roots_between poly_eval) (seg_extent roots_between poly_eval candidates) in
  positions_numbers a eps lower upper at_y /\ starts_in_box a eps lower upper /\
  (forall y i p, live a y i -> live a y p -> sweep_prev a i = Ok (Some p) -> feq (start_y a i) y = true -> feq (end_y a p) y = true ->
     in_band a eps lower upper y p (at_y (seg_def a i) y)).
Proof.
  intros a M eps rb pe cands SW MV ST LI FE EP at_y lower upper.
  assert (MP : 0 <= M) by (destruct MV as (B & _); apply Rle_trans with (2 := B); apply bpow_ge_0).
  assert (EP2 : 0 <= B2R eps <= M). { split; [|apply EP]. apply Rle_trans with (2 := proj1 EP). apply Rmult_le_pos; [apply bpow_ge_0|exact MP]. }
  assert (EP4 : 4 * u * M <= B2R eps). { replace (4 * u * M) with (bpow radix2 (-51) * M); [apply EP|]. unfold u. replace 4 with (bpow radix2 2) by (simpl; lra). rewrite <- bpow_plus. reflexivity. }
  assert (IN : forall i, registered a i -> segment_within M (seg_def a i)).
  { intros i R. apply ST. unfold seg_def. apply nth_In. apply (registered_lt _ SW _ R). }
  (** One segment. *)
  assert (SEG : forall s y, segment_within M s -> flt (py (seg_start s)) (py (seg_end s)) = true -> fle (py (seg_start s)) y = true -> fle y (py (seg_end s)) = true ->
    fin (at_y s y) = true /\ fin (lower s y eps) = true /\ fin (upper s y eps) = true /\
    (feq (py (seg_start s)) y = true -> B2R (at_y s y) = B2R (px (seg_start s)) /\ fle (lower s y eps) (px (seg_start s)) = true /\ fle (px (seg_start s)) (upper s y eps) = true) /\
    (feq (py (seg_end s)) y = true -> fle (lower s y eps) (px (seg_end s)) = true /\ fle (px (seg_end s)) (upper s y eps) = true)).
  { intros [p0 p1|p0 p1 p2 p3] y W D L0 L1; cbn [seg_start seg_end segment_within] in *.
    - destruct W as (W0 & W1). assert (MH := size_huge M MV).
      destruct (at_R p0 p1 M W0 W1 MH D (seg_solve_x rb pe) y L0 L1) as (F & _). destruct (box_R p0 p1 M W0 W1 MH D eps FE EP2 (seg_solve_x rb pe) (seg_extent rb pe cands) y L0 L1) as (F1 & _ & F2 & _).
      split; [exact F|]. split; [exact F1|]. split; [exact F2|]. split.
      + intros E. destruct (at_start p0 p1 M W0 W1 MH D (seg_solve_x rb pe) y E) as (_ & V). split; [exact V|]. apply (start_in p0 p1 M W0 W1 MH D eps FE EP2 _ _ y E).
      + intros E. apply (end_in p0 p1 M W0 W1 MH D eps FE EP2 _ _ y EP4 E).
    - destruct (solve_ok rb pe LI p0 p1 p2 p3 M W MV D y L0 L1) as (t & _ & U & X & _). destruct (eval_val (mkCubic p0 p1 p2 p3) M W MV t U) as ((F & _) & _).
      destruct (band_val rb pe cands LI p0 p1 p2 p3 M W MV D eps FE EP2 y L0 L1) as (x1 & x2 & x3 & x4 & _ & _ & _ & _ & _ & _ & _ & _ & _ & _ & _ & _ & _ & _ & _ & F1 & F2 & _).
      split; [unfold at_y; rewrite X; exact F|]. split; [exact F1|]. split; [exact F2|].
      assert (SYM : forall x z, feq x z = true -> feq z x = true). { intros x z H. destruct (feq_nonnan _ _ H). fk. zb. lia. }
      split; intros E; apply SYM in E.
      + apply (curve_start rb pe cands LI p0 p1 p2 p3 M W MV D eps FE EP2 y L0 L1 E).
      + apply (curve_end rb pe cands LI p0 p1 p2 p3 M W MV D eps FE EP2 y L0 L1 E). }
  assert (FINS : forall i, registered a i -> fin (start_y a i) = true /\ fin (end_y a i) = true /\ fin (px (seg_start (seg_def a i))) = true /\ fin (px (seg_end (seg_def a i))) = true).
  { intros i R. specialize (IN i R). unfold start_y, end_y. destruct (seg_def a i); cbn [seg_start seg_end segment_within] in *; unfold within in IN; tauto. }
  assert (LIVE : forall y i, nan y = false -> live a y i -> fle (start_y a i) y = true /\ fle y (end_y a i) = true).
  { intros y i N (R & _ & K). destruct (FINS i R) as (F1 & F2 & _). apply fin_nonnan in F1, F2. split; fk; zb; lia. }
  split; [|split].
  - intros y i N LV. pose proof LV as (R & SL & _). destruct (LIVE y i N LV) as (L0 & L1). destruct (SEG _ y (IN i R) SL L0 L1) as (F & F1 & F2 & _). repeat split; apply fin_nonnan; assumption.
  - intros i y R SL E. destruct (FINS i R) as (G1 & G2 & G3 & _). destruct (feq_nonnan _ _ E) as (N1 & N2). apply fin_nonnan in G2 as N3.
    assert (L0 : fle (start_y a i) y = true) by (fk; zb; lia). assert (L1 : fle y (end_y a i) = true). { unfold slanted in SL. fk. zb. lia. }
    destruct (SEG _ y (IN i R) SL L0 L1) as (_ & F1 & F2 & ST' & _). destruct (ST' E) as (_ & B1 & B2).
    assert (EZ : fle fzero eps = true) by (apply fle_R; [reflexivity|exact FE|]; change (B2R fzero) with 0; lra).
    assert (TR : forall x z w, fle x z = true -> fle z w = true -> fle x w = true). { intros x z w H1 H2. destruct (fle_nonnan _ _ H1), (fle_nonnan _ _ H2). fk. zb. lia. }
    split.
    + apply TR with (2 := B1). destruct (fsub_le (lower (seg_def a i) y eps) eps) as (K1 & K2); [apply fin_nonnan; exact F1|exact FE|exact EZ|]. apply fin_nonnan in F1. fk. zb. lia.
    + apply TR with (1 := B2). destruct (fadd_ge (upper (seg_def a i) y eps) eps) as (K1 & K2); [apply fin_nonnan; exact F2|exact FE|exact EZ|]. apply fin_nonnan in F2. fk. zb. lia.
  - intros y i p LI' LP SP E1 E2. destruct (feq_nonnan _ _ E1) as (N1 & N). pose proof LI' as (R & SL & _). pose proof LP as (Rp & SLp & _).
    destruct (LIVE y i N LI') as (L0 & L1). destruct (LIVE y p N LP) as (P0 & P1). destruct (SEG _ y (IN i R) SL L0 L1) as (F & _ & _ & ST' & _). destruct (ST' E1) as (V & _).
    destruct (SEG _ y (IN p Rp) SLp P0 P1) as (_ & F1 & F2 & _ & EN). destruct (EN E2) as (B1 & B2).
    destruct (sp_links _ SW i R) as (o & SP' & LK). rewrite SP in SP'. injection SP' as <-. destruct (LK p eq_refl) as (_ & MEET).
    destruct (feq_nonnan _ _ E2) as (Nq & _). unfold slanted in SLp, SL. destruct (flt_nonnan _ _ SLp) as (Nr & _). unfold start_y, end_y in *. specialize (MEET ltac:(fk; zb; lia)). unfold point_eq in MEET. apply andb_true_iff in MEET as (_ & MEET).
    destruct (FINS i R) as (_ & _ & FX & _). destruct (FINS p Rp) as (_ & _ & _ & FQ).
    apply feq_R in MEET; [|assumption..]. unfold in_band, band_lo, band_hi. fold lower upper. apply fle_R in B1; [|assumption..]. apply fle_R in B2; [|assumption..].
    split; (apply fle_R; [assumption..|]); rewrite V; lra.
Qed.
Print Assumptions mixed_positions.

(** C83.  The part of a curve between two heights: it is found (up to the assertion about signs), its ends have exactly these heights and the positions that [solve_x_for_y] answers there,
    its control points are finite and at most twice as large, and each of its points is horizontally within 2^-45 of the size of the coordinates of the corresponding point of the curve -- and vertically, but for the accuracy of the root finder. *)
Theorem cubic_parts : forall roots_between poly_eval c M a b, curve_within M c -> usual_size M -> looks_inside roots_between ->
  flt (py (cb0 c)) (py (cb3 c)) = true -> fle (py (cb0 c)) a = true -> flt a b = true -> fle b (py (cb3 c)) = true ->
  exists s ta tb, solve_t roots_between poly_eval false c a = Ok ta /\ solve_t roots_between poly_eval false c b = Ok tb /\ in_unit ta /\ in_unit tb /\
  (forall dbg, y_subsegment roots_between poly_eval dbg c a b = Ok s \/ dbg = true /\ y_subsegment roots_between poly_eval dbg c a b = Err EAssert) /\
  py (cb0 s) = a /\ py (cb3 s) = b /\
  solve_x_for_y roots_between poly_eval false c a = Ok (px (cb0 s)) /\ solve_x_for_y roots_between poly_eval false c b = Ok (px (cb3 s)) /\
  curve_within (2 * M) s /\
  let whole r := B2R ta + r * (B2R tb - B2R ta) in
  forall r, 0 <= r <= 1 ->
    Rabs (cx (real_curve s) r - cx (real_curve c) (whole r)) <= bpow radix2 (-45) * M /\
    (forall acc, 0 <= acc -> finds_crossings roots_between M acc -> Rabs (cy (real_curve s) r - cy (real_curve c) (whole r)) <= acc + bpow radix2 (-45) * M).
Proof.
  intros rb pe c M a b CW MV LI DOWN A0 AB B3.
  assert (FLE : fle a b = true). { destruct (flt_nonnan _ _ AB). fk. zb. lia. }
  assert (TR : forall x y z, fle x y = true -> fle y z = true -> fle x z = true). { intros x y z H1 H2. destruct (fle_nonnan _ _ H1), (fle_nonnan _ _ H2). fk. zb. lia. }
  assert (A3 : fle a (py (cb3 c)) = true) by (apply (TR _ b); assumption). assert (B0 : fle (py (cb0 c)) b = true) by (apply (TR _ a); assumption).
  destruct (solve_cases c M CW MV a A0 A3 DOWN rb pe LI) as (ta & Ea & Ua & Da & _). destruct (solve_cases c M CW MV b B0 B3 DOWN rb pe LI) as (tb & Eb & Ub & Db & _).
  pose proof (tau_M M MV) as TM. pose proof (M_nonneg c M CW) as M0. pose proof u_pos as UP. assert (B45 : bpow radix2 (-45) * M = 256 * (u * M)) by apply (pow_u 8 M). assert (0 <= u * M) by (apply Rmult_le_pos; lra).
  destruct (tau_pos M M0) as (TP & _).
  assert (F0 : fin (py (cb0 c)) = true) by apply CW. assert (F3 : fin (py (cb3 c)) = true) by apply CW.
  assert (FA : fin a = true) by (apply (fin_mid (py (cb0 c)) a (py (cb3 c))); assumption). assert (FB : fin b = true) by (apply (fin_mid (py (cb0 c)) b (py (cb3 c))); assumption).
  exists (set_ends (subseg c ta tb) a b), ta, tb. split; [exact Ea|]. split; [exact Eb|]. split; [exact Ua|]. split; [exact Ub|]. split.
  { intros dbg. unfold y_subsegment. rewrite AB, A0, B3. rewrite andb_false_r. destruct (Da dbg) as [-> | (-> & ->)]; [|right; split; reflexivity]. cbv beta iota. destruct (Db dbg) as [-> | (-> & ->)]; [left|right; split]; reflexivity. }
  split; [reflexivity|]. split; [reflexivity|]. split; [unfold solve_x_for_y; rewrite Ea; reflexivity|]. split; [unfold solve_x_for_y; rewrite Eb; reflexivity|]. split.
  { destruct (sub_within c M CW MV ta tb Ua Ub) as ((X0 & _ & X0' & _) & W1 & W2 & (X3 & _ & X3' & _)). destruct CW as ((_ & _ & _ & Y0) & _ & _ & (_ & _ & _ & Y3)).
    apply fle_R in A0, A3, B0, B3; try assumption. apply abs_le in Y0, Y3.
    split; [|split; [exact W1|split; [exact W2|]]]; (split; [assumption|]; split; [assumption|]; split; [assumption|]; cbn [set_ends cb0 cb3 py]; apply abs_le; lra). }
  intros whole r RR. split.
  - apply Rle_trans with (124 * tau M); [|lra]. exact (sub_near c M CW MV ta tb Ua Ub r RR).
  - intros acc AP FC. pose proof (solve_height c M CW MV a A0 A3 DOWN rb pe LI acc ta FC AP Ea) as HA. pose proof (solve_height c M CW MV b B0 B3 DOWN rb pe LI acc tb FC AP Eb) as HB.
    destruct (sub_y c M CW MV ta tb Ua Ub) as (_ & (_ & _ & S1 & _) & (_ & _ & S2 & _) & _).
    assert (WH : cy (real_curve c) (whole r) = cy (subsegment (real_curve c) (B2R ta) (B2R tb)) r).
    { unfold whole, cy, subsegment, cubic_at, deriv_at. cbn [q0 q1 q2 q3 rx ry]. unfold cx, cy, deriv0, deriv1, deriv2, rtriple, rdiff, bern3, bern2. cbn [rx ry]. field. }
    rewrite WH. unfold cy. set (rs := subsegment (real_curve c) (B2R ta) (B2R tb)) in *. cbn [set_ends real_curve real_point cb0 cb1 cb2 cb3 py q0 q1 q2 q3 ry].
    match goal with |- Rabs (bern3 ?p ?q ?v ?w ?t - bern3 ?p' ?q' ?v' ?w' ?t) <= _ => replace (bern3 p q v w t - bern3 p' q' v' w' t) with (bern3 (p - p') (q - q') (v - v') (w - w') t) by (unfold bern3; ring) end.
    apply bern3_abs; [exact RR| | | |].
    + rewrite Rabs_minus_sym. apply Rle_trans with (1 := HA). lra.
    + apply Rle_trans with (1 := S1). lra.
    + apply Rle_trans with (1 := S2). lra.
    + rewrite Rabs_minus_sym. apply Rle_trans with (1 := HB). lra.
Qed.
Print Assumptions cubic_parts.

(** ** Examples *)
Definition within_b (m : f64) (p : point) : bool := fin (px p) && fin (py p) && fle (fneg m) (px p) && fle (px p) m && fle (fneg m) (py p) && fle (py p) m.
Definition segment_b (m : f64) (s : segment) : bool :=
  match s with SLine p0 p1 => within_b m p0 && within_b m p1 | SCubic p0 p1 p2 p3 => within_b m p0 && within_b m p1 && within_b m p2 && within_b m p3 end.
Lemma within_b_ok m p : fin m = true -> within_b m p = true -> within (B2R m) p.
Proof.
  intros FM. unfold within_b. rewrite !andb_true_iff. intros (((((F1 & F2) & A) & B) & C) & D).
  assert (FN : fin (fneg m) = true) by (rewrite fin_fneg; exact FM).
  apply fle_R in A; [|assumption..]. apply fle_R in B; [|assumption..]. apply fle_R in C; [|assumption..]. apply fle_R in D; [|assumption..]. rewrite B2R_fneg in A, C.
  split; [exact F1|]. split; [exact F2|]. split; apply abs_le; lra.
Qed.
Lemma segment_b_ok m s : fin m = true -> segment_b m s = true -> segment_within (B2R m) s.
Proof. intros FM. destruct s; cbn [segment_b segment_within]; rewrite !andb_true_iff; intuition; apply within_b_ok; assumption. Qed.
Definition sixteen : f64 := f64_of_Z 16.
Lemma sixteen_R : B2R sixteen = 16.
Proof. cbv. lra. Qed.
Lemma usual_sixteen : usual_size 16.
Proof. unfold usual_size. replace 16 with (bpow radix2 4) by (cbv; lra). split; apply bpow_le; lia. Qed.
(** There is an accurate root finder, and an accurate way to find extremal points. *)
Example contracts_met : forall M, 0 <= M -> let acc := 96 * M * bpow radix2 (-50) in
  looks_inside (grid_roots 50 acc) /\ finds_crossings (grid_roots 50 acc) M acc /\ finds_extremes (grid_candidates 50) M acc.
Proof. intros M M0 acc. split; [apply grid_roots_inside; lia|]. split; [apply (grid_roots_accurate 50); [lia|exact M0]|apply (grid_candidates_accurate 50); [lia|exact M0]]. Qed.
(** The curve with the control points (0, 0), (3, 5), (-3, 6), (1, 16), at height 4. *)
Definition bent : cubic := mkCubic (mkPoint (f64_of_Z 0) (f64_of_Z 0)) (mkPoint (f64_of_Z 5) (f64_of_Z 3)) (mkPoint (f64_of_Z 6) (f64_of_Z (-3))) (mkPoint (f64_of_Z 16) (f64_of_Z 1)).
Lemma bent_within : curve_within 16 bent.
Proof.
  rewrite <- sixteen_R. apply (segment_b_ok sixteen (SCubic (cb0 bent) (cb1 bent) (cb2 bent) (cb3 bent)) eq_refl). vm_compute. reflexivity.
Qed.
Example bent_position : forall poly_eval, exists x Y X, solve_x_for_y (grid_roots 50 (96 * 16 * bpow radix2 (-50))) poly_eval false bent ffour = Ok x /\
  passes (real_curve bent) Y X /\ Rabs (B2R x - X) <= bpow radix2 (-43) /\ Rabs (4 - Y) <= bpow radix2 (-38).
Proof.
  intros pe. destruct (contracts_met 16 ltac:(lra)) as (LI & FC & _).
  destruct (cubic_positions _ pe bent 16 ffour bent_within usual_sixteen LI) as (x & E & _ & _ & _ & _ & _ & A); [vm_compute; reflexivity..|].
  assert (PK : 0 <= bpow radix2 (-50)) by apply bpow_ge_0.
  destruct (A (96 * 16 * bpow radix2 (-50)) ltac:(lra) FC) as (Y & X & P & D1 & D2). exists x, Y, X. split; [exact E|]. split; [exact P|].
  replace 16 with (bpow radix2 4) in D1 by (cbv; lra). rewrite <- bpow_plus in D1. split; [exact D1|]. change 4 with 4. replace 4 with (B2R ffour) by (cbv; lra). apply Rle_trans with (1 := D2).
  change (-46)%Z with (-50 + 4)%Z. change (-38)%Z with (-50 + 12)%Z. rewrite !bpow_plus. replace (bpow radix2 4) with 16 by (cbv; lra). replace (bpow radix2 12) with 4096 by (cbv; lra). lra.
Qed.
(** Its computed positions and bands, without a root finder that finds anything: at the ends they are right. *)
Example bent_ends : forall poly_eval, match solve_x_for_y (fun _ _ _ _ _ => []) poly_eval true bent sixteen with Ok x => feq x (f64_of_Z 1) | Err _ => false end = true.
Proof. intros. vm_compute. reflexivity. Qed.
(** With a root finder that says 1/2 (the curve has the height 49/8 there): the position, and the band for eps = 1, at the height 49/8. *)
Definition half_roots (k0 k1 k2 k3 e : f64) : list f64 := [fhalf].
Example bent_half : forall poly_eval, let y := fdiv (f64_of_Z 49) (f64_of_Z 8) in
  match solve_x_for_y half_roots poly_eval true bent y with Ok x => feq x (fdiv fone (f64_of_Z 8)) | Err _ => false end = true.
Proof. intros. vm_compute. reflexivity. Qed.
(** A line and a curve ([td_paths]): the contracts hold for the computed positions and bands. *)
Example line_and_curve : forall poly_eval candidates, let rb := grid_roots 50 (96 * 16 * bpow radix2 (-50)) in let a := mx_arena (td_paths 0) in
  let lo := lower (seg_solve_x rb poly_eval) (seg_extent rb poly_eval candidates) in let hi := upper (seg_solve_x rb poly_eval) (seg_extent rb poly_eval candidates) in
  positions_numbers a (f64_of_Z 2) lo hi (at_y (seg_solve_x rb poly_eval)) /\ starts_in_box a (f64_of_Z 2) lo hi /\
  existsb (fun s => match s with SCubic _ _ _ _ => true | _ => false end) (segs a) = true /\ existsb (fun s => match s with SLine _ _ => true | _ => false end) (segs a) = true.
Proof.
  intros pe cands rb a lo hi. destruct (contracts_met 16 ltac:(lra)) as (LI & _).
  destruct (mx_sound (f64_of_Z 2) (td_paths 0) (td_cmp 0)) as (_ & _ & _ & _ & _ & SW).
  { intros p. apply td_exact. vm_compute. reflexivity. }
  { exact td_ok. }
  destruct (mixed_positions a 16 (f64_of_Z 2) rb pe cands SW usual_sixteen) as (P & Q & _).
  - assert (B : forallb (segment_b sixteen) (segs a) = true) by (vm_compute; reflexivity). rewrite forallb_forall in B. intros s I. rewrite <- sixteen_R. apply segment_b_ok; [reflexivity|apply B, I].
  - exact LI.
  - reflexivity.
  - change (f64_of_Z 2) with F64Arith.ftwo. rewrite ftwo_R. split; [|lra]. replace 16 with (bpow radix2 4) by (cbv; lra). replace 2 with (bpow radix2 1) by (cbv; lra). rewrite <- bpow_plus. apply bpow_le. lia.
  - split; [exact P|]. split; [exact Q|]. split; vm_compute; reflexivity.
Qed.
(** Its part between the heights 2 and 8, and its band at height 4 for eps = 2. *)
Example bent_part : forall poly_eval, exists s, y_subsegment (grid_roots 50 (96 * 16 * bpow radix2 (-50))) poly_eval false bent ftwo (f64_of_Z 8) = Ok s /\ py (cb0 s) = ftwo /\ py (cb3 s) = f64_of_Z 8 /\ curve_within 32 s.
Proof.
  intros pe. destruct (contracts_met 16 ltac:(lra)) as (LI & _).
  destruct (cubic_parts _ pe bent 16 ftwo (f64_of_Z 8) bent_within usual_sixteen LI) as (s & ta & tb & _ & _ & _ & _ & D & A & B & _ & _ & W & _); [vm_compute; reflexivity..|].
  exists s. destruct (D false) as [E | (E & _)]; [|discriminate E]. split; [exact E|]. split; [exact A|]. split; [exact B|]. replace 32 with (2 * 16) by lra. exact W.
Qed.
Example bent_band : forall poly_eval, let rb := grid_roots 50 (96 * 16 * bpow radix2 (-50)) in let s := SCubic (cb0 bent) (cb1 bent) (cb2 bent) (cb3 bent) in
  let lo := lower (seg_solve_x rb poly_eval) (seg_extent rb poly_eval (grid_candidates 50)) s ffour ftwo in let hi := upper (seg_solve_x rb poly_eval) (seg_extent rb poly_eval (grid_candidates 50)) s ffour ftwo in
  exists x, solve_x_for_y rb poly_eval false bent ffour = Ok x /\ exists a b, fle a ffour = true /\ fle ffour b = true /\ fle lo (at_y (seg_solve_x rb poly_eval) s a) = true /\ fle (at_y (seg_solve_x rb poly_eval) s b) hi = true.
Proof.
  intros pe rb s lo hi. destruct (contracts_met 16 ltac:(lra)) as (LI & _).
  destruct (cubic_positions rb pe bent 16 ffour bent_within usual_sixteen LI) as (x & E & _); [vm_compute; reflexivity..|]. exists x. split; [exact E|].
  destruct (cubic_bands rb pe (grid_candidates 50) (cb0 bent) (cb1 bent) (cb2 bent) (cb3 bent) 16 ffour ftwo bent_within usual_sixteen LI) as (a & b & ta & tb & _ & _ & A & B & _ & _ & _ & _ & _ & _ & (I & _) & (_ & J) & _).
  1, 2, 4, 5: vm_compute; reflexivity.
  - change ftwo with F64Arith.ftwo. rewrite ftwo_R. lra.
  - exists a, b. split; [exact A|]. split; [exact B|]. split; [exact I|exact J].
Qed.
