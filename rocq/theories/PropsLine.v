(** C75, C76: positions and bands of straight lines, in floating-point arithmetic. *)
From Coq Require Import ZArith Bool Lia Reals Lra List.
From Flocq Require Import Core BinarySingleNaN.
From Verif Require Import F64 F64Arith CurveOrderProofs CompareArith GeomModel SegmentsModel SweepModel SweepSpec SweepProofs2 RangeModel RangeSpec MergeSpec LineModel LineSpec LineProofs LineProofs2.
From Verif Require Import BinOpModel PropsBinOp PolyExample PropsMerge.
Import ListNotations.
Local Open Scope R_scope.

Lemma fuzz_tol M : fuzz M = tol M.
Proof. unfold fuzz, tol, u, h. replace 64 with (bpow radix2 6) by (simpl; lra). rewrite <- bpow_plus. reflexivity. Qed.
Lemma four_u M : bpow radix2 (-51) * M = 4 * u * M.
Proof. unfold u. replace 4 with (bpow radix2 2) by (simpl; lra). rewrite <- bpow_plus. reflexivity. Qed.

(** C75.  On a line that goes down, [at_y] gives finite positions, the start exactly, the position on the true line up to a relative error of 2^-48, and positions
    that follow the direction of the line: to the right (weakly) if it goes to the right, to the left if it goes to the left. *)
Theorem line_positions : forall solve_x p0 p1 M y, within M p0 -> within M p1 -> M <= huge -> flt (py p0) (py p1) = true ->
  fle (py p0) y = true -> fle y (py p1) = true ->
  let x := at_y solve_x (SLine p0 p1) y in
  fin x = true /\
  (feq y (py p0) = true -> feq x (px p0) = true) /\
  Rabs (B2R x - line_x p0 p1 (B2R y)) <= bpow radix2 (-48) * M + bpow radix2 (-1075) /\
  (forall y', fle y y' = true -> fle y' (py p1) = true -> let x' := at_y solve_x (SLine p0 p1) y' in
     (fle (px p0) (px p1) = true -> fle x x' = true) /\ (fle (px p1) (px p0) = true -> fle x' x = true)).
Proof.
  intros solve_x p0 p1 M y W0 W1 MH DOWN L0 L1 x.
  destruct (at_R p0 p1 M W0 W1 MH DOWN solve_x y L0 L1) as (F & E). pose proof (y_range p0 p1 M W0 W1 y L0 L1) as R. pose proof (Fy p0 p1 M W0 W1 y L0 L1) as FY.
  assert (FX0 : fin (px p0) = true) by apply W0. assert (FX1 : fin (px p1) = true) by apply W1. assert (FY0 : fin (py p0) = true) by apply W0.
  split; [exact F|]. split; [|split].
  - intros H. apply feq_R in H; [|assumption..]. apply feq_R; [assumption..|]. unfold x. rewrite E, H. apply A_start.
  - unfold x. rewrite E. pose proof (A_err p0 p1 M W0 W1 DOWN y R) as K. replace (bpow radix2 (-48) * M) with (32 * u * M); [exact K|].
    unfold u. replace 32 with (bpow radix2 5) by (simpl; lra). rewrite <- bpow_plus. reflexivity.
  - intros y' H1 H2 x'. assert (L0' : fle (py p0) y' = true). { destruct (fle_nonnan _ _ L0), (fle_nonnan _ _ H1). fk. zb. lia. }
    destruct (at_R p0 p1 M W0 W1 MH DOWN solve_x y' L0' H2) as (F' & E'). pose proof (Fy p0 p1 M W0 W1 y' L0' H2) as FY'.
    apply fle_R in H1; [|assumption..]. destruct (A_mono p0 p1 M W0 W1 DOWN _ _ H1) as (U & V). destruct (d_sign p0 p1) as (S1 & S2).
    split; intros H; (apply fle_R in H; [|assumption..]); (apply fle_R; [assumption..|]); unfold x, x'; rewrite E, E'; auto.
Qed.
Print Assumptions line_positions.

(** C75 (horizontal lines).  [at_y] answers the right end, and the band is the one of the right end, however long the line. *)
Theorem horizontal_band : forall solve_x extent p0 p1 y eps, feq (py p0) (py p1) = true ->
  at_y solve_x (SLine p0 p1) y = px p1 /\
  (nan (px p1) = false -> feq (lower solve_x extent (SLine p0 p1) y eps) (fsub (px p1) eps) = negb (nan (fsub (px p1) eps))).
Proof.
  intros solve_x extent p0 p1 y eps H. unfold lower, local_bbox, at_y, line_at. rewrite H. split; [reflexivity|]. intros N.
  destruct (window (SLine p0 p1) y eps). cbn [fst snd]. assert (fmin (px p1) (px p1) = px p1) as ->. { unfold fmin. rewrite N. destruct (fle _ _); reflexivity. }
  destruct (fsub (px p1) eps) as [| | |sg m e B] eqn:E; try reflexivity; [destruct s; reflexivity|]. cbn [nan BinarySingleNaN.is_nan negb]. apply feq_R; reflexivity.
Qed.
Print Assumptions horizontal_band.

(** C76.  The heights at which [lower] and [upper] evaluate a line are heights of the line; the band they give contains, in floating point, the position of the line at
    every height within [eps]; it reaches [eps] beyond the true line at all these heights and not further, up to a relative error of 2^-47. *)
Theorem line_bands : forall solve_x extent p0 p1 M y eps, within M p0 -> within M p1 -> M <= huge -> flt (py p0) (py p1) = true ->
  fin eps = true -> 0 <= B2R eps <= M -> fle (py p0) y = true -> fle y (py p1) = true ->
  let s := SLine p0 p1 in let lo := lower solve_x extent s y eps in let hi := upper solve_x extent s y eps in
  (exists a b, window s y eps = (a, b) /\ near_height p0 p1 y eps a /\ near_height p0 p1 y eps b /\ fle a y = true /\ fle y b = true) /\
  fin lo = true /\ fin hi = true /\
  (forall Y, near_height p0 p1 y eps Y ->
     fle lo (at_y solve_x s Y) = true /\ fle (at_y solve_x s Y) hi = true /\
     B2R lo <= line_x p0 p1 (B2R Y) - B2R eps + fuzz M /\ line_x p0 p1 (B2R Y) + B2R eps - fuzz M <= B2R hi) /\
  (exists Y, near_height p0 p1 y eps Y /\ Rabs (B2R lo - (line_x p0 p1 (B2R Y) - B2R eps)) <= fuzz M) /\
  (exists Y, near_height p0 p1 y eps Y /\ Rabs (B2R hi - (line_x p0 p1 (B2R Y) + B2R eps)) <= fuzz M).
Proof.
  intros solve_x extent p0 p1 M y eps W0 W1 MH DOWN FE EP L0 L1 s lo hi. rewrite fuzz_tol.
  destruct (box_R p0 p1 M W0 W1 MH DOWN eps FE EP solve_x extent y L0 L1) as (F1 & _ & F2 & _).
  split; [|split; [exact F1|]; split; [exact F2|]; split].
  - exists (ws p0 p1 eps y), (we p0 p1 eps y). split; [reflexivity|].
    destruct (ends_attained p0 p1 M W0 W1 MH eps FE EP y L0 L1) as (T1 & T2). destruct (ws_R p0 p1 M W0 W1 MH eps FE EP y L0 L1) as (Fs & _ & Rs). destruct (we_R p0 p1 M W0 W1 MH eps FE EP y L0 L1) as (Fe & _ & Re).
    pose proof (Fy p0 p1 M W0 W1 y L0 L1) as FY. split; [exact T1|]. split; [exact T2|]. split; (apply fle_R; [assumption..|]); lra.
  - intros Y (K1 & K2 & K3 & K4). destruct (box_contains p0 p1 M W0 W1 MH DOWN eps FE EP solve_x extent y L0 L1 Y K1 K2 K3 K4) as (B1 & B2).
    split; [exact B1|]. split; [exact B2|]. apply (box_real p0 p1 M W0 W1 MH DOWN eps FE EP solve_x extent y L0 L1 Y K1 K2 K3 K4).
  - apply (box_tight p0 p1 M W0 W1 MH DOWN eps FE EP solve_x extent y L0 L1).
Qed.
Print Assumptions line_bands.

(** C76 (contracts).  For straight input, what the theorems about the sweep assume of the positions holds of the modelled functions: if the accuracy is at least 2^-51 of the largest coordinate. *)
Theorem straight_positions : forall a M eps solve_x extent, sweepable a -> straight_within M a -> M <= huge ->
  fin eps = true -> bpow radix2 (-51) * M <= B2R eps <= M ->
  positions_sound a eps (lower solve_x extent) (upper solve_x extent) (at_y solve_x) /\ starts_in_box a eps (lower solve_x extent) (upper solve_x extent).
Proof.
  intros a M eps solve_x extent SW ST MH FE EP. rewrite four_u in EP.
  assert (SEG : forall i, registered a i -> slanted a i = true -> exists p0 p1, seg_def a i = SLine p0 p1 /\ within M p0 /\ within M p1 /\ flt (py p0) (py p1) = true).
  { intros i R SL. pose proof (registered_lt _ SW _ R) as L. unfold slanted, start_y, end_y, seg_def in *.
    destruct (nth_error (segs a) i) as [s|] eqn:N; [|apply nth_error_None in N; unfold arena_len in L; lia].
    destruct (ST i s N) as (p0 & p1 & -> & W0 & W1). rewrite (nth_error_nth _ _ _ N) in *. exists p0, p1. auto. }
  assert (EP' : forall p0, within M p0 -> 0 <= B2R eps <= M). { intros p0 W0. pose proof (M_pos p0 M W0). pose proof u_pos. assert (0 <= u * M) by (apply Rmult_le_pos; lra). lra. }
  split; [split|].
  - intros y i N (R & SL & K). destruct (SEG i R SL) as (p0 & p1 & E & W0 & W1 & D). unfold in_band, band_lo, band_hi, start_y, end_y in *. rewrite E in *. cbn [seg_start seg_end] in K.
    assert (N0 : nan (py p0) = false) by apply fin_nonnan, W0. assert (N1 : nan (py p1) = false) by apply fin_nonnan, W1.
    assert (L0 : fle (py p0) y = true) by (fk; zb; lia). assert (L1 : fle y (py p1) = true) by (fk; zb; lia).
    destruct (self_attained p0 p1 M W0 W1 MH eps FE (EP' _ W0) y L0 L1) as (K1 & K2 & K3 & K4).
    apply (box_contains p0 p1 M W0 W1 MH D eps FE (EP' _ W0) solve_x extent y L0 L1 y K1 K2 K3 K4).
  - intros y i p (R & SL & K) (Rp & SLp & Kp) SP E1 E2. destruct (SEG i R SL) as (p0 & p1 & E & W0 & W1 & D). destruct (SEG p Rp SLp) as (q0 & q1 & Eq & V0 & V1 & Dq).
    destruct (sp_links _ SW i R) as (o & SP' & LK). rewrite SP in SP'. injection SP' as <-. destruct (LK p eq_refl) as (_ & MEET).
    unfold in_band, band_lo, band_hi, start_y, end_y in *. rewrite E, Eq in *. cbn [seg_start seg_end] in *.
    assert (N0 : nan (py p0) = false) by apply fin_nonnan, W0. assert (Nq : nan (py q1) = false) by apply fin_nonnan, V1. assert (Nq0 : nan (py q0) = false) by apply fin_nonnan, V0.
    destruct (feq_nonnan _ _ E1) as (_ & Ny). specialize (MEET ltac:(fk; zb; lia)). unfold point_eq in MEET. apply andb_true_iff in MEET as (_ & MEET).
    assert (FX0 : fin (px p0) = true) by apply W0. assert (FQ1 : fin (px q1) = true) by apply V1.
    destruct (at_start p0 p1 M W0 W1 MH D solve_x y E1) as (F & V).
    destruct (end_in q0 q1 M V0 V1 MH Dq eps FE (EP' _ V0) solve_x extent y ltac:(lra) E2) as (B1 & B2).
    assert (KX : key (LineModel.at_y solve_x (SLine p0 p1) y) = key (px q1)).
    { apply fin_keys; [assumption..|]. rewrite V. symmetry. apply feq_R; assumption. }
    pose proof (fin_nonnan _ F). pose proof (fin_nonnan _ FQ1). destruct (fle_nonnan _ _ B1), (fle_nonnan _ _ B2). fk. zb. lia.
  - intros i y R SL E1. destruct (SEG i R SL) as (p0 & p1 & E & W0 & W1 & D). unfold start_y in E1. rewrite E in *. cbn [seg_start] in *.
    destruct (start_in p0 p1 M W0 W1 MH D eps FE (EP' _ W0) solve_x extent y E1) as (B1 & B2).
    assert (F0 : fin (py p0) = true) by apply W0. assert (F1 : fin (py p1) = true) by apply W1.
    destruct (feq_nonnan _ _ E1) as (N0 & N). assert (L0 : fle (py p0) y = true) by (fk; zb; lia). assert (L1 : fle y (py p1) = true) by (pose proof (fin_nonnan _ F1); fk; zb; lia).
    pose proof (EP' _ W0) as EP2.
    destruct (box_R p0 p1 M W0 W1 MH D eps FE EP2 solve_x extent y L0 L1) as (FL & _ & FU & _ & BL & BU & _).
    destruct (lower_err p0 p1 M W0 W1 MH D eps FE EP2 solve_x extent y L0 L1) as (J1 & J2).
    set (l := LineModel.lower solve_x extent (SLine p0 p1) y eps) in *. set (v := LineModel.upper solve_x extent (SLine p0 p1) y eps) in *.
    assert (FX : fin (px p0) = true) by apply W0. apply fle_R in B1; [|assumption..]. apply fle_R in B2; [|assumption..].
    pose proof u_pos. pose proof u_small. pose proof (M_pos p0 M W0). assert (0 <= u * M <= M / 1024) by (split; [apply Rmult_le_pos; lra|nra]).
    apply abs_le in BL, BU, J1, J2. pose proof (huge_pow 0) as (HP & _).
    destruct (fadd_fin l (fneg eps) FL) as (G1 & V1). { rewrite fin_fneg. exact FE. } { rewrite B2R_fneg. apply big_fin. rewrite <- HP. apply abs_le. lra. }
    destruct (fadd_fin v eps FU FE) as (G2 & V2). { apply big_fin. rewrite <- HP. apply abs_le. lra. }
    rewrite <- fsub_fneg in G1, V1. rewrite B2R_fneg in V1.
    split; (apply fle_R; [assumption..|]).
    + rewrite V1. apply Rle_trans with (B2R l); [|exact B1]. rewrite <- (rnd_gen (B2R l)) at 2 by apply gen_B2R. apply rnd_le. lra.
    + rewrite V2. apply Rle_trans with (B2R v); [exact B2|]. rewrite <- (rnd_gen (B2R v)) at 1 by apply gen_B2R. apply rnd_le. lra.
Qed.
Print Assumptions straight_positions.
(** C76 (default accuracy).  In particular with the accuracy [binary_op] chooses from the bounding box of its input, for input that is not astronomically large. *)
Theorem straight_default : forall a b eps solve_x extent, sweepable a -> choose_eps b = inr eps -> fin eps = true -> B2R eps <= bpow radix2 974 ->
  (forall i s, nth_error (segs a) i = Some s -> exists p0 p1, s = SLine p0 p1 /\ forall p, In p [p0; p1] ->
     fle (b_min_x b) (px p) = true /\ fle (px p) (b_max_x b) = true /\ fle (b_min_y b) (py p) = true /\ fle (py p) (b_max_y b) = true) ->
  positions_sound a eps (lower solve_x extent) (upper solve_x extent) (at_y solve_x) /\ starts_in_box a eps (lower solve_x extent) (upper solve_x extent).
Proof.
  intros a b eps solve_x extent SW CE FE SM ST.
  assert (COV : forall p, fle (b_min_x b) (px p) = true /\ fle (px p) (b_max_x b) = true /\ fle (b_min_y b) (py p) = true /\ fle (py p) (b_max_y b) = true ->
    within (B2R eps * bpow radix2 46) p /\ B2R eps_min <= B2R eps).
  { intros p (K1 & K2 & K3 & K4). destruct (fle_nonnan _ _ K2) as (N1 & _), (fle_nonnan _ _ K4) as (N2 & _).
    assert (C : forall q, In q [p] -> (nan (px q) = false -> fle (b_min_x b) (px q) = true /\ fle (px q) (b_max_x b) = true) /\ (nan (py q) = false -> fle (b_min_y b) (py q) = true /\ fle (py q) (b_max_y b) = true)).
    { intros q [<-|[]]. auto. }
    destruct (accuracy_covers b [p] eps CE C p (px p) (or_introl eq_refl) (or_introl eq_refl) N1) as (A1 & A2 & A3).
    destruct (accuracy_covers b [p] eps CE C p (py p) (or_introl eq_refl) (or_intror eq_refl) N2) as (A4 & _ & A6). unfold within. auto. }
  destruct (Rle_or_lt 0 (B2R eps)) as [PE|PE].
  - apply (straight_positions a (B2R eps * bpow radix2 46)); try assumption.
    + intros i s H. destruct (ST i s H) as (p0 & p1 & E & K). exists p0, p1. split; [exact E|]. split; apply COV, K; cbn; auto.
    + unfold huge. change 1020%Z with (974 + 46)%Z. rewrite bpow_plus. apply Rmult_le_compat_r; [apply bpow_ge_0|exact SM].
    + rewrite (Rmult_comm (B2R eps)), <- Rmult_assoc, <- bpow_plus. assert (bpow radix2 (-51 + 46) <= 1) by (change 1 with (bpow radix2 0); apply bpow_le; lia).
      assert (1 <= bpow radix2 46) by (change 1 with (bpow radix2 0); apply bpow_le; lia). split.
      * apply Rle_trans with (1 * B2R eps); [apply Rmult_le_compat_r; assumption|lra].
      * apply Rle_trans with (1 * B2R eps); [lra|apply Rmult_le_compat_r; assumption].
  - assert (EM : 0 < B2R eps_min) by (apply Rlt_trans with (2 := proj1 eps_min_R); apply bpow_gt_0).
    assert (NO : forall i, ~ registered a i).
    { intros i R. apply (registered_lt _ SW) in R. destruct (nth_error (segs a) i) as [s|] eqn:N; [|apply nth_error_None in N; unfold arena_len in R; lia].
      destruct (ST i s N) as (p0 & p1 & _ & K). destruct (COV p0 (K p0 (or_introl eq_refl))) as (_ & Q). lra. }
    split; [split|]; [intros y i _ (R & _)|intros y i p (R & _)|intros i y R]; exfalso; apply (NO i R).
Qed.
Print Assumptions straight_default.

(** ** The hypotheses can be met *)
(** Two triangles, with coordinates up to 8000. *)
Definition eight : f64 := f64_of_Z 8192.
Definition coord_b (x : f64) : bool := fin x && fle (fneg eight) x && fle x eight.
Definition straight_b (a : arena) : bool :=
  forallb (fun s => match s with SLine p0 p1 => coord_b (px p0) && coord_b (py p0) && coord_b (px p1) && coord_b (py p1) | _ => false end) (segs a).
Lemma coord_b_ok x : coord_b x = true -> fin x = true /\ Rabs (B2R x) <= B2R eight.
Proof.
  unfold coord_b. rewrite !andb_true_iff. intros ((F & L1) & L2). split; [exact F|]. apply fle_R in L1; [|reflexivity|exact F]. apply fle_R in L2; [|exact F|reflexivity].
  rewrite B2R_fneg in L1. apply abs_le. lra.
Qed.
Lemma straight_b_ok a : straight_b a = true -> straight_within (B2R eight) a.
Proof.
  unfold straight_b. rewrite forallb_forall. intros H i s N. apply nth_error_In in N. specialize (H s N). destruct s as [p0 p1|]; [|discriminate].
  rewrite !andb_true_iff in H. destruct H as (((H1 & H2) & H3) & H4). exists p0, p1. split; [reflexivity|].
  apply coord_b_ok in H1 as (?&?), H2 as (?&?), H3 as (?&?), H4 as (?&?). unfold within. auto 10.
Qed.
Lemma eight_R : B2R eight = bpow radix2 13.
Proof. cbv. lra. Qed.
Lemma unit_R : B2R po_eps = 1.
Proof. cbv. lra. Qed.
Example two_triangles : forall solve_x extent,
  let a := po_arena [tri; tri] in
  positions_sound a po_eps (lower solve_x extent) (upper solve_x extent) (at_y solve_x) /\ starts_in_box a po_eps (lower solve_x extent) (upper solve_x extent) /\
  arena_len a = 6%nat /\ (exists i, registered a i /\ slanted a i = true).
Proof.
  intros solve_x extent a. assert (SW : sweepable a). { apply (po_sound [tri; tri]). vm_compute. reflexivity. }
  assert (ST : straight_within (B2R eight) a). { apply straight_b_ok. vm_compute. reflexivity. }
  destruct (straight_positions a (B2R eight) po_eps solve_x extent SW ST) as (P & Q).
  - rewrite eight_R. apply bpow_le. lia.
  - reflexivity.
  - rewrite eight_R, unit_R, <- bpow_plus. change 1 with (bpow radix2 0). split; apply bpow_le; lia.
  - split; [exact P|]. split; [exact Q|]. split; [vm_compute; reflexivity|]. exists 0%nat. split; [|vm_compute; reflexivity].
    assert (B : existsb (Nat.eqb 0) (map snd (enter a)) = true) by (vm_compute; reflexivity). apply existsb_exists in B as (j & I & E). apply Nat.eqb_eq in E. subst j. exact I.
Qed.
(** A line from (0, 0) to (4000, 8000): its position at height 4000, and the ends of its band, are what they should be. *)
Example a_line : forall solve_x extent,
  let s := SLine (mkPoint (f64_of_Z 0) (f64_of_Z 0)) (mkPoint (f64_of_Z 8000) (f64_of_Z 4000)) in
  feq (at_y solve_x s (f64_of_Z 4000)) (f64_of_Z 2000) = true /\
  feq (lower solve_x extent s (f64_of_Z 4000) (f64_of_Z 2)) (f64_of_Z 1997) = true /\ feq (upper solve_x extent s (f64_of_Z 4000) (f64_of_Z 2)) (f64_of_Z 2003) = true.
Proof. intros. split; [|split]; vm_compute; reflexivity. Qed.
(** The same triangles with the accuracy that [binary_op] chooses for them. *)
Definition tri_box : bbox := mkBox (f64_of_Z (-4000)) (f64_of_Z 0) (f64_of_Z 4000) (f64_of_Z 8000).
Definition in_box_b (b : bbox) (p : point) : bool := fle (b_min_x b) (px p) && fle (px p) (b_max_x b) && fle (b_min_y b) (py p) && fle (py p) (b_max_y b).
Example triangles_default : forall solve_x extent, exists eps, choose_eps tri_box = inr eps /\
  let a := po_arena [tri; tri] in
  positions_sound a eps (lower solve_x extent) (upper solve_x extent) (at_y solve_x) /\ starts_in_box a eps (lower solve_x extent) (upper solve_x extent).
Proof.
  intros solve_x extent. destruct (choose_eps tri_box) as [|eps] eqn:CE; [exfalso; revert CE; assert (B : match choose_eps tri_box with inl _ => false | inr _ => true end = true) by (vm_compute; reflexivity); intros CE; rewrite CE in B; discriminate|].
  assert (B : match choose_eps tri_box with inl _ => false | inr e => fin e && fle e (f64_of_Z 1) end = true) by (vm_compute; reflexivity). rewrite CE in B. apply andb_true_iff in B as (F & L).
  exists eps. split; [reflexivity|]. intros a. apply (straight_default a tri_box); try assumption.
  - apply (po_sound [tri; tri]). vm_compute. reflexivity.
  - apply fle_R in L; [|exact F|reflexivity]. apply Rle_trans with (1 := L). change (B2R (f64_of_Z 1)) with (B2R po_eps). rewrite unit_R. change 1 with (bpow radix2 0). apply bpow_le. lia.
  - assert (B : forallb (fun s => match s with SLine p0 p1 => in_box_b tri_box p0 && in_box_b tri_box p1 | _ => false end) (segs a) = true) by (vm_compute; reflexivity).
    rewrite forallb_forall in B. intros i s N. apply nth_error_In in N. specialize (B s N). destruct s as [p0 p1|]; [|discriminate]. apply andb_true_iff in B as (B0 & B1).
    exists p0, p1. split; [reflexivity|]. unfold in_box_b in B0, B1. rewrite !andb_true_iff in B0, B1. intros p [<-|[<-|[]]]; tauto.
Qed.
