(** Proofs that the bands of rising curves contain the computed positions. *)
From Coq Require Import ZArith Bool Lia Reals Lra Psatz List.
From Flocq Require Import Core BinarySingleNaN.
From Verif Require Import F64 F64Arith CurveOrderProofs TreeVecModel GeomModel SegmentsModel SweepModel PosModel CompareModel CompareArith LineModel LineSpec LineProofs LineProofs2 NearArith QuadProofs ExactModel ExactSpec
  CubicModel CubicSpec CubicProofs CubicProofs2 CubicProofs3 CubicProofs4 CubicProofs5.
Import ListNotations.
Local Open Scope R_scope.

Section Inside.
Variable roots_between : f64 -> f64 -> f64 -> f64 -> f64 -> list f64.
Variable poly_eval : f64 -> f64 -> f64 -> f64 -> f64 -> f64.
Variable candidates : cubic -> list f64.
Hypothesis LI : looks_inside roots_between.
Notation solve_t := (solve_t roots_between poly_eval).
Notation sx := (seg_solve_x roots_between poly_eval).
Notation ext := (seg_extent roots_between poly_eval candidates).
Variables p0 p1 p2 p3 : point.
Notation c := (mkCubic p0 p1 p2 p3).
Notation s := (SCubic p0 p1 p2 p3).
Variable M : R.
Hypothesis CW : curve_within M c.
Hypothesis MV : usual_size M.
Hypothesis DOWN : flt (py p0) (py p3) = true.
Variable eps : f64.
Hypothesis FE : fin eps = true.
Hypothesis EP : 0 <= B2R eps <= M.
Notation tau := (tau M).
Variables acc acc2 : R.
Hypothesis A1 : 0 <= acc.
Hypothesis A2 : 0 <= acc2.
Hypothesis FC : finds_crossings roots_between M acc.
Hypothesis FX : finds_extremes candidates (2 * M) acc2.
Hypothesis RC : rises (real_curve c).
Variable y : f64.
Hypothesis L0 : fle (py p0) y = true.
Hypothesis L1 : fle y (py p3) = true.
Notation lo := (lower sx ext s y eps).
Notation hi := (upper sx ext s y eps).

(** The parameter of a height well inside the window is between those of the ends of the window. *)
Lemma between_params Y t a b ta tb : window s y eps = (a, b) -> fle (py p0) Y = true -> fle Y (py p3) = true ->
  Rabs (B2R Y - B2R y) <= B2R eps - (2 * acc + 512 * u * M) ->
  solve_t false c Y = Ok t -> solve_t false c a = Ok ta -> solve_t false c b = Ok tb -> in_unit t -> in_unit ta -> in_unit tb -> B2R ta <= B2R t <= B2R tb.
Proof.
  intros W Y0 Y1 NY E Ea Eb (_ & U) (_ & Ua) (_ & Ub). pose proof (tau_M M MV) as TM. pose proof (M_nonneg c M CW) as M0. pose proof u_pos as UP. destruct (tau_pos M M0) as (TP & _).
  assert (UM : 0 <= u * M) by (apply Rmult_le_pos; lra). pose proof (size_huge M MV) as MH.
  destruct CW as (W0 & _ & _ & W3). pose proof (solve_height c M CW MV Y Y0 Y1 DOWN _ poly_eval LI acc t FC A1 E) as HY. apply abs_le in HY, NY.
  destruct (ws_R p0 p3 M W0 W3 MH eps FE EP y L0 L1) as (Fs & Es & Rs). destruct (we_R p0 p3 M W0 W3 MH eps FE EP y L0 L1) as (Fe & Ee & Re).
  destruct (ends_R p0 p3 M W0 W3 MH eps FE EP y L0 L1) as (_ & _ & V1 & V2 & _).
  change (window s y eps) with (ws p0 p3 eps y, we p0 p3 eps y) in W. injection W as <- <-. set (a := ws p0 p3 eps y) in *. set (b := we p0 p3 eps y) in *.
  assert (F0 : fin (py p0) = true) by apply W0. assert (F3 : fin (py p3) = true) by apply W3.
  assert (FY : fin y = true) by (apply (fin_mid (py p0) y (py p3)); assumption).
  assert (BY : Rabs (B2R y) <= M).
  { destruct W0 as (_ & _ & _ & K0), W3 as (_ & _ & _ & K3).
    cbn [cb0 cb3] in K0, K3. apply abs_le in K0, K3.
     apply fle_R in L0; [|assumption..]. apply fle_R in L1; [|assumption..]. apply abs_le. lra. }
  apply abs_le in BY.
  assert (N1 : Rabs (B2R (fsub y eps) - (B2R y - B2R eps)) <= 2 * u * M). { rewrite V1. apply Rle_trans with (1 := sub_err _ _ (gen_B2R _) (gen_B2R _)). replace (2 * u * M) with (u * (2 * M)) by ring. apply Rmult_le_compat_l; [lra|]. apply abs_le. lra. }
  assert (N2 : Rabs (B2R (fadd y eps) - (B2R y + B2R eps)) <= 2 * u * M). { rewrite V2. apply Rle_trans with (1 := plus_err _ _ (gen_B2R _) (gen_B2R _)). replace (2 * u * M) with (u * (2 * M)) by ring. apply Rmult_le_compat_l; [lra|]. apply abs_le. lra. }
  apply abs_le in N1, N2. destruct RC as (MO & _).
  assert (R0 : B2R (py p0) <= B2R y <= B2R (py p3)) by (apply fle_R in L0; [|assumption..]; apply fle_R in L1; [|assumption..]; lra).
  assert (Fa3 : fle (py p0) a = true /\ fle a (py p3) = true) by (split; (apply fle_R; [assumption..|lra])).
  assert (Fb3 : fle (py p0) b = true /\ fle b (py p3) = true) by (split; (apply fle_R; [assumption..|lra])).
  destruct Fa3 as (A0 & A3), Fb3 as (B0 & B3).
  pose proof (solve_height c M CW MV a A0 A3 DOWN _ poly_eval LI acc ta FC A1 Ea) as HA. pose proof (solve_height c M CW MV b B0 B3 DOWN _ poly_eval LI acc tb FC A1 Eb) as HB. apply abs_le in HA, HB.
  split.
  - destruct (Rmax_case' (B2R (fsub y eps)) (B2R (py p0))) as [(R & _)|(R & _)]; rewrite R in Es.
    + destruct (Rle_or_lt (B2R ta) (B2R t)) as [|LT]; [assumption|exfalso]. pose proof (MO (B2R t) (B2R ta) ltac:(lra) ltac:(lra) ltac:(lra)). lra.
    + destruct (solve_cases c M CW MV a A0 A3 DOWN _ poly_eval LI) as (t' & E' & _ & _ & Z & _). rewrite Ea in E'. injection E' as <-. rewrite Z; [change (B2R fzero) with 0; lra|]. apply feq_R; [assumption..|exact Es].
  - destruct (Rmin_case (B2R (fadd y eps)) (B2R (py p3))) as [(R & _)|(R & _)]; rewrite R in Ee.
    + destruct (Rle_or_lt (B2R t) (B2R tb)) as [|LT]; [assumption|exfalso]. pose proof (MO (B2R tb) (B2R t) ltac:(lra) ltac:(lra) ltac:(lra)). lra.
    + destruct (solve_cases c M CW MV b B0 B3 DOWN _ poly_eval LI) as (t' & E' & _ & _ & _ & Z & _). rewrite Eb in E'. injection E' as <-. rewrite Z; [rewrite one_R; lra|]. apply feq_R; [assumption..|exact Ee].
Qed.
Lemma curve_inside Y : fle (py p0) Y = true -> fle Y (py p3) = true -> Rabs (B2R Y - B2R y) <= B2R eps - (2 * acc + 512 * u * M) -> acc2 + 512 * u * M <= B2R eps ->
  fle lo (at_y sx s Y) = true /\ fle (at_y sx s Y) hi = true.
Proof.
  intros Y0 Y1 NY E2. pose proof (tau_M M MV) as TM. pose proof (M_nonneg c M CW) as M0. pose proof u_pos as UP. destruct (tau_pos M M0) as (TP & _). assert (UM : 0 <= u * M) by (apply Rmult_le_pos; lra).
  destruct (solve_ok roots_between poly_eval LI p0 p1 p2 p3 M CW MV DOWN Y Y0 Y1) as (t & E & U & -> & _). destruct (eval_val c M CW MV t U) as ((F & _ & EX & _) & _).
  destruct (band_val roots_between poly_eval candidates LI p0 p1 p2 p3 M CW MV DOWN eps FE EP y L0 L1) as (a & b & ta & tb & W & _ & _ & _ & _ & _ & _ & Ea & Eb & Ua & Ub & _ & _ & _ & _ & F1 & F2 & _ & _ & V1 & V2).
  destruct (between_params Y t a b ta tb W Y0 Y1 NY E Ea Eb U Ua Ub) as (T1 & T2).
  assert (P : exists r, 0 <= r <= 1 /\ B2R t = along (B2R ta) (B2R tb) r).
  { unfold along. destruct (Req_dec (B2R ta) (B2R tb)) as [Q|Q]; [exists 0; split; [lra|lra]|]. exists ((B2R t - B2R ta) / (B2R tb - B2R ta)).
    assert (D : 0 < B2R tb - B2R ta) by lra. split; [|field; lra]. split.
    - apply Rmult_le_reg_r with (1 := D). unfold Rdiv. rewrite Rmult_assoc, Rinv_l, Rmult_0_l, Rmult_1_r by lra. lra.
    - apply Rmult_le_reg_r with (1 := D). unfold Rdiv. rewrite Rmult_assoc, Rinv_l, Rmult_1_l, Rmult_1_r by lra. lra. }
  destruct P as (r & Rr & P). destruct (box_covers c M CW MV ta tb Ua Ub candidates acc2 r FX Rr) as (K1 & K2). cbv zeta in V1, V2. rewrite <- P in K1, K2. apply abs_le in EX, V1, V2.
  split; (apply fle_R; [assumption..|lra]).
Qed.
End Inside.
