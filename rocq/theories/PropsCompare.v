(** C64-C66: comparing two curves. *)
From Coq Require Import Reals Lra.
From Flocq Require Import Core BinarySingleNaN.
From Coq Require Import List Bool ZArith Arith Lia.
From Verif Require Import F64 F64Arith TreeVecModel GeomModel SegmentsModel SegmentsSpec PropsSegments CurveOrderModel CurveOrderSpec CurveOrderProofs SweepModel SweepSpec PropsSweep PosModel PosProofs PosProofs5
  CompareModel CompareSpec CompareArith CompareProofs CompareProofs2 CompareProofs3 CompareProofs4 CompareProofs5 CompareProofs6.
Import ListNotations.

(** *** C64 *)
(** Whatever the numerical helpers compute: a comparison that returns in a debug build gives a table for exactly the heights that the two curves have in
    common: heights sorted, adjacent orders different, and never a switch from left to right without a close interval between them. *)
Theorem comparison_table : forall sub bbox est solve_x rot unrot tolerance accuracy fuel c0 c1 t, tame_curve c0 -> tame_curve c1 ->
  intersect_cubics true sub bbox est solve_x rot unrot tolerance accuracy fuel c0 c1 = Ok t ->
  fle (common_start c0 c1) (common_end c0 c1) = true /\ table_between (common_start c0 c1) (common_end c0 c1) t.
Proof. intros. edestruct compare_good as (A & B); [| |eassumption|split; [exact B|exact A]]; assumption. Qed.
Print Assumptions comparison_table.

(** The same in a release build, as long as rotating does not change the order of heights. *)
Theorem comparison_table_release : forall sub bbox est solve_x rot unrot tolerance accuracy fuel n c0 c1 t, tame_curve c0 -> tame_curve c1 ->
  fin accuracy = true -> fgt accuracy fzero = true -> fle (common_start c0 c1) (common_end c0 c1) = true ->
  steady sub solve_x rot unrot n c0 c1 (common_start c0 c1) (common_end c0 c1) ->
  intersect_cubics false sub bbox est solve_x rot unrot tolerance accuracy fuel c0 c1 = Ok t ->
  table_between (common_start c0 c1) (common_end c0 c1) t.
Proof. intros. eapply compare_steady; eauto. Qed.
Print Assumptions comparison_table_release.

(** What a debug build returns, a release build returns too. *)
Theorem debug_agrees_with_release : forall sub bbox est solve_x rot unrot tolerance accuracy fuel fuel' c0 c1 t, fuel <= fuel' ->
  intersect_cubics true sub bbox est solve_x rot unrot tolerance accuracy fuel c0 c1 = Ok t ->
  intersect_cubics false sub bbox est solve_x rot unrot tolerance accuracy fuel' c0 c1 = Ok t.
Proof. intros. eapply intersect_less; [|eassumption|eassumption]. auto. Qed.
Print Assumptions debug_agrees_with_release.

(** A comparison cache over any segments with tame heights therefore meets the contract on which the sweep relies. *)
Theorem comparisons_fit_the_sweep : forall sub bbox est solve_x rot unrot tolerance accuracy fuel slop a cmp,
  (forall k, k < arena_len a -> tame (start_y a k) /\ tame (end_y a k)) -> fin slop = true -> fgt slop fzero = true ->
  answers_from (intersect_cubics true sub bbox est solve_x rot unrot tolerance accuracy fuel) slop a cmp -> comparer_ok a cmp.
Proof.
  intros sub bbox est solve_x rot unrot tolerance accuracy fuel slop a cmp HT Fs Ps HA i j Hi Hj N Si Sj L1 L2.
  assert (TC : forall k, k < arena_len a -> tame_curve (to_cubic (seg_def a k))).
  { intros k Hk. destruct (HT k Hk) as (A & B). destruct (to_cubic_ends (seg_def a k)) as (X & Y). unfold tame_curve. rewrite X, Y. split; assumption. }
  destruct (HA i j Hi Hj N Si Sj L1 L2) as [(t & E & ES)|(t & t' & E & ES & ->)].
  - eapply table_for_slop; [exact HT|exact Hi|exact Hj|exact Fs|exact Ps| |exact ES]. eapply compare_good; [apply TC, Hi|apply TC, Hj|exact E].
  - apply table_for_flip; [exact Hi|exact Hj|exact HT|]. eapply table_for_slop; [exact HT|exact Hj|exact Hi|exact Fs|exact Ps| |exact ES]. eapply compare_good; [apply TC, Hj|apply TC, Hi|exact E].
Qed.
Print Assumptions comparisons_fit_the_sweep.

Theorem comparisons_fit_the_sweep_release : forall sub bbox est solve_x rot unrot tolerance accuracy fuel n slop a cmp,
  (forall k, k < arena_len a -> tame (start_y a k) /\ tame (end_y a k)) -> fin slop = true -> fgt slop fzero = true ->
  fin accuracy = true -> fgt accuracy fzero = true ->
  (forall i j, i < arena_len a -> j < arena_len a -> i <> j -> let c0 := to_cubic (seg_def a i) in let c1 := to_cubic (seg_def a j) in
     steady sub solve_x rot unrot n c0 c1 (common_start c0 c1) (common_end c0 c1)) ->
  answers_from (intersect_cubics false sub bbox est solve_x rot unrot tolerance accuracy fuel) slop a cmp -> comparer_ok a cmp.
Proof.
  intros sub bbox est solve_x rot unrot tolerance accuracy fuel n slop a cmp HT Fs Ps FA PA HS HA i j Hi Hj N Si Sj L1 L2.
  assert (TC : forall k, k < arena_len a -> tame_curve (to_cubic (seg_def a k))).
  { intros k Hk. destruct (HT k Hk) as (A & B). destruct (to_cubic_ends (seg_def a k)) as (X & Y). unfold tame_curve. rewrite X, Y. split; assumption. }
  assert (LE : forall i j, i < arena_len a -> j < arena_len a -> slanted a i = true -> slanted a j = true -> fle (start_y a i) (end_y a j) = true -> fle (start_y a j) (end_y a i) = true ->
    fle (common_start (to_cubic (seg_def a i)) (to_cubic (seg_def a j))) (common_end (to_cubic (seg_def a i)) (to_cubic (seg_def a j))) = true).
  { clear -HT TC. intros i j Hi Hj Si Sj L1 L2. destruct (common_ok _ _ (TC i Hi) (TC j Hj)) as (T0 & T1 & K0 & K1).
    destruct (to_cubic_ends (seg_def a i)) as (X & Y). destruct (to_cubic_ends (seg_def a j)) as (X' & Y'). rewrite X, X' in K0. rewrite Y, Y' in K1.
    fold (start_y a i) (start_y a j) in K0. fold (end_y a i) (end_y a j) in K1. unfold slanted in Si, Sj.
    destruct (flt_nonnan _ _ Si) as (N1 & N2). destruct (flt_nonnan _ _ Sj) as (N3 & N4). pose proof (fin_nonnan _ (tame_fin _ T0)). pose proof (fin_nonnan _ (tame_fin _ T1)). fk. zb. lia. }
  destruct (HA i j Hi Hj N Si Sj L1 L2) as [(t & E & ES)|(t & t' & E & ES & ->)].
  - eapply table_for_slop; [exact HT|exact Hi|exact Hj|exact Fs|exact Ps| |exact ES]. eapply compare_steady; [exact FA|exact PA|apply TC, Hi|apply TC, Hj|apply HS; assumption|apply LE; assumption|exact E].
  - apply table_for_flip; [exact Hi|exact Hj|exact HT|]. eapply table_for_slop; [exact HT|exact Hj|exact Hi|exact Fs|exact Ps| |exact ES].
    eapply compare_steady; [exact FA|exact PA|apply TC, Hj|apply TC, Hi|apply HS; congruence|apply LE; assumption|exact E].
Qed.
Print Assumptions comparisons_fit_the_sweep_release.

(** *** C65 *)
(** A release build always finishes a comparison, without panicking, if the accuracy is not finer than the floats at the heights of the curves and
    rotations do not nest for ever. *)
Theorem comparison_returns : forall sub bbox est solve_x rot unrot tolerance accuracy n c0 c1 lo hi, tame_curve c0 -> tame_curve c1 ->
  fin accuracy = true -> fgt accuracy fzero = true -> calm sub rot accuracy n c0 c1 lo hi -> fle lo (common_start c0 c1) = true -> fle (common_end c0 c1) hi = true ->
  exists fuel0 t, forall fuel, fuel0 <= fuel -> intersect_cubics false sub bbox est solve_x rot unrot tolerance accuracy fuel c0 c1 = Ok t.
Proof. intros. eapply compare_total; eauto. Qed.
Print Assumptions comparison_returns.

(** The accuracy is fine enough for heights up to [m] if it is at least [m * 2^-48] and not subnormal. *)
Theorem accuracy_resolved : forall (accuracy lo hi : f64) (m : R), fin lo = true -> fin hi = true -> fin accuracy = true ->
  (Rabs (B2R lo) <= m)%R -> (Rabs (B2R hi) <= m)%R -> (4 * m < bpow radix2 1024)%R ->
  (bpow radix2 (-1070) <= B2R accuracy)%R -> (m * bpow radix2 (-48) <= B2R accuracy)%R -> resolved accuracy lo hi.
Proof. intros. eapply resolved_enough; eassumption. Qed.
Print Assumptions accuracy_resolved.

(** *** C66 *)
(** Two points whose coordinates differ by at most [tolerance]. *)
Definition near (tolerance : f64) (p q : point) : Prop :=
  fle (fabs (fsub (px p) (px q))) tolerance = true /\ fle (fabs (fsub (py p) (py q))) tolerance = true.
Definition near_curves (tolerance : f64) (c d : cubic) : Prop :=
  near tolerance (cb0 c) (cb0 d) /\ near tolerance (cb1 c) (cb1 d) /\ near tolerance (cb2 c) (cb2 d) /\ near tolerance (cb3 c) (cb3 d).

Lemma fmax_le x y t : fle x t = true -> fle y t = true -> fle (fmax x y) t = true.
Proof. intros A B. destruct (fle_nonnan _ _ A) as (N1 & N2). destruct (fle_nonnan _ _ B) as (N3 & _). destruct (fmax_nonnan _ _ N1 N3) as (N4 & K). fk. zb. lia. Qed.
Lemma near_max t c d : near_curves t c d -> fle (max_distance c d) t = true.
Proof. intros ((A & A') & (B & B') & (C & C') & (D & D')). unfold max_distance, l_infty_distance. repeat apply fmax_le; assumption. Qed.

(** In every build, curves whose control points, between the common heights, differ by at most the tolerance are close all the way. *)
Theorem near_curves_are_close : forall d sub bbox est solve_x rot unrot tolerance accuracy fuel c0 c1, tame_curve c0 -> tame_curve c1 ->
  fgt tolerance fzero = true -> fgt accuracy fzero = true -> fle accuracy tolerance = true ->
  flt (common_start c0 c1) (common_end c0 c1) = true ->
  near_curves tolerance (cut sub c0 (common_start c0 c1) (common_end c0 c1)) (cut sub c1 (common_start c0 c1) (common_end c0 c1)) ->
  intersect_cubics d sub bbox est solve_x rot unrot tolerance accuracy (S fuel) c0 c1 = Ok (mkCO (common_start c0 c1) [mkEntry (common_end c0 c1) Ish]).
Proof.
  intros d sub bbox est solve_x rot unrot tolerance accuracy fuel c0 c1 H0 H1 P1 P2 P3 L NC. apply near_max in NC.
  apply (intersect_less sub bbox est solve_x rot unrot tolerance accuracy true d (fun _ => eq_refl) (S fuel) (S fuel)); [apply le_n|].
  destruct (common_ok c0 c1 H0 H1) as (T0 & T1 & K0 & K1). destruct H0 as (A & B). destruct H1 as (C & D).
  pose proof (fin_nonnan _ (tame_fin _ T0)) as N0. pose proof (fin_nonnan _ (tame_fin _ T1)) as N1.
  pose proof (fin_nonnan _ (tame_fin _ A)) as NA. pose proof (fin_nonnan _ (tame_fin _ B)) as NB. pose proof (fin_nonnan _ (tame_fin _ C)) as NC'. pose proof (fin_nonnan _ (tame_fin _ D)) as ND.
  unfold intersect_cubics. fold (common_start c0 c1) (common_end c0 c1). set (y0 := common_start c0 c1) in *. set (y1 := common_end c0 c1) in *.
  rewrite P1, P2, P3, L. cbn [dassert andb negb rbind intersect_rec]. unfold y_subsegment. rewrite L.
  assert (Q1 : fle (py (cb0 c0)) y0 = true) by (fk; zb; lia). assert (Q2 : fle y1 (py (cb3 c0)) = true) by (fk; zb; lia).
  assert (Q3 : fle (py (cb0 c1)) y0 = true) by (fk; zb; lia). assert (Q4 : fle y1 (py (cb3 c1)) = true) by (fk; zb; lia).
  rewrite Q1, Q2, Q3, Q4. cbn [dassert andb negb rbind]. fold (cut sub c0 y0 y1) (cut sub c1 y0 y1). rewrite NC. unfold push. cbn [co_push co_new co_cmps last_opt rbind app co_start e_end].
  assert (feq y1 y1 = true) as -> by (fk; zb; lia). reflexivity.
Qed.
Print Assumptions near_curves_are_close.

(** The shortcut by control points is taken for curves that are near, and only for these: all four pairs of control points have to be. *)
Theorem control_points_near : forall tolerance c d,
  forallb (fun p => fin (px p) && fin (py p)) [cb0 c; cb1 c; cb2 c; cb3 c; cb0 d; cb1 d; cb2 d; cb3 d] = true -> nan tolerance = false ->
  (fle (max_distance c d) tolerance = true <-> near_curves tolerance c d).
Proof.
  intros t c d HF Nt. split; [|apply near_max]. cbn [forallb] in HF. rewrite !andb_true_iff in HF.
  assert (NS : forall x y, fin x = true -> fin y = true -> nan (fabs (fsub x y)) = false).
  { intros x y Fx Fy. assert (nan (fsub x y) = false) as N; [|destruct (fsub x y); try reflexivity; discriminate].
    rewrite fsub_fneg. apply fadd_nonnan; [apply fin_nonnan, Fx|rewrite fin_fneg; exact Fy]. }
  assert (MS : forall x y, nan x = false -> nan y = false -> fle (fmax x y) t = true -> fle x t = true /\ fle y t = true).
  { intros x y Nx Ny H. destruct (fmax_nonnan _ _ Nx Ny) as (N4 & K). fk. zb. split; zb; lia. }
  assert (ND : forall p q, fin (px p) = true /\ fin (py p) = true -> fin (px q) = true /\ fin (py q) = true -> nan (l_infty_distance p q) = false /\ (fle (l_infty_distance p q) t = true -> near t p q)).
  { intros p q (A & B) (C & D). split; [apply fmax_nonnan; apply NS; assumption|]. intros H. apply MS in H; [exact H|apply NS; assumption|apply NS; assumption]. }
  destruct HF as (A0 & A1 & A2 & A3 & B0 & B1 & B2 & B3 & _).
  destruct (ND _ _ A0 B0) as (N0 & K0). destruct (ND _ _ A1 B1) as (N1 & K1). destruct (ND _ _ A2 B2) as (N2 & K2). destruct (ND _ _ A3 B3) as (N3 & K3).
  unfold max_distance. intros H. apply MS in H as (H & H3); [|repeat (apply fmax_nonnan; [|assumption]); assumption|exact N3].
  apply MS in H as (H & H2); [|apply fmax_nonnan; assumption|exact N2]. apply MS in H as (H0 & H1); [|exact N0|exact N1].
  unfold near_curves. auto.
Qed.
Print Assumptions control_points_near.

Lemma fmax_same x : fmax x x = x.
Proof. unfold fmax. destruct (nan x), (fle x x); reflexivity. Qed.
Lemma fmin_same x : fmin x x = x.
Proof. unfold fmin. destruct (nan x), (fle x x); reflexivity. Qed.
(** In particular a curve is close to itself. *)
Theorem curve_close_to_itself : forall d sub bbox est solve_x rot unrot tolerance accuracy fuel c, tame_curve c ->
  fgt tolerance fzero = true -> fgt accuracy fzero = true -> fle accuracy tolerance = true -> flt (py (cb0 c)) (py (cb3 c)) = true ->
  let k := cut sub c (py (cb0 c)) (py (cb3 c)) in
  forallb (fun p => fin (px p) && fin (py p)) [cb0 k; cb1 k; cb2 k; cb3 k] = true ->
  intersect_cubics d sub bbox est solve_x rot unrot tolerance accuracy (S fuel) c c = Ok (mkCO (py (cb0 c)) [mkEntry (py (cb3 c)) Ish]).
Proof.
  intros d sub bbox est solve_x rot unrot tolerance accuracy fuel c T P1 P2 P3 L k HF.
  assert (E0 : common_start c c = py (cb0 c)) by apply fmax_same.
  assert (E1 : common_end c c = py (cb3 c)) by apply fmin_same.
  rewrite <- E0, <- E1. apply near_curves_are_close; try assumption; rewrite E0, E1; [exact L|]. fold k.
  assert (Z : forall x, fin x = true -> fle (fabs (fsub x x)) tolerance = true).
  { intros x Fx. assert (FN : fin (fneg x) = true) by (rewrite fin_fneg; exact Fx).
    rewrite fsub_fneg. destruct (fadd_fin x (fneg x) Fx FN) as (F0 & R0).
    - rewrite B2R_fneg, Rplus_opp_r, round_0 by typeclasses eauto. rewrite Rabs_R0. apply bpow_gt_0.
    - rewrite B2R_fneg, Rplus_opp_r, round_0 in R0 by typeclasses eauto. destruct (flt_nonnan _ _ P1) as (_ & Nt).
      assert (K : key (fadd x (fneg x)) = key fzero) by (apply fin_keys; [exact F0|reflexivity|exact R0]).
      assert (K' : fabs (fadd x (fneg x)) = fzero). { destruct (fadd x (fneg x)) as [s|s| |s m e HH]; try discriminate F0; [reflexivity|]. exfalso. clear -R0. cbn in R0. apply eq_0_F2R in R0. destruct s; discriminate. }
      rewrite K'. assert (nan fzero = false) by reflexivity. fk. zb. lia. }
  cbn [forallb] in HF. repeat (apply andb_prop in HF; destruct HF as (?X & HF)). repeat match goal with H : (_ && _)%bool = true |- _ => apply andb_prop in H; destruct H end.
  repeat split; apply Z; assumption.
Qed.
Print Assumptions curve_close_to_itself.

(** Curves of which one starts where the other one ends are ordered by the [x] coordinates of these two points. *)
Definition order_of_points (tolerance x0 x1 : f64) : order :=
  if flt x0 (fsub x1 tolerance) then Left else if flt (fadd x1 tolerance) x0 then Right else Ish.
Theorem touching_curves_ordered : forall d sub bbox est solve_x rot unrot tolerance accuracy fuel c0 c1, tame_curve c0 -> tame_curve c1 ->
  fgt tolerance fzero = true -> fgt accuracy fzero = true -> fle accuracy tolerance = true ->
  flt (py (cb0 c0)) (py (cb3 c0)) = true -> flt (py (cb0 c1)) (py (cb3 c1)) = true -> feq (py (cb3 c0)) (py (cb0 c1)) = true ->
  intersect_cubics d sub bbox est solve_x rot unrot tolerance accuracy fuel c0 c1 =
    Ok (mkCO (common_start c0 c1) [mkEntry (common_end c0 c1) (order_of_points tolerance (px (cb3 c0)) (px (cb0 c1)))]) /\
  intersect_cubics d sub bbox est solve_x rot unrot tolerance accuracy fuel c1 c0 =
    Ok (mkCO (common_start c1 c0) [mkEntry (common_end c1 c0) (order_of_points tolerance (px (cb0 c1)) (px (cb3 c0)))]) /\
  feq (common_start c0 c1) (py (cb3 c0)) = true /\ feq (common_end c0 c1) (py (cb3 c0)) = true /\ feq (common_start c1 c0) (py (cb3 c0)) = true /\ feq (common_end c1 c0) (py (cb3 c0)) = true.
Proof.
  intros d sub bbox est solve_x rot unrot tolerance accuracy fuel c0 c1 H0 H1 P1 P2 P3 L0 L1 Q.
  destruct (common_ok c0 c1 H0 H1) as (T0 & T1 & K0 & K1). destruct (common_ok c1 c0 H1 H0) as (T0' & T1' & K0' & K1'). destruct H0 as (A & B). destruct H1 as (C & D).
  pose proof (fin_nonnan _ (tame_fin _ T0)) as N0. pose proof (fin_nonnan _ (tame_fin _ T1)) as N1. pose proof (fin_nonnan _ (tame_fin _ T0')) as N0'. pose proof (fin_nonnan _ (tame_fin _ T1')) as N1'.
  pose proof (fin_nonnan _ (tame_fin _ A)) as NA. pose proof (fin_nonnan _ (tame_fin _ B)) as NB. pose proof (fin_nonnan _ (tame_fin _ C)) as NC. pose proof (fin_nonnan _ (tame_fin _ D)) as ND.
  split; [|split].
  - unfold intersect_cubics. fold (common_start c0 c1) (common_end c0 c1). set (y0 := common_start c0 c1) in *. set (y1 := common_end c0 c1) in *.
    assert (flt y0 y1 = false) as -> by (fk; zb; lia). assert (feq y0 y1 = true) as -> by (fk; zb; lia). assert (feq (py (cb0 c0)) (py (cb3 c1)) = false) as -> by (fk; zb; lia).
    assert (feq y1 y1 = true) as FR by (fk; zb; lia). rewrite P1, P2, P3, Q. unfold dassert. cbn [orb andb negb rbind]. rewrite !andb_false_r. cbn [rbind]. unfold push, order_of, order_of_points.
    destruct (flt _ _); [|destruct (fgt _ _)]; cbn [co_push co_new co_cmps last_opt rbind app co_start e_end]; rewrite FR, andb_false_r; reflexivity.
  - unfold intersect_cubics. fold (common_start c1 c0) (common_end c1 c0). set (y0 := common_start c1 c0) in *. set (y1 := common_end c1 c0) in *.
    assert (flt y0 y1 = false) as -> by (fk; zb; lia). assert (feq y0 y1 = true) as -> by (fk; zb; lia). assert (feq (py (cb0 c1)) (py (cb3 c0)) = true) as -> by (fk; zb; lia).
    assert (feq y1 y1 = true) as FR by (fk; zb; lia). rewrite P1, P2, P3. unfold dassert. cbn [orb andb negb rbind]. rewrite !andb_false_r. cbn [rbind]. unfold push, order_of, order_of_points.
    destruct (flt _ _); [|destruct (fgt _ _)]; cbn [co_push co_new co_cmps last_opt rbind app co_start e_end]; rewrite FR, andb_false_r; reflexivity.
  - split; [fk; zb; lia|]. split; [fk; zb; lia|]. split; fk; zb; lia.
Qed.
Print Assumptions touching_curves_ordered.

(** *** Examples: straight lines *)
Definition line_x (c : cubic) (y : f64) : f64 :=
  fadd (px (cb0 c)) (fmul (fdiv (fsub y (py (cb0 c))) (fsub (py (cb3 c)) (py (cb0 c)))) (fsub (px (cb3 c)) (px (cb0 c)))).
Definition line_sub (c : cubic) (y0 y1 : f64) : cubic := to_cubic (SLine (mkPoint y0 (line_x c y0)) (mkPoint y1 (line_x c y1))).
Definition line_bbox (c : cubic) : f64 * f64 := (fmin (px (cb0 c)) (px (cb3 c)), fmax (px (cb0 c)) (px (cb3 c))).
Definition line_est (c : cubic) : parab :=
  let m := fdiv (fsub (px (cb3 c)) (px (cb0 c))) (fsub (py (cb3 c)) (py (cb0 c))) in
  mkParab (fsub (px (cb0 c)) (fmul m (py (cb0 c)))) m fzero fzero fzero.
Definition line_turn (cw : bool) (center p : point) : point :=
  let r := fsqrt fhalf in let dx := fsub (px p) (px center) in let dy := fsub (py p) (py center) in
  if cw then mkPoint (fadd (py center) (fmul r (fadd dx dy))) (fadd (px center) (fmul r (fsub dx dy)))
  else mkPoint (fadd (py center) (fmul r (fsub dy dx))) (fadd (px center) (fmul r (fadd dx dy))).
Notation line_compare d := (intersect_cubics d line_sub line_bbox line_est line_x line_turn (fun b => line_turn (negb b)) (fdiv fone (z 8)) (fdiv fone (z 16)) 100).
Definition line (x0 y0 x1 y1 : Z) : cubic := to_cubic (SLine (pt x0 y0) (pt x1 y1)).
(** Heights in hundredths. *)
Definition centi (x : f64) : Z := Btrunc (fmul x (z 100)).
Definition showz (r : res curve_order) : option (list (Z * Z * order)) := match r with Ok t => Some (map (fun '(s, e, o) => (centi s, centi e, o)) (co_iter t)) | Err _ => None end.
Example ex_parallel : showz (line_compare true (line 0 0 0 10) (line 5 0 5 10)) = Some [(0, 1000, Left)]%Z.
Proof. vm_compute. reflexivity. Qed.
Example ex_crossing : showz (line_compare true (line 0 0 10 10) (line 10 0 0 10)) = Some [(0, 493, Left); (493, 506, Ish); (506, 1000, Right)]%Z.
Proof. vm_compute. reflexivity. Qed.
(** Two flat lines, rotated before they are compared; they cross at height 10/11. *)
Example ex_flat : rotation line_turn (line 0 0 1000 10) (line 10 0 900 10) fzero (z 10) <> None /\
  showz (line_compare true (line 0 0 1000 10) (line 10 0 900 10)) = Some [(0, 14, Left); (14, 167, Ish); (167, 1000, Right)]%Z.
Proof.
  split; [|vm_compute; reflexivity].
  assert (B : match rotation line_turn (line 0 0 1000 10) (line 10 0 900 10) fzero (z 10) with None => false | Some _ => true end = true) by (vm_compute; reflexivity).
  intro N. rewrite N in B. discriminate B.
Qed.
Example ex_tame : tame_curve (line 0 0 10 10) /\ tame_curve (line 10 0 0 10).
Proof. repeat split; vm_compute; reflexivity. Qed.
(** A cache over the crossing segments of the sweep example, filled by comparing straight lines. *)
Definition line_cache (a : arena) (slop : f64) (i j : nat) : curve_order :=
  match line_compare true (to_cubic (seg_def a i)) (to_cubic (seg_def a j)) with
  | Ok t => match co_with_y_slop t slop with Some r => r | None => t end
  | Err _ => co_new fzero
  end.
Definition pairs_compared (a : arena) (slop : f64) : bool :=
  forallb (fun i => forallb (fun j => (i =? j) || negb (slanted a i) || negb (slanted a j) || negb (fle (start_y a i) (end_y a j)) || negb (fle (start_y a j) (end_y a i)) ||
    match line_compare true (to_cubic (seg_def a i)) (to_cubic (seg_def a j)) with Ok t => match co_with_y_slop t slop with Some _ => true | None => false end | Err _ => false end)
    (seq 0 (arena_len a))) (seq 0 (arena_len a)).
Lemma cache_answers a slop : pairs_compared a slop = true -> answers_from (line_compare true) slop a (line_cache a slop).
Proof.
  intros H i j Hi Hj N Si Sj L1 L2. left. unfold pairs_compared in H. rewrite forallb_forall in H. specialize (H i). rewrite forallb_forall in H.
  specialize (H (proj2 (in_seq _ _ _) (conj (Nat.le_0_l _) Hi)) j (proj2 (in_seq _ _ _) (conj (Nat.le_0_l _) Hj))). apply Nat.eqb_neq in N. rewrite N, Si, Sj, L1, L2 in H. cbn [negb orb] in H. unfold line_cache.
  destruct (line_compare true _ _) as [t|]; [|discriminate]. destruct (co_with_y_slop t slop) as [r|] eqn:ES; [|discriminate]. exists t. split; [reflexivity|exact ES].
Qed.
Example ex_cache : answers_from (line_compare true) (fdiv fone (z 4)) ex_arena (line_cache ex_arena (fdiv fone (z 4))).
Proof. apply cache_answers. vm_compute. reflexivity. Qed.
Example ex_cache_fits : comparer_ok ex_arena (line_cache ex_arena (fdiv fone (z 4))).
Proof.
  eapply comparisons_fit_the_sweep; [| | |exact ex_cache]; [|vm_compute; reflexivity|vm_compute; reflexivity].
  assert (H : forallb (fun s => fin (fadd (py (seg_start s)) (py (seg_start s))) && fin (fadd (py (seg_end s)) (py (seg_end s)))) (segs ex_arena) = true) by (vm_compute; reflexivity).
  intros k Hk. rewrite forallb_forall in H. unfold start_y, end_y, seg_def, tame. destruct (nth_error (segs ex_arena) k) as [s|] eqn:E.
  - specialize (H s (nth_error_In _ _ E)). apply andb_prop in H. destruct H. try rewrite E. try rewrite (nth_error_nth _ _ _ E). split; assumption.
  - apply nth_error_None in E. unfold arena_len in Hk. lia.
Qed.
Example ex_cache_orders : showz (Ok (line_cache ex_arena (fdiv fone (z 4)) 0 1)) = Some [(0, 468, Left); (468, 531, Ish); (531, 1000, Right)]%Z.
Proof. vm_compute. reflexivity. Qed.

(** Vertical lines are never rotated. *)
Definition vert_sub (c : cubic) (y0 y1 : f64) : cubic := to_cubic (SLine (mkPoint y0 (px (cb0 c))) (mkPoint y1 (px (cb0 c)))).
Lemma vert_no_rotation rot c0 c1 lo hi y0 y1 : fin (px (cb0 c0)) = true -> fin (px (cb0 c1)) = true -> tame lo -> tame hi -> fle lo y0 = true -> flt y0 y1 = true -> fle y1 hi = true ->
  rotation rot (cut vert_sub c0 y0 y1) (cut vert_sub c1 y0 y1) y0 y1 = None.
Proof.
  intros F0 F1 Tl Th L0 L L1. destruct (fle_nonnan _ _ L0) as (Nl & N0). destruct (fle_nonnan _ _ L1) as (N1 & Nh).
  assert (T0 : tame y0) by (apply (tame_between lo hi); [assumption..|fk; zb; lia]). assert (T1 : tame y1) by (apply (tame_between lo hi); [assumption..|fk; zb; lia]).
  assert (Z : forall x, fin x = true -> fsub x x = fzero \/ fsub x x = fneg fzero).
  { intros x Fx. assert (FN : fin (fneg x) = true) by (rewrite fin_fneg; exact Fx). rewrite fsub_fneg. destruct (fadd_fin x (fneg x) Fx FN) as (F & R0).
    - rewrite B2R_fneg, Rplus_opp_r, round_0 by typeclasses eauto. rewrite Rabs_R0. apply bpow_gt_0.
    - rewrite B2R_fneg, Rplus_opp_r, round_0 in R0 by typeclasses eauto.
      destruct (fadd x (fneg x)) as [[]|s| |s m e HH]; try discriminate F; [right; reflexivity|left; reflexivity|]. exfalso. clear -R0. cbn in R0. apply eq_0_F2R in R0. destruct s; discriminate. }
  unfold rotation. cbn [cut vert_sub to_cubic cb0 cb3 px]. destruct (fne _ _); [reflexivity|].
  assert (flt (fabs (fsub (px (cb0 c0)) (px (cb0 c0)))) (fmul (fsub y1 y0) fsixteen) = true) as ->; [|reflexivity].
  assert (fabs (fsub (px (cb0 c0)) (px (cb0 c0))) = fzero) as -> by (destruct (Z _ F0) as [-> | ->]; reflexivity).
  destruct (diff_pos y0 y1 T0 T1) as (P & _); [apply (proj1 (flt_R y0 y1 (tame_fin _ T0) (tame_fin _ T1))), L|].
  destruct (tame_sub y1 y0 T1 T0) as (Fd & _).
  assert (S16 : B2R fsixteen = 16%R). { assert (fin fsixteen = true) as F by reflexivity. rewrite B2R_key by exact F. replace (key fsixteen) with (2 ^ 1078)%Z by (vm_compute; reflexivity). rewrite (IZR_Zpower radix2) by lia. rewrite <- bpow_plus. simpl. reflexivity. }
  pose proof (fmul_rounds (fsub y1 y0) fsixteen Fd eq_refl ltac:(rewrite S16; lra) eq_refl) as R1.
  pose proof (fmul_rounds (fsub y1 y0) fone Fd eq_refl ltac:(rewrite one_R; lra) eq_refl) as R2.
  pose proof (rounds_mono _ _ _ _ R2 R1 ltac:(rewrite S16, one_R; lra)) as M.
  assert (K : (0 < key (fmul (fsub y1 y0) fone))%Z).
  { destruct (fmul_fin (fsub y1 y0) fone Fd eq_refl) as (Fm & Rm).
    - rewrite one_R, Rmult_1_r, rnd_gen by apply gen_B2R. apply emax_lt.
    - apply Z.nle_gt. intro H. change 0%Z with (key fzero) in H. apply key_le_R in H; [|exact Fm|reflexivity]. rewrite Rm, one_R, Rmult_1_r, rnd_gen in H by apply gen_B2R. change (B2R fzero) with 0%R in H. lra. }
  pose proof (rounds_nonnan _ _ R1) as NR. assert (nan fzero = false) by reflexivity. fk. zb. change (key fzero) with 0%Z. lia.
Qed.
Lemma vert_calm rot accuracy c0 c1 lo hi : fin (px (cb0 c0)) = true -> fin (px (cb0 c1)) = true -> tame lo -> tame hi -> resolved accuracy lo hi -> calm vert_sub rot accuracy 0 c0 c1 lo hi.
Proof. intros F0 F1 Tl Th R. cbn [calm]. repeat (split; [assumption|]). intros y0 y1 A B C flag center r0 r1 E. rewrite (vert_no_rotation rot c0 c1 lo hi) in E by assumption. discriminate. Qed.
Lemma vert_steady solve_x rot unrot c0 c1 lo hi : fin (px (cb0 c0)) = true -> fin (px (cb0 c1)) = true -> tame lo -> tame hi -> steady vert_sub solve_x rot unrot 0 c0 c1 lo hi.
Proof. intros F0 F1 Tl Th. cbn [steady]. intros y0 y1 A B C flag center r0 r1 E. rewrite (vert_no_rotation rot c0 c1 lo hi) in E by assumption. discriminate. Qed.
Lemma z_R' n : fin (z n) = true -> (key (z n) = n * 2 ^ 1074)%Z -> B2R (z n) = IZR n.
Proof. intros F K. rewrite B2R_key by exact F. rewrite K, mult_IZR, (IZR_Zpower radix2) by lia. rewrite Rmult_assoc, <- bpow_plus. simpl. lra. Qed.
Example ex_calm : calm vert_sub line_turn (fdiv fone (z 16)) 0 (line 0 0 0 10) (line 5 2 5 20) (z 0) (z 20).
Proof.
  apply vert_calm; [reflexivity|reflexivity|reflexivity|reflexivity|].
  assert (R20 : B2R (z 20) = 20%R) by (apply z_R'; [reflexivity|vm_compute; reflexivity]).
  assert (RA : B2R (fdiv fone (z 16)) = bpow radix2 (-4)). { assert (fin (fdiv fone (z 16)) = true) as F by reflexivity. rewrite B2R_key by exact F. replace (key (fdiv fone (z 16))) with (2 ^ 1070)%Z by (vm_compute; reflexivity). rewrite (IZR_Zpower radix2) by lia. rewrite <- bpow_plus. reflexivity. }
  apply (accuracy_resolved _ _ _ 32%R); [reflexivity|reflexivity|reflexivity| | | | |].
  - change (B2R (z 0)) with 0%R. rewrite Rabs_R0. lra.
  - rewrite R20, Rabs_pos_eq; lra.
  - apply Rlt_le_trans with (bpow radix2 10); [simpl; lra|apply bpow_le; lia].
  - rewrite RA. apply bpow_le. lia.
  - rewrite RA. change 32%R with (bpow radix2 5). rewrite <- bpow_plus. apply bpow_le. lia.
Qed.
Example ex_returns : exists fuel0 t, forall fuel, fuel0 <= fuel ->
  intersect_cubics false vert_sub line_bbox line_est line_x line_turn (fun b => line_turn (negb b)) (fdiv fone (z 8)) (fdiv fone (z 16)) fuel (line 0 0 0 10) (line 5 2 5 20) = Ok t.
Proof. eapply comparison_returns; [repeat split; vm_compute; reflexivity|repeat split; vm_compute; reflexivity|vm_compute; reflexivity|vm_compute; reflexivity|exact ex_calm|vm_compute; reflexivity|vm_compute; reflexivity]. Qed.
Example ex_steady : steady vert_sub line_x line_turn (fun b => line_turn (negb b)) 0 (line 0 0 0 10) (line 5 2 5 20) (z 0) (z 20).
Proof. apply vert_steady; reflexivity. Qed.

(** A line and the same line moved by a sixteenth; a line and itself; a line that starts where another one ends. *)
Example ex_near : let c := line 0 0 10 10 in let c' := map_cubic (fun p => mkPoint (py p) (fadd (px p) (fdiv fone (z 16)))) c in
  near_curves (fdiv fone (z 8)) (cut line_sub c (common_start c c') (common_end c c')) (cut line_sub c' (common_start c c') (common_end c c')) /\
  showz (line_compare true c c') = Some [(0, 1000, Ish)]%Z.
Proof. repeat split; vm_compute; reflexivity. Qed.
Example ex_itself : showz (line_compare true (line 0 0 1000 10) (line 0 0 1000 10)) = Some [(0, 1000, Ish)]%Z.
Proof. vm_compute. reflexivity. Qed.
Example ex_touching : feq (py (cb3 (line 0 0 10 10))) (py (cb0 (line 15 10 15 20))) = true /\
  showz (line_compare true (line 0 0 10 10) (line 15 10 15 20)) = Some [(1000, 1000, Left)]%Z /\ showz (line_compare true (line 15 10 15 20) (line 0 0 10 10)) = Some [(1000, 1000, Right)]%Z.
Proof. repeat split; vm_compute; reflexivity. Qed.
