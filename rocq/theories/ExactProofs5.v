(** Proofs about the exact reading of the curve code: termination of the comparison, and curves with evenly spaced control heights; solvers that meet
    the contracts. *)
From Coq Require Import Reals List Bool Lra Lia Psatz.
From Verif Require Import CurveOrderModel ExactModel ExactSpec ExactProofs ExactProofs2 ExactProofs3 ExactProofs4.
Import ListNotations.
Local Open Scope R_scope.

(** ** Curves that are never rotated *)

Section Total.
Variable solve_t : rcubic -> R -> R.
Variable bbox : rcubic -> R * R.
Variable est : rcubic -> rparab.
Variables tolerance accuracy slack : R.
Hypothesis Hsol : solves solve_t.
Hypothesis Hacc : 0 < accuracy.
Hypothesis Hslack : 0 <= slack.
Hypothesis Htol : 2 * slack < tolerance.
Variables c0 c1 : rcubic.
Hypothesis Hr0 : rises c0.
Hypothesis Hr1 : rises c1.
Hypothesis He0 : estimates est slack c0.
Hypothesis He1 : estimates est slack c1.
Hypothesis Hst : steep c0 \/ steep c1.
Variables Y0 Y1 : R.
Hypothesis HY0 : ry (q0 c0) <= Y0 /\ ry (q0 c1) <= Y0.
Hypothesis HY1 : Y1 <= ry (q3 c0) /\ Y1 <= ry (q3 c1).

Lemma steep_piece c y0 y1 : rises c -> steep c -> ry (q0 c) <= y0 -> y0 < y1 -> y1 <= ry (q3 c) ->
  Rabs (rx (q3 (y_subsegment solve_t c y0 y1)) - rx (q0 (y_subsegment solve_t c y0 y1))) < (y1 - y0) * 16.
Proof.
  intros Hr Hs A B C. unfold y_subsegment, subsegment. cbn [q0 q3 cubic_at rx].
  pose proof (T_range solve_t Hsol c Hr y0 y1 A ltac:(lra) C) as (T1 & T2 & T3 & T4 & T5).
  pose proof (T_lt solve_t Hsol c Hr y0 y1 A ltac:(lra) C B) as T6.
  specialize (Hs _ _ T1 T6 T3). rewrite T4, T5 in Hs. lra.
Qed.
Lemma no_rotation y0 y1 : Y0 <= y0 -> y0 < y1 -> y1 <= Y1 ->
  rotates (y_subsegment solve_t c0 y0 y1) (y_subsegment solve_t c1 y0 y1) y0 y1 = false.
Proof.
  intros A B C. unfold rotates. cbv zeta.
  assert (K : rltb (Rabs (rx (q3 (y_subsegment solve_t c0 y0 y1)) - rx (q0 (y_subsegment solve_t c0 y0 y1)))) ((y1 - y0) * 16)
    || rltb (Rabs (rx (q3 (y_subsegment solve_t c1 y0 y1)) - rx (q0 (y_subsegment solve_t c1 y0 y1)))) ((y1 - y0) * 16) = true).
  { apply orb_true_iff. destruct Hst as [H|H]; [left|right].
    - pose proof (steep_piece c0 y0 y1 Hr0 H ltac:(lra) B ltac:(lra)). destruct (rltb_spec (Rabs (rx (q3 (y_subsegment solve_t c0 y0 y1)) - rx (q0 (y_subsegment solve_t c0 y0 y1)))) ((y1 - y0) * 16)); [reflexivity|contradiction].
    - pose proof (steep_piece c1 y0 y1 Hr1 H ltac:(lra) B ltac:(lra)). destruct (rltb_spec (Rabs (rx (q3 (y_subsegment solve_t c1 y0 y1)) - rx (q0 (y_subsegment solve_t c1 y0 y1)))) ((y1 - y0) * 16)); [reflexivity|contradiction]. }
  rewrite K. cbn. rewrite andb_false_r. reflexivity.
Qed.

Lemma refine_total rec y0 y1 width : Y0 <= y0 -> y1 <= Y1 ->
  (forall s e out, Y0 <= s -> s <= e -> e <= Y1 -> e - s <= / 2 * (y1 - y0) -> rec s e out <> None) ->
  forall l s e P out, y0 <= s -> e <= y1 -> table P s l e -> refine_all accuracy rec y0 y1 width (intervals s l) out <> None.
Proof.
  intros A B Hrec. induction l as [|(m, o) l IH]; intros s e P out Hs He Hl; [discriminate|].
  cbn [table] in Hl. destruct Hl as (L1 & _ & L3). pose proof (table_le _ _ _ _ L3) as L4. cbn [intervals refine_all].
  match goal with |- match ?M with _ => _ end <> None => assert (K : M <> None); [|destruct M as [o1|]; [|contradiction]; apply (IH m e P o1); auto; lra] end.
  destruct (order_eqb o Ish); [|discriminate]. destruct (rleb _ _ || _); [discriminate|].
  destruct (rltb_spec (m - s) (/ 2 * (y1 - y0))); [apply Hrec; lra|].
  destruct (rec s (/ 2 * (s + m)) out) as [o1|] eqn:E; [apply Hrec; lra|]. exfalso. revert E. apply Hrec; lra.
Qed.
Lemma compare_total n : forall y0 y1 out, Y0 <= y0 -> y0 <= y1 -> y1 <= Y1 -> y1 - y0 < accuracy * 2 ^ n ->
  compare_rec solve_t bbox est tolerance accuracy (S n) c0 c1 y0 y1 out <> None.
Proof.
  induction n as [|n IH]; intros y0 y1 out A B C Hn; [|remember (S n) as fuel eqn:Ef in |- *]; cbn [compare_rec].
  - destruct (rleb (max_distance _ _) _); [discriminate|]. destruct (rltb_spec (y1 - y0) accuracy) as [|G]; [|exfalso; cbn in Hn; lra].
    destruct (bbox _), (bbox _). discriminate.
  - destruct (rleb (max_distance _ _) _); [discriminate|]. destruct (rltb_spec (y1 - y0) accuracy) as [|G].
    { destruct (bbox _), (bbox _). discriminate. }
    rewrite no_rotation by lra.
    pose proof (estimate_ok solve_t est tolerance slack Hsol Hslack Htol c0 c1 Hr0 Hr1 He0 He1 Y0 Y1 HY0 HY1 y0 y1 A ltac:(lra) C) as K. cbv zeta in K.
    destruct (estimate est tolerance _ _ y0 y1) as (scratch, width). cbn [fst snd] in K. destruct K as (K1 & K2).
    unfold ro_iter. rewrite K1. eapply refine_total; [exact A|exact C| | | |exact K2]; [|lra|lra].
    intros s e o H1 H2 H3 H4. subst fuel. apply IH; try assumption. cbn [pow] in Hn. lra.
Qed.
End Total.

(** ** From the approximation of the code to the contract *)
Lemma from_cubic_estimates roots slack c : finds_roots roots -> rises c -> slack_of roots slack c -> estimates (from_cubic roots) slack c.
Proof.
  intros Hf Hr Hs t0 t1 m k H0 H1 H2 Hk p. specialize (Hs t0 t1 m k H0 H1 H2 Hk). cbv zeta in Hs. fold p in Hs.
  assert (Hp : forall t, cy p t = (cy c (t0 + t * (t1 - t0)) - m) * k) by (intros; unfold p; rewrite rescale_y, sub_y; reflexivity).
  assert (Hdy : ry (q0 p) <> ry (q3 p)).
  { rewrite <- cy_0, <- cy_1, !Hp. replace (t0 + 0 * (t1 - t0)) with t0 by ring. replace (t0 + 1 * (t1 - t0)) with t1 by ring.
    pose proof (rises_strictly c t0 t1 Hr H0 H1 H2) as L. intros E. apply Rmult_eq_reg_r in E; lra. }
  split; [apply est_signs|]. intros t Ht.
  pose proof (est_bounds roots Hf p Hdy t Ht) as (A & B). cbv zeta in A, B.
  destruct (Rle_lt_dec 0 (e_c2 (from_cubic roots p))) as [G|G]; [specialize (A G)|specialize (B ltac:(lra))]; revert Hs.
  - assert (0 <= Rabs (e_c2 (from_cubic roots p)) * unevenness p * unevenness p / 16).
    { unfold Rdiv. apply pp_mul; [|lra]. rewrite Rmult_assoc. apply pp_mul; [apply Rabs_pos|apply (Rle_0_sqr (unevenness p))]. }
    intros; lra.
  - assert (0 <= Rabs (e_c2 (from_cubic roots p)) * unevenness p * unevenness p / 16).
    { unfold Rdiv. apply pp_mul; [|lra]. rewrite Rmult_assoc. apply pp_mul; [apply Rabs_pos|apply (Rle_0_sqr (unevenness p))]. }
    intros; lra.
Qed.
Lemma even_slack roots c : even c -> slack_of roots 0 c.
Proof.
  intros (E1 & E2) t0 t1 m k _ _ _ _ p.
  assert (unevenness p = 0) as ->; [|lra].
  unfold unevenness, p, rescale, subsegment, cubic_at, deriv_at, cy, bern3, bern2, deriv0, deriv1, deriv2, rtriple, rdiff. cbn [ry rx q0 q1 q2 q3].
  replace (ry (q2 c)) with (2 * ry (q1 c) - ry (q0 c)) in * by lra. replace (ry (q3 c)) with (3 * ry (q1 c) - 2 * ry (q0 c)) by lra. field.
Qed.
Lemma even_y c t : even c -> cy c t = ry (q0 c) + t * (ry (q3 c) - ry (q0 c)).
Proof.
  intros (E1 & E2). unfold cy, bern3.
  replace (ry (q2 c)) with (2 * ry (q1 c) - ry (q0 c)) in * by lra. replace (ry (q3 c)) with (3 * ry (q1 c) - 2 * ry (q0 c)) by lra. ring.
Qed.
Lemma even_rises c : even c -> ry (q0 c) < ry (q3 c) -> rises c.
Proof.
  intros E H. split; [|exact H]. intros s t H0 H1 H2. rewrite !even_y by exact E.
  pose proof (pp_mul (t - s) (ry (q3 c) - ry (q0 c)) ltac:(lra) ltac:(lra)). lra.
Qed.

(** ** Solvers that meet the contracts *)
(** Roots of a quadratic polynomial that is not zero. *)
Definition quad_roots (a b c : R) : list R :=
  if Req_EM_T a 0 then (if Req_EM_T b 0 then [] else [- c / b])
  else [(- b + sqrt (b * b - 4 * a * c)) / (2 * a); (- b - sqrt (b * b - 4 * a * c)) / (2 * a)].
Lemma quad_roots_ok a b c t : ~ (a = 0 /\ b = 0 /\ c = 0) -> c + b * t + a * (t * t) = 0 -> In t (quad_roots a b c).
Proof.
  intros Hn E. unfold quad_roots. destruct (Req_EM_T a 0) as [->|Na].
  - destruct (Req_EM_T b 0) as [->|Nb].
    + exfalso. apply Hn. repeat split; lra.
    + left. apply Rmult_eq_reg_l with b; [|exact Nb]. field_simplify; lra.
  - assert (D : (b * b - 4 * a * c) = (2 * a * t + b) * (2 * a * t + b)).
    { replace c with (- (b * t + a * (t * t))) by lra. ring. }
    rewrite D. change ((2 * a * t + b) * (2 * a * t + b)) with (Rsqr (2 * a * t + b)). rewrite sqrt_Rsqr_abs.
    unfold Rabs. destruct (Rcase_abs _); [right; left|left]; field; exact Na.
Qed.
Lemma monic_cont a b c : continuity (fun t => c + b * t + a * (t * t) + t * (t * t)).
Proof.
  intros t. apply derivable_continuous_pt. exists (0 + b * 1 + a * (2 * t) + 3 * (t * t)).
  apply derivable_pt_lim_plus with (f1 := fun t => c + b * t + a * (t * t)) (f2 := fun t => t * (t * t)); [|apply dlim_pow3].
  apply derivable_pt_lim_plus with (f1 := fun t => c + b * t) (f2 := fun t => a * (t * t)).
  2: { apply derivable_pt_lim_scal with (f := fun t => t * t). apply dlim_pow2. }
  apply derivable_pt_lim_plus with (f1 := fun _ => c) (f2 := fun t => b * t); [apply derivable_pt_lim_const|].
  apply derivable_pt_lim_scal with (f := fun t => t). apply derivable_pt_lim_id.
Qed.
Definition far (a b c : R) : R := 1 + Rabs a + Rabs b + Rabs c.
Lemma prod_abs x y m : Rabs x <= m -> 0 <= y -> - (m * y) <= x * y <= m * y.
Proof.
  intros H Hy. assert (- m <= x <= m) by (revert H; unfold Rabs; destruct (Rcase_abs x); intros; lra).
  pose proof (pp_mul (m - x) y ltac:(lra) Hy). pose proof (pp_mul (m + x) y ltac:(lra) Hy). lra.
Qed.
Lemma far_signs a b c : let M := far a b c in let f := fun t => c + b * t + a * (t * t) + t * (t * t) in f (- M) * f M <= 0.
Proof.
  intros M f. assert (HM : 1 <= M) by (unfold M, far; pose proof (Rabs_pos a); pose proof (Rabs_pos b); pose proof (Rabs_pos c); lra).
  pose proof (pp_mul (M - 1) M ltac:(lra) ltac:(lra)) as H1.
  pose proof (prod_abs a (M * M) _ (Rle_refl _) ltac:(lra)) as Ha. pose proof (prod_abs b M _ (Rle_refl _) ltac:(lra)) as Hb.
  pose proof (prod_abs c 1 _ (Rle_refl _) ltac:(lra)) as Hc.
  pose proof (pp_mul (Rabs b) (M * M - M) (Rabs_pos b) ltac:(lra)). pose proof (pp_mul (Rabs c) (M * M - 1) (Rabs_pos c) ltac:(lra)).
  assert (E : M * (M * M) = (1 + Rabs a + Rabs b + Rabs c) * (M * M)) by reflexivity.
  apply np_mul; unfold f.
  - replace (c + b * - M + a * (- M * - M) + - M * (- M * - M)) with (c - b * M + a * (M * M) - M * (M * M)) by ring. rewrite E. lra.
  - rewrite E. lra.
Qed.
Lemma far_pos a b c : - far a b c <= far a b c.
Proof. unfold far. pose proof (Rabs_pos a). pose proof (Rabs_pos b). pose proof (Rabs_pos c). lra. Qed.
Definition ideal_roots (f0 f1 f2 f3 : R) : list R :=
  if Req_EM_T f3 0 then quad_roots f2 f1 f0 else
  let a := f2 / f3 in let b := f1 / f3 in let c := f0 / f3 in
  let r := proj1_sig (IVT_cor (fun t => c + b * t + a * (t * t) + t * (t * t)) (- far a b c) (far a b c) (monic_cont a b c) (far_pos a b c) (far_signs a b c)) in
  r :: quad_roots 1 (a + r) (b + (a + r) * r).
Lemma ideal_finds_roots : finds_roots ideal_roots.
Proof.
  intros f0 f1 f2 f3 Hn t _ E. unfold ideal_roots. destruct (Req_EM_T f3 0) as [->|N3].
  - apply quad_roots_ok; [intros (A & B & C); apply Hn; auto|lra].
  - cbv zeta. set (a := f2 / f3). set (b := f1 / f3). set (c := f0 / f3).
    destruct (IVT_cor _ _ _ _ _ _) as (r & Hr & Er). cbn [proj1_sig].
    assert (E' : c + b * t + a * (t * t) + t * (t * t) = 0).
    { unfold a, b, c. apply Rmult_eq_reg_l with f3; [|exact N3]. rewrite Rmult_0_r. rewrite <- E. field. exact N3. }
    destruct (Req_dec t r) as [->|Ne]; [left; reflexivity|right]. apply quad_roots_ok; [lra|].
    apply Rmult_eq_reg_l with (t - r); [|lra]. rewrite Rmult_0_r.
    replace ((t - r) * (b + (a + r) * r + (a + r) * t + 1 * (t * t))) with ((c + b * t + a * (t * t) + t * (t * t)) - (c + b * r + a * (r * r) + r * (r * r))) by ring.
    rewrite E', Er. ring.
Qed.
(** The box of a curve: the least upper bound of its [x] coordinates, and of their opposites. *)
Definition flipx (c : rcubic) : rcubic := let f p := mkRP (ry p) (- rx p) in mkRC (f (q0 c)) (f (q1 c)) (f (q2 c)) (f (q3 c)).
Lemma flipx_x c t : cx (flipx c) t = - cx c t.
Proof. unfold cx, flipx, bern3. cbn. ring. Qed.
Definition xs (c : rcubic) (x : R) : Prop := exists t, 0 <= t <= 1 /\ cx c t = x.
Lemma xs_max c : exists m, xs c m /\ is_upper_bound (xs c) m.
Proof.
  destruct (continuity_ab_maj (cx c) 0 1 ltac:(lra)) as (M & H1 & H2); [intros; apply cx_cont|].
  exists (cx c M). split; [exists M; auto|]. intros x (t & Ht & <-). apply H1, Ht.
Qed.
Lemma xs_bound c : bound (xs c).
Proof. destruct (xs_max c) as (m & _ & H). exists m. exact H. Qed.
Lemma xs_ex c : exists x, xs c x.
Proof. exists (cx c 0), 0. split; [lra|reflexivity]. Qed.
Definition top (c : rcubic) : R := proj1_sig (completeness (xs c) (xs_bound c) (xs_ex c)).
Lemma top_ok c : xs c (top c) /\ is_upper_bound (xs c) (top c).
Proof.
  unfold top. destruct (completeness _ _ _) as (m & Hu & Hl). cbn. destruct (xs_max c) as (m' & H1 & H2).
  assert (m = m') as ->; [|auto]. apply Rle_antisym; [apply Hl, H2|apply Hu, H1].
Qed.
Definition ideal_box (c : rcubic) : R * R := (- top (flipx c), top c).
Lemma ideal_boxes : boxes ideal_box.
Proof.
  intros c. unfold ideal_box. cbn [fst snd]. destruct (top_ok c) as (A & B). destruct (top_ok (flipx c)) as ((t & Ht & Et) & D). split; [|split].
  - intros s Hs. split; [|apply B; exists s; auto]. pose proof (D (cx (flipx c) s) (ex_intro _ s (conj Hs eq_refl))) as K. rewrite flipx_x in K. lra.
  - exists t. rewrite flipx_x in Et. split; [exact Ht|lra].
  - exact A.
Qed.

(** ** The whole comparison *)
Section Whole.
Variable solve_t : rcubic -> R -> R.
Variable bbox : rcubic -> R * R.
Variable est : rcubic -> rparab.
Variables tolerance accuracy slack : R.
Hypothesis Hsol : solves solve_t.
Hypothesis Hbox : boxes bbox.
Hypothesis Hacc : 0 < accuracy.
Hypothesis Hslack : 0 <= slack.
Hypothesis Htol : 2 * slack < tolerance.
Variables c0 c1 : rcubic.
Hypothesis Hr0 : rises c0.
Hypothesis Hr1 : rises c1.
Hypothesis He0 : estimates est slack c0.
Hypothesis He1 : estimates est slack c1.
Let Y0 := Rmax (ry (q0 c0)) (ry (q0 c1)).
Let Y1 := Rmin (ry (q3 c0)) (ry (q3 c1)).
Lemma Y0_ge : ry (q0 c0) <= Y0 /\ ry (q0 c1) <= Y0. Proof. split; [apply Rmax_l|apply Rmax_r]. Qed.
Lemma Y1_le : Y1 <= ry (q3 c0) /\ Y1 <= ry (q3 c1). Proof. split; [apply Rmin_l|apply Rmin_r]. Qed.

Lemma passes_xat c y x : rises c -> passes c y x -> x = xat solve_t c y.
Proof.
  intros Hr (t & Ht & E & <-). apply (curve_at solve_t Hsol c Hr y t); auto. rewrite <- E, <- (cy_0 c), <- (cy_1 c). destruct Hr as (Hm & _). split; apply Hm; lra.
Qed.
Lemma xat_passes c y : rises c -> ry (q0 c) <= y <= ry (q3 c) -> passes c y (xat solve_t c y).
Proof. intros Hr Hy. destruct (Hsol c y Hr Hy) as (A & B). exists (solve_t c y). auto. Qed.
Lemma table_impl (P Q : order -> R -> Prop) l : (forall o y, P o y -> Q o y) -> forall s e, table P s l e -> table Q s l e.
Proof. intros H. induction l as [|(m, o) l IH]; cbn; [auto|]. intros s e (A & B & C). split; [exact A|]. split; [auto|]. apply IH, C. Qed.
Lemma says_means o y : says solve_t tolerance accuracy slack c0 c1 Y0 Y1 o y -> comparison_says tolerance accuracy slack c0 c1 Y0 Y1 o y.
Proof.
  pose proof Y0_ge. pose proof Y1_le. destruct o; cbn.
  - intros A x0 x1 P0 P1. apply passes_xat in P0, P1; auto. subst. exact A.
  - intros [(y' & y'' & A & B & C & D & E)|K]; [left|right; exact K].
    exists y', y'', (xat solve_t c0 y'), (xat solve_t c1 y''). split; [apply xat_passes; [assumption|lra]|]. split; [apply xat_passes; [assumption|lra]|]. auto.
  - intros A x0 x1 P0 P1. apply passes_xat in P0, P1; auto. subst. exact A.
Qed.
Lemma point_heights : Y0 = Y1 -> (ry (q0 c0) = ry (q3 c1) /\ Y0 = ry (q0 c0)) \/ (ry (q0 c0) <> ry (q3 c1) /\ ry (q3 c0) = ry (q0 c1) /\ Y0 = ry (q3 c0)).
Proof.
  destruct Hr0 as (_ & A). destruct Hr1 as (_ & B). unfold Y0, Y1, Rmax, Rmin. intros E.
  destruct (Req_dec (ry (q0 c0)) (ry (q3 c1))); [left|right]; revert E; repeat destruct (Rle_dec _ _); intros; repeat split; lra.
Qed.
Lemma compare_curves_ok fuel r : compare_curves solve_t bbox est tolerance accuracy fuel c0 c1 = Some r ->
  ro_start r = Y0 /\ (Y0 <= Y1 -> table (comparison_says tolerance accuracy slack c0 c1 Y0 Y1) Y0 (ro_cmps r) Y1 /\ ro_cmps r <> []) /\ (Y1 < Y0 -> ro_cmps r = []).
Proof.
  unfold compare_curves. cbv zeta. fold Y0 Y1. pose proof Y0_ge as G0. pose proof Y1_le as G1. intros E.
  destruct (rltb_spec Y0 Y1) as [L|L].
  - pose proof E as E'. apply (compare_rec_ok solve_t bbox est tolerance accuracy slack Hsol Hbox Hacc Hslack Htol c0 c1 Hr0 Hr1 He0 He1 Y0 Y1 G0 G1) in E as (S & T); try lra; [|reflexivity].
    split; [exact S|]. split; [|intros; lra]. intros _. apply (table_impl _ _ _ says_means) in T. split; [exact T|].
    intros N. rewrite N in T. cbn in T. lra.
  - destruct (Req_EM_T Y0 Y1) as [Eq|Ne].
    2: { injection E as <-. split; [reflexivity|]. split; [intros; lra|reflexivity]. }
    rewrite (Eq : Y0 = Y1) in *.
    assert (K : exists x0 x1, passes c0 Y1 x0 /\ passes c1 Y1 x1 /\ (forall x, passes c0 Y1 x -> x = x0) /\ (forall x, passes c1 Y1 x -> x = x1) /\
       r = ro_push (mkRO Y1 []) Y1 (order_of (rltb x0 (x1 - tolerance)) (rltb (x1 + tolerance) x0))).
    { assert (U : forall c, rises c -> forall x x', passes c Y1 x -> passes c Y1 x' -> x' = x).
      { intros c Hr x x' A B. apply passes_xat in A, B; auto. congruence. }
      assert (P0 : forall c, passes c (ry (q0 c)) (rx (q0 c))) by (intros c; exists 0; rewrite cy_0, cx_0; repeat split; lra).
      assert (P3 : forall c, passes c (ry (q3 c)) (rx (q3 c))) by (intros c; exists 1; rewrite cy_1, cx_1; repeat split; lra).
      destruct (point_heights Eq) as [(H1 & H2)|(H1 & H2 & H3)].
      - destruct (Req_EM_T (ry (q0 c0)) (ry (q3 c1))) as [_|N]; [|contradiction]. injection E as <-.
        assert (A : passes c0 Y1 (rx (q0 c0))) by (rewrite <- Eq, H2; apply P0). assert (B : passes c1 Y1 (rx (q3 c1))) by (rewrite <- Eq, H2, H1; apply P3).
        exists (rx (q0 c0)), (rx (q3 c1)). split; [exact A|]. split; [exact B|]. split; [intros x Hx; exact (U c0 Hr0 _ _ A Hx)|]. split; [intros x Hx; exact (U c1 Hr1 _ _ B Hx)|]. reflexivity.
      - destruct (Req_EM_T (ry (q0 c0)) (ry (q3 c1))) as [N|_]; [contradiction|]. injection E as <-.
        assert (A : passes c0 Y1 (rx (q3 c0))) by (rewrite <- Eq, H3; apply P3). assert (B : passes c1 Y1 (rx (q0 c1))) by (rewrite <- Eq, H3, H2; apply P0).
        exists (rx (q3 c0)), (rx (q0 c1)). split; [exact A|]. split; [exact B|]. split; [intros x Hx; exact (U c0 Hr0 _ _ A Hx)|]. split; [intros x Hx; exact (U c1 Hr1 _ _ B Hx)|]. reflexivity. }
    destruct K as (x0 & x1 & A & B & UA & UB & ->). split; [reflexivity|]. split; [|intros; lra]. intros _.
    split; [|apply ro_push_nonnil]. unfold ro_push. cbn [ro_last last_opt ro_cmps ro_start app table]. split; [lra|]. split; [|reflexivity].
    intros y Hy. replace y with Y1 by lra. unfold order_of.
    destruct (rltb_spec x0 (x1 - tolerance)); [|destruct (rltb_spec (x1 + tolerance) x0)]; cbn.
    + intros x x' X X'. rewrite (UA _ X), (UB _ X'). lra.
    + intros x x' X X'. rewrite (UA _ X), (UB _ X'). lra.
    + left. exists Y1, Y1, x0, x1. split; [exact A|]. split; [exact B|]. rewrite Rminus_eq_0, Rabs_R0.
      pose proof (Rmax_r tolerance accuracy). split; [lra|]. split; [lra|]. apply abs_le. lra.
Qed.
Lemma compare_curves_total : steep c0 \/ steep c1 -> exists fuel0, forall fuel, (fuel0 <= fuel)%nat ->
  compare_curves solve_t bbox est tolerance accuracy fuel c0 c1 <> None.
Proof.
  intros Hst. pose proof Y0_ge as G0. pose proof Y1_le as G1.
  assert (An : exists n, Y1 - Y0 < accuracy * 2 ^ n).
  { destruct (Pow_x_infinity 2 ltac:(rewrite Rabs_pos_eq; lra) ((Y1 - Y0) / accuracy + 1)) as (N & HN). exists N. specialize (HN N (le_n N)).
    rewrite Rabs_pos_eq in HN by (apply pow_le; lra). apply Rge_le in HN. apply Rmult_le_compat_l with (r := accuracy) in HN; [|lra].
    replace (accuracy * ((Y1 - Y0) / accuracy + 1)) with (Y1 - Y0 + accuracy) in HN by (field; lra). lra. }
  destruct An as (n & Hn). exists (S n). intros fuel Hf.
  unfold compare_curves. cbv zeta. fold Y0 Y1. destruct (rltb_spec Y0 Y1) as [L|L].
  - destruct fuel as [|fuel]; [lia|]. apply (compare_total solve_t bbox est tolerance accuracy slack Hsol Hacc Hslack Htol c0 c1 Hr0 Hr1 He0 He1 Hst Y0 Y1 G0 G1); try lra.
    apply Rlt_le_trans with (accuracy * 2 ^ n); [exact Hn|]. apply Rmult_le_compat_l; [lra|]. apply Rle_pow; [lra|lia].
  - destruct (Req_EM_T Y0 Y1); [|discriminate]. destruct (Req_EM_T _ _); discriminate.
Qed.
End Whole.
