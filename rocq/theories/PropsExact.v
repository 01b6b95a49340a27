(** Properties C69 - C73: the formulas of the curve code, read in exact arithmetic. *)
From Coq Require Import Reals List Bool Lra Lia.
From Verif Require Import CurveOrderModel ExactModel ExactSpec ExactProofs ExactProofs2 ExactProofs3 ExactProofs4 ExactProofs5.
Import ListNotations.
Local Open Scope R_scope.

(** ** C69: transversality *)
(** If two rising curves that start at the same height, the first not to the right of the second, are found to be transversal up to the height [y1],
    then the first is to the left of the second at every height up to [y1] (after the start). *)
Theorem transversal_after_sound (solve_t : rcubic -> R -> R) (left right : rcubic) (y1 : R) :
  solves solve_t -> rises left -> rises right ->
  ry (q0 left) = ry (q0 right) -> rx (q0 left) <= rx (q0 right) ->
  ry (q0 left) < y1 -> y1 <= ry (q3 left) -> y1 <= ry (q3 right) ->
  transversal_after solve_t left right y1 = true ->
  forall y xl xr, ry (q0 left) < y <= y1 -> passes left y xl -> passes right y xr -> xl < xr.
Proof.
  intros H1 H2 H3 H4 H5 H6 H7 H8 H9 y xl xr Hy (tl & Htl & El & <-) (tr & Htr & Er & <-).
  eapply transversal_after_ok; eauto.
Qed.
Print Assumptions transversal_after_sound.
(** The same above a common end. *)
Theorem transversal_before_sound (solve_t : rcubic -> R -> R) (left right : rcubic) (y0 : R) :
  solves solve_t -> rises left -> rises right ->
  ry (q3 left) = ry (q3 right) -> rx (q3 left) <= rx (q3 right) ->
  y0 < ry (q3 left) -> ry (q0 left) <= y0 -> ry (q0 right) <= y0 ->
  transversal_before solve_t left right y0 = true ->
  forall y xl xr, y0 <= y < ry (q3 left) -> passes left y xl -> passes right y xr -> xl < xr.
Proof.
  intros H1 H2 H3 H4 H5 H6 H7 H8 H9 y xl xr Hy (tl & Htl & El & <-) (tr & Htr & Er & <-).
  eapply transversal_before_ok; eauto.
Qed.
Print Assumptions transversal_before_sound.

(** A vertical line and a line to the right, and their mirror images. *)
Definition graph (y0 y1 x0 x1 x2 x3 : R) : rcubic :=
  mkRC (mkRP y0 x0) (mkRP (y0 + (y1 - y0) / 3) x1) (mkRP (y0 + (y1 - y0) * 2 / 3) x2) (mkRP y1 x3).
Lemma graph_even y0 y1 x0 x1 x2 x3 : even (graph y0 y1 x0 x1 x2 x3).
Proof. split; cbn; field. Qed.
Lemma graph_rises y0 y1 x0 x1 x2 x3 : y0 < y1 -> rises (graph y0 y1 x0 x1 x2 x3).
Proof. intros H. apply even_rises; [apply graph_even|exact H]. Qed.
Lemma quad_max_const a t0 t1 : quad_max_between a a a t0 t1 = a.
Proof.
  unfold quad_max_between. cbv zeta. destruct (Req_EM_T _ 0) as [_|N]; [|exfalso; apply N; ring].
  replace (quad_eval a a a t0) with a by (unfold quad_eval; ring). replace (quad_eval a a a t1) with a by (unfold quad_eval; ring). apply Rmax_left. lra.
Qed.
Lemma quad_min_const a t0 t1 : quad_min_between a a a t0 t1 = a.
Proof. unfold quad_min_between. rewrite quad_max_const. ring. Qed.
Lemma lines_transversal solve_t : transversal_after solve_t (graph 0 1 0 0 0 0) (graph 0 1 0 1 2 3) 1 = true.
Proof.
  unfold transversal_after. cbv zeta. unfold deriv0, deriv1, deriv2, rtriple, rdiff, rhypot2, rcross, rdot. cbn [graph q0 q1 q2 q3 ry rx].
  assert (P20 : / 10 ^ 20 < / 10). { apply Rinv_lt_contravar; [apply Rmult_lt_0_compat; [lra|apply pow_lt; lra]|]. replace 10 with (10 ^ 1) at 1 by ring. apply Rlt_pow; [lra|lia]. }
  match goal with |- (if ?A then _ else _) = _ => assert (A = false) as ->; [apply orb_false_iff; split; match goal with |- rltb ?x ?y = false => destruct (rltb_spec x y); [lra|reflexivity] end|] end.
  match goal with |- (if ?A then _ else _) = _ => assert (A = false) as -> end.
  { apply andb_false_iff. right. match goal with |- rltb ?x ?y = false => destruct (rltb_spec x y) as [G|]; [lra|reflexivity] end. }
  replace (3 * (3 - 2)) with 3 by ring. replace (3 * (2 - 1)) with 3 by ring. replace (3 * (1 - 0)) with 3 by ring. replace (3 * (0 - 0)) with 0 by ring.
  replace (3 * (1 - (0 + (1 - 0) * 2 / 3))) with 1 by field. replace (3 * (0 + (1 - 0) * 2 / 3 - (0 + (1 - 0) / 3))) with 1 by field. replace (3 * (0 + (1 - 0) / 3 - 0)) with 1 by field.
  rewrite !quad_max_const, !quad_min_const.
  destruct (rltb_spec 0 0); [lra|]. cbn [andb]. destruct (rltb_spec 3 0); [lra|].
  destruct (rltb_spec (0 * 1) (3 * 1)); [reflexivity|lra].
Qed.
Example transversal_after_example :
  let l := graph 0 1 0 0 0 0 in let r := graph 0 1 0 1 2 3 in
  solves ideal_t /\ rises l /\ rises r /\ ry (q0 l) = ry (q0 r) /\ rx (q0 l) <= rx (q0 r) /\ ry (q0 l) < 1 /\ 1 <= ry (q3 l) /\ 1 <= ry (q3 r) /\
  transversal_after ideal_t l r 1 = true.
Proof.
  split; [exact ideal_solves|]. split; [apply graph_rises; lra|]. split; [apply graph_rises; lra|]. cbn [graph q0 q3 ry rx].
  repeat (split; [lra|]). apply lines_transversal.
Qed.
Example transversal_before_example :
  let l := cflip (graph 0 1 0 0 0 0) in let r := cflip (graph 0 1 0 1 2 3) in
  solves ideal_t /\ rises l /\ rises r /\ ry (q3 l) = ry (q3 r) /\ rx (q3 l) <= rx (q3 r) /\ -1 < ry (q3 l) /\ ry (q0 l) <= -1 /\ ry (q0 r) <= -1 /\
  transversal_before ideal_t l r (-1) = true.
Proof.
  split; [exact ideal_solves|]. split; [apply cflip_rises, graph_rises; lra|]. split; [apply cflip_rises, graph_rises; lra|].
  repeat (split; [cbn; lra|]). unfold transversal_before.
  assert (F : forall c, cflip (cflip c) = c).
  { intros ((y0, x0), (y1, x1), (y2, x2), (y3, x3)). unfold cflip, rflip. cbn. rewrite !Ropp_involutive. reflexivity. }
  rewrite !F. replace (- -1) with 1 by ring. apply lines_transversal.
Qed.

(** ** C70: the signs of a quadratic function *)
(** The pushed entries cut the interval into parts, and on each part the function is where the entry says: not below the upper threshold, not above the lower
    one, or between them. *)
Theorem quadratic_signs_sound (a b c lower upper y0 y1 start : R) : lower < upper -> y0 < y1 ->
  let out := push_quadratic_signs a b c lower upper y0 y1 (mkRO start []) in
  table (quad_is a b c lower upper) y0 (ro_cmps out) y1 /\ ro_cmps out <> [].
Proof. intros H1 H2. apply push_quadratic_signs_ok; assumption. Qed.
Print Assumptions quadratic_signs_sound.
(** The function [y^2 - 1] from 0 to 3, with the thresholds 0 and 3: below up to 1, between up to 2, then above. *)
Example quadratic_signs_example : ro_cmps (push_quadratic_signs 1 0 (-1) 0 3 0 3 (mkRO 0 [])) = [(1, Right); (2, Ish); (3, Left)].
Proof.
  unfold push_quadratic_signs, quadratic_signs. destruct (Req_EM_T 1 0); [lra|]. rewrite Rinv_1, !Rmult_1_r.
  assert (Q : forall c r, 0 < r -> c = - (r * r) -> monic_quadratic_roots 0 c = (Some (- r), Some r)).
  { intros c r Hr ->. unfold monic_quadratic_roots. cbv zeta. pose proof (Rmult_lt_0_compat r r Hr Hr). destruct (Rle_dec _ 0); [lra|].
    replace (0 * 0 - 4 * - (r * r)) with ((2 * r) * (2 * r)) by ring. rewrite sqrt_square by lra. unfold copysign. destruct (Rlt_dec 0 0); [lra|].
    replace (- (1 / 2) * (0 + 2 * r)) with (- r) by field. replace (- (r * r) / - r) with r by (field; lra). destruct (Rlt_dec (- r) r); [reflexivity|lra]. }
  rewrite (Q (-1 - 0) 1), (Q (-1 - 3) 2) by lra. destruct (Rlt_dec 0 1); [|lra]. cbn [fold_left].
  assert (B : forall x y, x < y -> rltb x y = true) by (intros x y H; destruct (rltb_spec x y); [reflexivity|contradiction]).
  assert (B' : forall x y, y <= x -> rltb x y = false) by (intros x y H; destruct (rltb_spec x y); [lra|reflexivity]).
  repeat (unfold ro_push_in at 1; cbn [fst snd ro_last ro_cmps ro_start last_opt ro_push app removelast andb];
          rewrite ?(B' 0 (- (2))), ?(B' 0 (- (1))), ?(B 0 1), ?(B 0 2), ?(B 0 3), ?(B 1 3), ?(B 1 2), ?(B 2 3), ?Rmin_left by lra;
          cbn [fst snd ro_last ro_cmps ro_start last_opt ro_push app removelast andb];
          repeat match goal with |- context [Rlt_dec ?x ?y] => destruct (Rlt_dec x y); [|lra] end; cbn [fst snd ro_last ro_cmps ro_start last_opt app removelast andb]).
  unfold ro_push. cbn [ro_last ro_cmps ro_start last_opt app]. destruct (Rlt_dec 2 3); [reflexivity|lra].
Qed.

(** ** C71: approximating parabolas *)
(** The parabola goes through both ends of the curve and encloses the same area; [dmin] and [dmax] have the right signs; on the side on which the parabola
    is curved they bound the error, on the other side they do up to a sixteenth of the curvature times the square of the unevenness. *)
Theorem parabola_approximates (roots : R -> R -> R -> R -> list R) (c : rcubic) : finds_roots roots -> ry (q0 c) <> ry (q3 c) ->
  let e := from_cubic roots c in
  parab_at e (ry (q0 c)) = rx (q0 c) /\ parab_at e (ry (q3 c)) = rx (q3 c) /\
  (exists G, (forall t v, derivable_pt_lim (cy c) t v -> derivable_pt_lim G t ((cx c t - parab_at e (cy c t)) * v)) /\ G 0 = G 1) /\
  e_dmin e <= 0 <= e_dmax e /\
  (forall t, 0 <= t <= 1 ->
     let err := cx c t - parab_at e (cy c t) in
     let s := Rabs (e_c2 e) * (unevenness c * unevenness c) / 16 in
     (0 <= e_c2 e -> e_dmin e <= err <= e_dmax e + s) /\ (e_c2 e <= 0 -> e_dmin e - s <= err <= e_dmax e)).
Proof.
  intros Hf Hdy e. split; [apply est_start|]. split; [apply est_end, Hdy|]. split; [|split; [apply est_signs|]].
  - destruct (est_area roots c Hdy) as (G & HG & E). exists G. split; [|exact E]. intros t v Hv.
    rewrite (uniqueness_limite _ _ _ _ Hv (cy_deriv c t)). apply HG.
  - intros t Ht err s. pose proof (est_bounds roots Hf c Hdy t Ht) as K. cbv zeta in K. fold e in K.
    replace s with (Rabs (e_c2 e) * unevenness c * unevenness c / 16) by (unfold s; field). exact K.
Qed.
Print Assumptions parabola_approximates.
(** The documented bounds hold for curves with evenly spaced control heights. *)
Theorem parabola_bounds_even (roots : R -> R -> R -> R -> list R) (c : rcubic) : finds_roots roots -> even c -> ry (q0 c) < ry (q3 c) ->
  let e := from_cubic roots c in
  forall y x, passes c y x -> parab_at e y + e_dmin e <= x <= parab_at e y + e_dmax e.
Proof.
  intros Hf Hev Hdy e y x (t & Ht & <- & <-). pose proof (est_bounds roots Hf c ltac:(lra) t Ht) as (A & B). cbv zeta in A, B. fold e in A, B.
  assert (U : unevenness c = 0) by (destruct Hev; unfold unevenness; lra). rewrite U in A, B.
  destruct (Rle_dec 0 (e_c2 e)) as [G|G]; [specialize (A G)|specialize (B ltac:(lra))]; lra.
Qed.
Print Assumptions parabola_bounds_even.
Example parabola_example : finds_roots ideal_roots /\ even (graph 0 1 0 1 0 0) /\ ry (q0 (graph 0 1 0 1 0 0)) < ry (q3 (graph 0 1 0 1 0 0)).
Proof. split; [exact ideal_finds_roots|]. split; [apply graph_even|cbn; lra]. Qed.

(** ** C72: comparing curves *)
(** If the comparison answers (no flat pieces were rotated), its entries partition the common range of heights, and each says something true. *)
Theorem comparison_sound (solve_t : rcubic -> R -> R) (bbox : rcubic -> R * R) (est : rcubic -> rparab) (tolerance accuracy slack : R) (c0 c1 : rcubic) (fuel : nat) (r : rorder) :
  solves solve_t -> boxes bbox -> 0 < accuracy -> 0 <= slack -> 2 * slack < tolerance ->
  rises c0 -> rises c1 -> estimates est slack c0 -> estimates est slack c1 ->
  compare_curves solve_t bbox est tolerance accuracy fuel c0 c1 = Some r ->
  let Y0 := Rmax (ry (q0 c0)) (ry (q0 c1)) in
  let Y1 := Rmin (ry (q3 c0)) (ry (q3 c1)) in
  ro_start r = Y0 /\
  (Y0 <= Y1 -> table (comparison_says tolerance accuracy slack c0 c1 Y0 Y1) Y0 (ro_cmps r) Y1 /\ ro_cmps r <> []) /\
  (Y1 < Y0 -> ro_cmps r = []).
Proof. intros H1 H2 H3 H4 H5 H6 H7 H8 H9 H10. eapply compare_curves_ok; eauto. Qed.
Print Assumptions comparison_sound.
(** With the approximation of the code: up to a slack for curves in general, and without for curves with evenly spaced control heights. *)
Theorem approximation_meets_contract (roots : R -> R -> R -> R -> list R) (c : rcubic) (slack : R) : finds_roots roots -> rises c ->
  (slack_of roots slack c -> estimates (from_cubic roots) slack c) /\ (even c -> estimates (from_cubic roots) 0 c).
Proof. intros Hf Hr. split; intros H; apply from_cubic_estimates; auto using even_slack. Qed.
Print Assumptions approximation_meets_contract.

(** ** C73: the comparison answers *)
(** For curves of which one has a slope of more than one sixteenth everywhere, the comparison answers after finitely many steps. *)
Theorem comparison_answers (solve_t : rcubic -> R -> R) (bbox : rcubic -> R * R) (est : rcubic -> rparab) (tolerance accuracy slack : R) (c0 c1 : rcubic) :
  solves solve_t -> 0 < accuracy -> 0 <= slack -> 2 * slack < tolerance ->
  rises c0 -> rises c1 -> estimates est slack c0 -> estimates est slack c1 ->
  steep c0 \/ steep c1 ->
  exists enough, forall fuel, (enough <= fuel)%nat -> compare_curves solve_t bbox est tolerance accuracy fuel c0 c1 <> None.
Proof. intros H1 H2 H3 H4 H5 H6 H7 H8 H9. eapply compare_curves_total; eauto. Qed.
Print Assumptions comparison_answers.

(** Two vertical lines. *)
Definition post (x : R) : rcubic := graph 0 1 x x x x.
Lemma post_x x t : cx (post x) t = x.
Proof. unfold cx, post, graph, bern3. cbn. ring. Qed.
Lemma post_steep x : steep (post x).
Proof.
  intros s t H0 H1 H2. rewrite !post_x, Rminus_eq_0, Rabs_R0.
  pose proof (rises_strictly (post x) s t (graph_rises 0 1 x x x x Rlt_0_1) H0 H1 H2). lra.
Qed.
Example comparison_example :
  solves ideal_t /\ boxes ideal_box /\ finds_roots ideal_roots /\ rises (post 0) /\ rises (post 10) /\ steep (post 0) /\
  estimates (from_cubic ideal_roots) 0 (post 0) /\ estimates (from_cubic ideal_roots) 0 (post 10) /\
  exists fuel r, compare_curves ideal_t ideal_box (from_cubic ideal_roots) 1 (1 / 10) fuel (post 0) (post 10) = Some r.
Proof.
  assert (R0 : forall x, rises (post x)) by (intros; apply graph_rises; lra).
  assert (E0 : forall x, estimates (from_cubic ideal_roots) 0 (post x)).
  { intros x. apply approximation_meets_contract; [exact 0|exact ideal_finds_roots|apply R0|apply graph_even]. }
  split; [exact ideal_solves|]. split; [exact ideal_boxes|]. split; [exact ideal_finds_roots|]. split; [apply R0|]. split; [apply R0|]. split; [apply post_steep|].
  split; [apply E0|]. split; [apply E0|].
  destruct (comparison_answers ideal_t ideal_box (from_cubic ideal_roots) 1 (1 / 10) 0 (post 0) (post 10) ideal_solves ltac:(lra) ltac:(lra) ltac:(lra)
    (R0 0) (R0 10) (E0 0) (E0 10) (or_introl (post_steep 0))) as (n & Hn).
  specialize (Hn n (le_n n)). exists n. destruct (compare_curves _ _ _ _ _ _ _ _) as [r|]; [exists r; reflexivity|contradiction].
Qed.
(** What is answered for them: the first is to the left of the second everywhere. *)
Lemma post_parabola roots m k x : 0 < k -> from_cubic roots (rescale m k (post x)) = mkRParab x 0 0 0 0.
Proof.
  intros Hk. set (p := rescale m k (post x)).
  assert (Ep : p = mkRC (mkRP ((0 - m) * k) x) (mkRP ((0 + (1 - 0) / 3 - m) * k) x) (mkRP ((0 + (1 - 0) * 2 / 3 - m) * k) x) (mkRP ((1 - m) * k) x)) by reflexivity.
  unfold from_cubic. cbv zeta. rewrite Ep. cbn [q0 q1 q2 q3 ry rx].
  set (c2 := _ / (_ * _ * _)).
  assert (Ec2 : c2 = 0).
  { unfold c2, cubic_area, line_area, rcross. cbn [q0 q1 q2 q3 ry rx]. unfold Rdiv. match goal with |- ?a * ?b = 0 => assert (a = 0) as ->; [field|ring] end. }
  clearbody c2. subst c2. set (c1 := _ / _).
  assert (Ec1 : c1 = 0) by (unfold c1, Rdiv; match goal with |- ?a * ?b = 0 => assert (a = 0) as ->; ring end).
  clearbody c1. subst c1. set (c0 := x - _ - _). assert (Ec0 : c0 = x) by (unfold c0; ring). clearbody c0. subst c0.
  assert (Z : forall q, rx (k0 q) = x -> rx (k1 q) = x -> rx (k2 q) = x -> forall v, In v (errors roots x 0 0 q) -> v = 0).
  { intros q A B C v Hv. unfold errors in Hv. apply in_map_iff in Hv as (t & <- & _). unfold quad_at. cbn [rx]. rewrite A, B, C. unfold bern2. ring. }
  set (l := errors _ _ _ _ _ ++ errors _ _ _ _ _).
  assert (Zl : forall v, In v l -> v = 0).
  { intros v Hv. apply in_app_or in Hv as [Hv|Hv]; (eapply Z; [| | |exact Hv]; cbn; ring). }
  clearbody l. f_equal; induction l as [|v l IH]; try reflexivity; cbn; rewrite (Zl v (or_introl eq_refl)); rewrite ?Rmin_left, ?Rmax_left by lra; apply IH; intros w Hw; apply Zl; right; exact Hw.
Qed.
Lemma post_ends x : ideal_t (post x) 0 = 0 /\ ideal_t (post x) 1 = 1.
Proof.
  pose proof (graph_rises 0 1 x x x x Rlt_0_1) as Hr. fold (post x) in Hr.
  destruct (ideal_solves (post x) 0 Hr ltac:(cbn; lra)) as (A & B). destruct (ideal_solves (post x) 1 Hr ltac:(cbn; lra)) as (C & D).
  split; apply (rises_inj (post x)); try assumption; try lra; [rewrite B, cy_0|rewrite D, cy_1]; reflexivity.
Qed.
Lemma post_whole x : y_subsegment ideal_t (post x) 0 1 = post x.
Proof.
  unfold y_subsegment. destruct (post_ends x) as (-> & ->).
  unfold subsegment, cubic_at, deriv_at, post, graph, cx, cy, bern3, bern2, deriv0, deriv1, deriv2, rtriple, rdiff. cbn [q0 q1 q2 q3 ry rx]. f_equal; (apply f_equal2; field).
Qed.
Example comparison_answer :
  compare_curves ideal_t ideal_box (from_cubic ideal_roots) 1 (1 / 10) 1 (post 0) (post 10) = Some (mkRO 0 [(1, Left)]).
Proof.
  unfold compare_curves. cbv zeta. change (ry (q0 (post 0))) with 0. change (ry (q0 (post 10))) with 0. change (ry (q3 (post 0))) with 1. change (ry (q3 (post 10))) with 1.
  rewrite Rmax_left, Rmin_left by lra. destruct (rltb_spec 0 1); [|lra]. cbn [compare_rec]. rewrite !post_whole.
  destruct (rleb_spec (max_distance (post 0) (post 10)) 1) as [G|_].
  { exfalso. destruct (max_distance_close _ _ _ 0 G ltac:(lra)) as (G' & _). clear G. rename G' into G. rewrite !post_x in G. rewrite Rabs_left in G; lra. }
  destruct (rltb_spec (1 - 0) (1 / 10)); [lra|].
  pose proof (no_rotation ideal_t ideal_solves (post 0) (post 10) (graph_rises 0 1 0 0 0 0 Rlt_0_1) (graph_rises 0 1 10 10 10 10 Rlt_0_1)
    (or_introl (post_steep 0)) 0 1 ltac:(cbn; lra) ltac:(cbn; lra) 0 1 ltac:(lra) ltac:(lra) ltac:(lra)) as NR.
  rewrite !post_whole in NR. rewrite NR.
  unfold estimate. cbv zeta. rewrite (Rmax_left (1 - 0) 1) by lra. rewrite !post_parabola by (rewrite Rminus_0_r, Rinv_1; lra).
  cbn [e_c0 e_c1 e_c2 e_dmin e_dmax]. set (err := _ * / 10 ^ 12).
  assert (Herr : 0 <= err <= 1).
  { unfold err, max_param. cbn [e_c0 e_c1 e_c2]. rewrite !Rabs_R0. rewrite (Rabs_pos_eq 10) by lra.
    rewrite (Rmax_left 10 0), (Rmax_left 10 0), (Rmax_left 0 0), (Rmax_left 0 0), (Rmax_right 0 10) by lra. lra. }
  clearbody err. unfold push_quadratic_signs, quadratic_signs. destruct (Req_EM_T (0 - 0) 0) as [_|N]; [|lra]. destruct (Req_EM_T (0 - 0) 0) as [_|N]; [|lra].
  destruct (Rlt_dec (10 - 0) _); [lra|]. destruct (Rlt_dec _ (10 - 0)); [|lra]. cbn [fold_left]. unfold ro_push_in. cbn [fst snd ro_last ro_cmps last_opt].
  match goal with |- context [rltb ?a ?b] => destruct (rltb_spec a b) as [_|N]; [|exfalso; apply N; rewrite Rminus_0_r, Rinv_1; lra] end. cbn [andb]. rewrite Rmin_left by lra.
  unfold ro_push. cbn [ro_last ro_cmps ro_start last_opt app map fst snd set_last_end removelast ro_iter intervals refine_all order_eqb]. reflexivity.
Qed.
