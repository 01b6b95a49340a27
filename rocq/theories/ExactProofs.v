(** Proofs about the exact reading of the curve code: polynomials, extremes, transversality. *)
From Coq Require Import Reals List Bool Lra Lia Psatz.
From Verif Require Import CurveOrderModel ExactModel ExactSpec.
Import ListNotations.
Local Open Scope R_scope.

Lemma rltb_spec x y : reflect (x < y) (rltb x y).
Proof. unfold rltb. destruct (Rlt_dec x y); constructor; assumption. Qed.
Lemma rleb_spec x y : reflect (x <= y) (rleb x y).
Proof. unfold rleb. destruct (Rle_dec x y); constructor; assumption. Qed.

(** ** Derivatives *)
Definition bern3' (a b c d t : R) : R := bern2 (3 * (b - a)) (3 * (c - b)) (3 * (d - c)) t.
Lemma bern3_deriv a b c d t : derivable_pt_lim (bern3 a b c d) t (bern3' a b c d t).
Proof.
  replace (bern3' a b c d t) with (3 * (b - a) + (2 * (3 * (c - 2 * b + a))) * t + (3 * (d - 3 * c + 3 * b - a)) * (t * t))
    by (unfold bern3', bern2; ring).
  assert (E : forall u, a + (3 * (b - a)) * u + (3 * (c - 2 * b + a)) * (u * u) + (d - 3 * c + 3 * b - a) * (u * (u * u)) = bern3 a b c d u)
    by (intros; unfold bern3; ring).
  assert (D : derivable_pt_lim (fun u => a + (3 * (b - a)) * u + (3 * (c - 2 * b + a)) * (u * u) + (d - 3 * c + 3 * b - a) * (u * (u * u))) t
    (3 * (b - a) + (2 * (3 * (c - 2 * b + a))) * t + (3 * (d - 3 * c + 3 * b - a)) * (t * t))).
  { assert (D1 := derivable_pt_lim_id t).
    assert (D2 := derivable_pt_lim_mult id id t 1 1 D1 D1).
    assert (D3 := derivable_pt_lim_mult id (id * id)%F t 1 _ D1 D2).
    assert (Da := derivable_pt_lim_const a t).
    assert (E1 := derivable_pt_lim_scal id (3 * (b - a)) t _ D1).
    assert (E2 := derivable_pt_lim_scal _ (3 * (c - 2 * b + a)) t _ D2).
    assert (E3 := derivable_pt_lim_scal _ (d - 3 * c + 3 * b - a) t _ D3).
    assert (F1 := derivable_pt_lim_plus _ _ t _ _ Da E1).
    assert (F2 := derivable_pt_lim_plus _ _ t _ _ F1 E2).
    assert (F3 := derivable_pt_lim_plus _ _ t _ _ F2 E3).
    match type of F3 with derivable_pt_lim _ _ ?v => replace (3 * (b - a) + _ + _) with v end; [exact F3|].
    unfold mult_fct, mult_real_fct, id. ring. }
  intros eps He. destruct (D eps He) as (del & Hd). exists del. intros h H0 H1. rewrite <- !E. apply Hd; assumption.
Qed.

(** Monotone along an interval from the sign of the derivative. *)
Lemma deriv_le (f f' : R -> R) s t : s <= t -> (forall u, s <= u <= t -> derivable_pt_lim f u (f' u)) ->
  (forall u, s < u < t -> f' u <= 0) -> f t <= f s.
Proof.
  intros Hst Hd Hs. destruct (Req_dec s t) as [->|Hne]; [lra|].
  destruct (MVT_cor2 f f' s t ltac:(lra) Hd) as (u & E & Hu). specialize (Hs u Hu). nra.
Qed.
Lemma deriv_lt (f f' : R -> R) s t : s < t -> (forall u, s <= u <= t -> derivable_pt_lim f u (f' u)) ->
  (forall u, s < u < t -> f' u < 0) -> f t < f s.
Proof.
  intros Hst Hd Hs. destruct (MVT_cor2 f f' s t Hst Hd) as (u & E & Hu). specialize (Hs u Hu). nra.
Qed.
(** The derivative of a function that rises on [0, 1]. *)
Lemma rises_deriv (f : R -> R) (t d : R) : (forall s t, 0 <= s -> s <= t -> t <= 1 -> f s <= f t) -> 0 <= t <= 1 ->
  derivable_pt_lim f t d -> 0 <= d.
Proof.
  intros Hm Ht Hd. destruct (Rle_lt_dec 0 d) as [|Hn]; [assumption|exfalso].
  destruct (Hd (- d / 2) ltac:(lra)) as (del & Hdel). pose proof (cond_pos del) as Hp.
  destruct (Rlt_le_dec t 1) as [H1|H1].
  - set (h := Rmin (del / 2) (1 - t)).
    assert (Hh : 0 < h /\ h <= del / 2 /\ h <= 1 - t).
    { unfold h. split; [apply Rmin_glb_lt; lra|]. split; [apply Rmin_l|apply Rmin_r]. }
    specialize (Hdel h ltac:(lra)). rewrite (Rabs_right h) in Hdel by lra. specialize (Hdel ltac:(lra)).
    specialize (Hm t (t + h) ltac:(lra) ltac:(lra) ltac:(lra)).
    assert (0 <= (f (t + h) - f t) / h) by (apply Rmult_le_pos; [lra|left; apply Rinv_0_lt_compat; lra]).
    apply Rabs_def2 in Hdel. lra.
  - set (h := Rmin (del / 2) 1).
    assert (Hh : 0 < h /\ h <= del / 2 /\ h <= 1).
    { unfold h. split; [apply Rmin_glb_lt; lra|]. split; [apply Rmin_l|apply Rmin_r]. }
    specialize (Hdel (- h) ltac:(lra)). rewrite (Rabs_left (- h)) in Hdel by lra. specialize (Hdel ltac:(lra)).
    specialize (Hm (t + - h) t ltac:(lra) ltac:(lra) ltac:(lra)).
    assert (0 <= (f (t + - h) - f t) / - h).
    { replace ((f (t + - h) - f t) / - h) with ((f t - f (t + - h)) * / h) by (field; lra).
      apply Rmult_le_pos; [lra|left; apply Rinv_0_lt_compat; lra]. }
    apply Rabs_def2 in Hdel. lra.
Qed.

(** ** Rising curves *)
Lemma cy_0 c : cy c 0 = ry (q0 c). Proof. unfold cy, bern3. ring. Qed.
Lemma cy_1 c : cy c 1 = ry (q3 c). Proof. unfold cy, bern3. ring. Qed.
Lemma cx_0 c : cx c 0 = rx (q0 c). Proof. unfold cx, bern3. ring. Qed.
Lemma cx_1 c : cx c 1 = rx (q3 c). Proof. unfold cx, bern3. ring. Qed.
(** A rising curve rises strictly. *)
Lemma rises_strictly c s t : rises c -> 0 <= s -> s < t -> t <= 1 -> cy c s < cy c t.
Proof.
  intros (Hm & He) Hs Hst Ht. destruct (Rlt_le_dec (cy c s) (cy c t)) as [|Hle]; [assumption|exfalso].
  set (h := (t - s) / 3).
  assert (K : forall u, s <= u <= t -> cy c u = cy c s).
  { intros u Hu. pose proof (Hm s u ltac:(lra) ltac:(lra) ltac:(lra)). pose proof (Hm u t ltac:(lra) ltac:(lra) ltac:(lra)). lra. }
  assert (Hh : 0 < h) by (unfold h; lra).
  pose proof (K (s + h) ltac:(unfold h in *; lra)) as E1. pose proof (K (s + 2 * h) ltac:(unfold h in *; lra)) as E2.
  pose proof (K (s + 3 * h) ltac:(unfold h in *; lra)) as E3.
  rewrite <- cy_0, <- cy_1 in He.
  unfold cy in *. set (y0 := ry (q0 c)) in *. set (y1 := ry (q1 c)) in *. set (y2 := ry (q2 c)) in *. set (y3 := ry (q3 c)) in *.
  set (p1 := 3 * (y1 - y0)). set (p2 := 3 * (y2 - 2 * y1 + y0)). set (p3 := y3 - 3 * y2 + 3 * y1 - y0).
  assert (P : forall u, bern3 y0 y1 y2 y3 u = y0 + p1 * u + p2 * (u * u) + p3 * (u * (u * u))) by (intros; unfold bern3, p1, p2, p3; ring).
  rewrite !P in *. clear P K Hm.
  assert (A3 : p3 * (h * (h * h)) = 0) by nra.
  assert (p3 = 0). { destruct (Rmult_integral _ _ A3) as [|A]; [assumption|exfalso; assert (0 < h * (h * h)) by (apply Rmult_lt_0_compat; nra); lra]. }
  assert (A2 : p2 * (h * h) = 0) by nra.
  assert (p2 = 0). { destruct (Rmult_integral _ _ A2) as [|A]; [assumption|exfalso; nra]. }
  assert (A1 : p1 * h = 0) by nra.
  assert (p1 = 0). { destruct (Rmult_integral _ _ A1) as [|A]; [assumption|exfalso; lra]. }
  nra.
Qed.
Lemma rises_inj c s t : rises c -> 0 <= s <= 1 -> 0 <= t <= 1 -> cy c s = cy c t -> s = t.
Proof.
  intros Hr Hs Ht E. destruct (Rtotal_order s t) as [H|[H|H]]; [|assumption|].
  - pose proof (rises_strictly c s t Hr ltac:(lra) H ltac:(lra)). lra.
  - pose proof (rises_strictly c t s Hr ltac:(lra) H ltac:(lra)). lra.
Qed.

(** ** Extremes of quadratics *)
Lemma np_mul d k : d <= 0 -> 0 <= k -> d * k <= 0. Proof. nra. Qed.
Lemma nn_mul d k : d <= 0 -> k <= 0 -> 0 <= d * k. Proof. nra. Qed.
Lemma pn_mul d k : 0 <= d -> k <= 0 -> d * k <= 0. Proof. nra. Qed.
Lemma pp_mul d k : 0 <= d -> 0 <= k -> 0 <= d * k. Proof. nra. Qed.
Lemma quad_eval_bern a b c t : quad_eval a b c t = bern2 c b a t.
Proof. unfold quad_eval, bern2. ring. Qed.
Lemma quad_max_bound a b c t0 t1 t : t0 <= t <= t1 -> quad_eval a b c t <= quad_max_between a b c t0 t1.
Proof.
  intros Ht. unfold quad_max_between. cbv zeta. set (m := Rmax _ _).
  assert (M0 : quad_eval a b c t0 <= m) by apply Rmax_l. assert (M1 : quad_eval a b c t1 <= m) by apply Rmax_r.
  set (den := a - b + (c - b)).
  assert (F : forall u v, quad_eval a b c u - quad_eval a b c v = (u - v) * (den * (u + v) - 2 * (c - b))) by (intros; unfold quad_eval, den; ring).
  destruct (Req_EM_T den 0) as [E|N].
  - pose proof (F t t0) as A. pose proof (F t1 t) as B. rewrite E in A, B.
    destruct (Rle_lt_dec (c - b) 0) as [H|H].
    + assert (0 <= (t1 - t) * - (c - b)) by (apply Rmult_le_pos; lra). lra.
    + assert (0 <= (t - t0) * (c - b)) by (apply Rmult_le_pos; lra). lra.
  - set (ct := (c - b) / den). assert (C : c - b = ct * den) by (unfold ct; field; assumption).
    assert (G : forall u v, quad_eval a b c u - quad_eval a b c v = den * ((u - v) * (u + v - 2 * ct))) by (intros; rewrite F, C; ring).
    destruct (rltb_spec t0 ct) as [Hc0|Hc0]; destruct (rltb_spec ct t1) as [Hc1|Hc1]; cbn [andb].
    + destruct (Rle_lt_dec den 0) as [Hd|Hd].
      * eapply Rle_trans; [|apply Rmax_r]. pose proof (G t ct) as A.
        pose proof (np_mul den ((t - ct) * (t + ct - 2 * ct)) Hd ltac:(replace (t + ct - 2 * ct) with (t - ct) by ring; apply Rle_0_sqr)). lra.
      * eapply Rle_trans; [|apply Rmax_l]. destruct (Rle_lt_dec (t + t0) (2 * ct)) as [K|K].
        -- pose proof (G t t0). pose proof (pn_mul den _ ltac:(lra) (pn_mul (t - t0) (t + t0 - 2 * ct) ltac:(lra) ltac:(lra))). lra.
        -- pose proof (G t t1). pose proof (pn_mul den _ ltac:(lra) (np_mul (t - t1) (t + t1 - 2 * ct) ltac:(lra) ltac:(lra))). lra.
    + pose proof (G t t0) as A. pose proof (G t t1) as B.
      pose proof (pn_mul (t - t0) (t + t0 - 2 * ct) ltac:(lra) ltac:(lra)) as U.
      pose proof (nn_mul (t - t1) (t + t1 - 2 * ct) ltac:(lra) ltac:(lra)) as V.
      destruct (Rle_lt_dec den 0) as [D|D].
      * pose proof (np_mul den _ D V). lra.
      * pose proof (pn_mul den _ (Rlt_le _ _ D) U). lra.
    + pose proof (G t t0) as A. pose proof (G t t1) as B.
      pose proof (pp_mul (t - t0) (t + t0 - 2 * ct) ltac:(lra) ltac:(lra)) as U.
      pose proof (np_mul (t - t1) (t + t1 - 2 * ct) ltac:(lra) ltac:(lra)) as V.
      destruct (Rle_lt_dec den 0) as [D|D].
      * pose proof (np_mul den _ D U). lra.
      * pose proof (pn_mul den _ (Rlt_le _ _ D) V). lra.
    + destruct (Req_dec t0 t1) as [<-|]; [replace t with t0 by lra; assumption|exfalso; lra].
Qed.
Lemma quad_max_attained a b c t0 t1 : t0 <= t1 -> exists t, t0 <= t <= t1 /\ quad_max_between a b c t0 t1 = quad_eval a b c t.
Proof.
  intros H. unfold quad_max_between. cbv zeta.
  assert (K : exists t, t0 <= t <= t1 /\ Rmax (quad_eval a b c t0) (quad_eval a b c t1) = quad_eval a b c t).
  { destruct (Rle_dec (quad_eval a b c t0) (quad_eval a b c t1)).
    - exists t1. split; [lra|]. apply Rmax_right. assumption.
    - exists t0. split; [lra|]. apply Rmax_left. lra. }
  destruct (Req_EM_T _ 0); [exact K|].
  set (ct := (c - b) / (a - b + (c - b))).
  destruct (rltb_spec t0 ct); destruct (rltb_spec ct t1); cbn [andb]; try exact K.
  destruct K as (t & Ht & E). rewrite E.
  destruct (Rle_dec (quad_eval a b c t) (quad_eval a b c ct)).
  - exists ct. split; [lra|]. apply Rmax_right. assumption.
  - exists t. split; [assumption|]. apply Rmax_left. lra.
Qed.
Lemma quad_min_bound a b c t0 t1 t : t0 <= t <= t1 -> quad_min_between a b c t0 t1 <= quad_eval a b c t.
Proof.
  intros Ht. unfold quad_min_between. pose proof (quad_max_bound (- a) (- b) (- c) t0 t1 t Ht) as H.
  replace (quad_eval (- a) (- b) (- c) t) with (- quad_eval a b c t) in H by (unfold quad_eval; ring). lra.
Qed.
Lemma quad_min_attained a b c t0 t1 : t0 <= t1 -> exists t, t0 <= t <= t1 /\ quad_min_between a b c t0 t1 = quad_eval a b c t.
Proof.
  intros H. destruct (quad_max_attained (- a) (- b) (- c) t0 t1 H) as (t & Ht & E). exists t. split; [assumption|].
  unfold quad_min_between. rewrite E. unfold quad_eval. ring.
Qed.

(** ** Transversality *)
Lemma cx_deriv c t : derivable_pt_lim (cx c) t (quad_eval (rx (deriv2 c)) (rx (deriv1 c)) (rx (deriv0 c)) t).
Proof. rewrite quad_eval_bern. apply bern3_deriv. Qed.
Lemma cy_deriv c t : derivable_pt_lim (cy c) t (quad_eval (ry (deriv2 c)) (ry (deriv1 c)) (ry (deriv0 c)) t).
Proof. rewrite quad_eval_bern. apply bern3_deriv. Qed.
Definition dxdt (c : rcubic) (t : R) : R := quad_eval (rx (deriv2 c)) (rx (deriv1 c)) (rx (deriv0 c)) t.
Definition dydt (c : rcubic) (t : R) : R := quad_eval (ry (deriv2 c)) (ry (deriv1 c)) (ry (deriv0 c)) t.
Lemma dydt_pos c t : rises c -> 0 <= t <= 1 -> 0 <= dydt c t.
Proof. intros Hr Ht. apply (rises_deriv (cy c) t); [apply Hr|assumption|apply cy_deriv]. Qed.
(** A bound of the slope bounds the curve. *)
Lemma slope_le c m T t : 0 <= t <= T -> (forall u, 0 <= u <= T -> dxdt c u <= m * dydt c u) -> cx c t - cx c 0 <= m * (cy c t - cy c 0).
Proof.
  intros Ht Hd.
  assert (K : (fun u => cx c u + - m * cy c u) t <= (fun u => cx c u + - m * cy c u) 0).
  { apply (deriv_le (fun u => cx c u + - m * cy c u) (fun u => dxdt c u + - m * dydt c u)); [lra| |].
    - intros u _. apply derivable_pt_lim_plus with (f1 := cx c) (f2 := fun u => - m * cy c u); [apply cx_deriv|].
      apply derivable_pt_lim_scal with (f := cy c). apply cy_deriv.
    - intros u Hu. specialize (Hd u ltac:(lra)). lra. }
  cbv beta in K. lra.
Qed.
Lemma slope_ge c m T t : 0 <= t <= T -> (forall u, 0 <= u <= T -> m * dydt c u <= dxdt c u) -> m * (cy c t - cy c 0) <= cx c t - cx c 0.
Proof.
  intros Ht Hd.
  assert (K : (fun u => m * cy c u + (-1) * cx c u) t <= (fun u => m * cy c u + (-1) * cx c u) 0).
  { apply (deriv_le (fun u => m * cy c u + (-1) * cx c u) (fun u => m * dydt c u + (-1) * dxdt c u)); [lra| |].
    - intros u _. apply derivable_pt_lim_plus with (f1 := fun u => m * cy c u) (f2 := fun u => (-1) * cx c u).
      + apply derivable_pt_lim_scal with (f := cy c). apply cy_deriv.
      + apply derivable_pt_lim_scal with (f := cx c). apply cx_deriv.
    - intros u Hu. specialize (Hd u ltac:(lra)). lra. }
  cbv beta in K. lra.
Qed.
(** The largest vertical speed of a rising curve is positive. *)
Lemma max_dy_pos c T : rises c -> 0 < T <= 1 -> 0 < quad_max_between (ry (deriv2 c)) (ry (deriv1 c)) (ry (deriv0 c)) 0 T.
Proof.
  intros Hr HT. set (M := quad_max_between _ _ _ _ _). destruct (Rlt_le_dec 0 M) as [|H]; [assumption|exfalso].
  pose proof (rises_strictly c 0 T Hr ltac:(lra) ltac:(lra) ltac:(lra)) as A.
  assert (cy c T <= cy c 0).
  { apply deriv_le with (f' := dydt c); [lra|intros; apply cy_deriv|].
    intros u Hu. pose proof (quad_max_bound (ry (deriv2 c)) (ry (deriv1 c)) (ry (deriv0 c)) 0 T u ltac:(lra)) as B.
    fold M in B. unfold dydt. lra. }
  lra.
Qed.
Lemma min_dy_nonneg c T : rises c -> 0 <= T <= 1 -> 0 <= quad_min_between (ry (deriv2 c)) (ry (deriv1 c)) (ry (deriv0 c)) 0 T.
Proof.
  intros Hr HT. destruct (quad_min_attained (ry (deriv2 c)) (ry (deriv1 c)) (ry (deriv0 c)) 0 T ltac:(lra)) as (t & Ht & ->).
  apply (dydt_pos c t Hr). lra.
Qed.

Lemma transversal_after_ok solve_t left right y1 : solves solve_t -> rises left -> rises right ->
  ry (q0 left) = ry (q0 right) -> rx (q0 left) <= rx (q0 right) ->
  ry (q0 left) < y1 -> y1 <= ry (q3 left) -> y1 <= ry (q3 right) ->
  transversal_after solve_t left right y1 = true ->
  forall y tl tr, ry (q0 left) < y <= y1 -> 0 <= tl <= 1 -> 0 <= tr <= 1 -> cy left tl = y -> cy right tr = y -> cx left tl < cx right tr.
Proof.
  intros Hsol Hl Hr Ey Ex Hy1 Hy1l Hy1r Ht y tl tr Hy Htl Htr El Er.
  unfold transversal_after in Ht. cbv zeta in Ht.
  destruct (_ || _); [discriminate|]. destruct (rltb 0 (rdot _ _) && _); [discriminate|].
  destruct (Hsol left y1 Hl ltac:(lra)) as (Tl1 & Tl2). destruct (Hsol right y1 Hr ltac:(lra)) as (Tr1 & Tr2).
  set (T := solve_t left y1) in *. set (T' := solve_t right y1) in *.
  assert (HT : 0 < T). { destruct (Req_dec T 0) as [E|]; [|lra]. rewrite E, cy_0 in Tl2. lra. }
  assert (HT' : 0 < T'). { destruct (Req_dec T' 0) as [E|]; [|lra]. rewrite E, cy_0 in Tr2. lra. }
  assert (Hle : tl <= T).
  { destruct (Rle_lt_dec tl T) as [|H]; [assumption|]. pose proof (rises_strictly left T tl Hl ltac:(lra) H ltac:(lra)). lra. }
  assert (Hle' : tr <= T').
  { destruct (Rle_lt_dec tr T') as [|H]; [assumption|]. pose proof (rises_strictly right T' tr Hr ltac:(lra) H ltac:(lra)). lra. }
  assert (Hp : 0 < tl). { destruct (Req_dec tl 0) as [E|]; [|lra]. rewrite E, cy_0 in El. lra. }
  assert (Hp' : 0 < tr). { destruct (Req_dec tr 0) as [E|]; [|lra]. rewrite E, cy_0 in Er. lra. }
  set (L := quad_max_between (rx (deriv2 left)) _ _ 0 T) in *.
  set (R' := quad_min_between (rx (deriv2 right)) _ _ 0 T') in *.
  assert (BL : forall u, 0 <= u <= T -> dxdt left u <= L) by (intros; apply quad_max_bound; assumption).
  assert (BR : forall u, 0 <= u <= T' -> R' <= dxdt right u) by (intros; apply quad_min_bound; assumption).
  pose proof (max_dy_pos left T Hl ltac:(lra)) as ML. pose proof (max_dy_pos right T' Hr ltac:(lra)) as MR.
  pose proof (min_dy_nonneg left T Hl ltac:(lra)) as NL. pose proof (min_dy_nonneg right T' Hr ltac:(lra)) as NR.
  assert (AL : forall u, 0 <= u <= T -> dydt left u <= quad_max_between (ry (deriv2 left)) (ry (deriv1 left)) (ry (deriv0 left)) 0 T) by (intros; apply quad_max_bound; assumption).
  assert (AR : forall u, 0 <= u <= T' -> dydt right u <= quad_max_between (ry (deriv2 right)) (ry (deriv1 right)) (ry (deriv0 right)) 0 T') by (intros; apply quad_max_bound; assumption).
  assert (DL : forall u, 0 <= u <= T -> quad_min_between (ry (deriv2 left)) (ry (deriv1 left)) (ry (deriv0 left)) 0 T <= dydt left u) by (intros; apply quad_min_bound; assumption).
  assert (DR : forall u, 0 <= u <= T' -> quad_min_between (ry (deriv2 right)) (ry (deriv1 right)) (ry (deriv0 right)) 0 T' <= dydt right u) by (intros; apply quad_min_bound; assumption).
  set (maxl := quad_max_between (ry (deriv2 left)) _ _ 0 T) in *. set (maxr := quad_max_between (ry (deriv2 right)) _ _ 0 T') in *.
  set (minl := quad_min_between (ry (deriv2 left)) _ _ 0 T) in *. set (minr := quad_min_between (ry (deriv2 right)) _ _ 0 T') in *.
  rewrite <- cx_0, <- (cx_0 right) in Ex. rewrite <- cy_0 in Hy. rewrite <- cy_0, <- (cy_0 right) in Ey.
  destruct (rltb_spec L 0) as [HL|HL]; destruct (rltb_spec 0 R') as [HR|HR]; cbn [andb] in Ht.
  - assert (cx left tl < cx left 0). { apply deriv_lt with (f' := dxdt left); [lra|intros; apply cx_deriv|]. intros u Hu. specialize (BL u ltac:(lra)). lra. }
    assert (cx right 0 < cx right tr).
    { assert ((fun u => (-1) * cx right u) tr < (fun u => (-1) * cx right u) 0).
      { apply (deriv_lt (fun u => (-1) * cx right u) (fun u => (-1) * dxdt right u)); [lra|intros; apply derivable_pt_lim_scal with (f := cx right); apply cx_deriv|].
        intros u Hu. specialize (BR u ltac:(lra)). lra. }
      cbv beta in *. lra. }
    lra.
  - (* L < 0, R' <= 0 *)
    assert (SL : cx left tl - cx left 0 <= (L / maxl) * (cy left tl - cy left 0)).
    { apply slope_le with (T := T); [lra|]. intros u Hu. specialize (BL u Hu). specialize (AL u Hu).
      pose proof (np_mul (L / maxl) (maxl - dydt left u) ltac:(unfold Rdiv; apply np_mul; [lra|left; apply Rinv_0_lt_compat; lra]) ltac:(lra)) as K.
      replace (L / maxl * (maxl - dydt left u)) with (L - L / maxl * dydt left u) in K by (field; lra). lra. }
    destruct (rltb_spec R' 0) as [HR2|HR2].
    + destruct (rltb_spec (L * minr) (R' * maxl)) as [Hc|]; [|discriminate].
      assert (0 < minr). { destruct (Req_dec minr 0) as [E|]; [|lra]. rewrite E in Hc. nra. }
      assert (SR : (R' / minr) * (cy right tr - cy right 0) <= cx right tr - cx right 0).
      { apply slope_ge with (T := T'); [lra|]. intros u Hu. specialize (BR u Hu). specialize (DR u Hu).
        pose proof (np_mul (R' / minr) (dydt right u - minr) ltac:(unfold Rdiv; apply np_mul; [lra|left; apply Rinv_0_lt_compat; lra]) ltac:(lra)) as K.
        replace (R' / minr * (dydt right u - minr)) with (R' / minr * dydt right u - R') in K by (field; lra). lra. }
      assert (L / maxl < R' / minr).
      { apply Rmult_lt_reg_r with (maxl * minr); [nra|]. replace (L / maxl * (maxl * minr)) with (L * minr) by (field; lra).
        replace (R' / minr * (maxl * minr)) with (R' * maxl) by (field; lra). assumption. }
      rewrite El in SL. rewrite Er in SR. rewrite <- Ey in SR. nra.
    + destruct (rltb_spec (L * maxr) (R' * maxl)) as [Hc|]; [|discriminate].
      assert (SR : (R' / maxr) * (cy right tr - cy right 0) <= cx right tr - cx right 0).
      { apply slope_ge with (T := T'); [lra|]. intros u Hu. specialize (BR u Hu). specialize (AR u Hu).
        pose proof (pp_mul (R' / maxr) (maxr - dydt right u) ltac:(unfold Rdiv; apply pp_mul; [lra|left; apply Rinv_0_lt_compat; lra]) ltac:(lra)) as K.
        replace (R' / maxr * (maxr - dydt right u)) with (R' - R' / maxr * dydt right u) in K by (field; lra). lra. }
      assert (L / maxl < R' / maxr).
      { apply Rmult_lt_reg_r with (maxl * maxr); [nra|]. replace (L / maxl * (maxl * maxr)) with (L * maxr) by (field; lra).
        replace (R' / maxr * (maxl * maxr)) with (R' * maxl) by (field; lra). assumption. }
      rewrite El in SL. rewrite Er in SR. rewrite <- Ey in SR. nra.
  - (* 0 <= L, 0 < R' *)
    destruct (rltb_spec R' 0) as [HR2|HR2]; [lra|].
    destruct (rltb_spec (L * maxr) (R' * minl)) as [Hc|]; [|discriminate].
    assert (0 < minl). { destruct (Req_dec minl 0) as [E|]; [|lra]. rewrite E in Hc. nra. }
    assert (SL : cx left tl - cx left 0 <= (L / minl) * (cy left tl - cy left 0)).
    { apply slope_le with (T := T); [lra|]. intros u Hu. specialize (BL u Hu). specialize (DL u Hu).
      pose proof (pp_mul (L / minl) (dydt left u - minl) ltac:(unfold Rdiv; apply pp_mul; [lra|left; apply Rinv_0_lt_compat; lra]) ltac:(lra)) as K.
      replace (L / minl * (dydt left u - minl)) with (L / minl * dydt left u - L) in K by (field; lra). lra. }
    assert (SR : (R' / maxr) * (cy right tr - cy right 0) <= cx right tr - cx right 0).
    { apply slope_ge with (T := T'); [lra|]. intros u Hu. specialize (BR u Hu). specialize (AR u Hu).
      pose proof (pp_mul (R' / maxr) (maxr - dydt right u) ltac:(unfold Rdiv; apply pp_mul; [lra|left; apply Rinv_0_lt_compat; lra]) ltac:(lra)) as K.
      replace (R' / maxr * (maxr - dydt right u)) with (R' - R' / maxr * dydt right u) in K by (field; lra). lra. }
    assert (L / minl < R' / maxr).
    { apply Rmult_lt_reg_r with (minl * maxr); [nra|]. replace (L / minl * (minl * maxr)) with (L * maxr) by (field; lra).
      replace (R' / maxr * (minl * maxr)) with (R' * minl) by (field; lra). assumption. }
    rewrite El in SL. rewrite Er in SR. rewrite <- Ey in SR. nra.
  - (* 0 <= L, R' <= 0: not possible *)
    exfalso. destruct (rltb_spec R' 0) as [HR2|HR2].
    + destruct (rltb_spec (L * minr) (R' * minl)) as [Hc|]; [|discriminate]. nra.
    + destruct (rltb_spec (L * maxr) (R' * minl)) as [Hc|]; [|discriminate]. nra.
Qed.

(** Upside down. *)
Lemma cflip_y c t : cy (cflip c) t = - cy c (1 - t). Proof. unfold cy, cflip, rflip, bern3. cbn. ring. Qed.
Lemma cflip_x c t : cx (cflip c) t = cx c (1 - t). Proof. unfold cx, cflip, rflip, bern3. cbn. ring. Qed.
Lemma cflip_rises c : rises c -> rises (cflip c).
Proof.
  intros (Hm & He). split; [|cbn; lra]. intros s t Hs Hst Ht. rewrite !cflip_y. specialize (Hm (1 - t) (1 - s) ltac:(lra) ltac:(lra) ltac:(lra)). lra.
Qed.
Lemma transversal_before_ok solve_t left right y0 : solves solve_t -> rises left -> rises right ->
  ry (q3 left) = ry (q3 right) -> rx (q3 left) <= rx (q3 right) ->
  y0 < ry (q3 left) -> ry (q0 left) <= y0 -> ry (q0 right) <= y0 ->
  transversal_before solve_t left right y0 = true ->
  forall y tl tr, y0 <= y < ry (q3 left) -> 0 <= tl <= 1 -> 0 <= tr <= 1 -> cy left tl = y -> cy right tr = y -> cx left tl < cx right tr.
Proof.
  intros Hsol Hl Hr Ey Ex H0 H1 H2 Ht y tl tr Hy Htl Htr El Er.
  pose proof (transversal_after_ok solve_t (cflip left) (cflip right) (- y0) Hsol (cflip_rises _ Hl) (cflip_rises _ Hr)) as K.
  cbn in K. specialize (K ltac:(lra) Ex ltac:(lra) ltac:(lra) ltac:(lra) Ht (- y) (1 - tl) (1 - tr) ltac:(lra) ltac:(lra) ltac:(lra)).
  rewrite !cflip_y, !cflip_x in K. replace (1 - (1 - tl)) with tl in K by ring. replace (1 - (1 - tr)) with tr in K by ring.
  apply K; lra.
Qed.

(** There is such a solver. *)
Lemma cy_cont c y : continuity (fun t => cy c t - y).
Proof.
  intros t. apply derivable_continuous_pt. exists (dydt c t - 0).
  apply derivable_pt_lim_minus with (f2 := fun _ => y); [apply cy_deriv|apply derivable_pt_lim_const].
Qed.
Definition ideal_t (c : rcubic) (y : R) : R :=
  match Rle_dec ((cy c 0 - y) * (cy c 1 - y)) 0 with
  | left H => proj1_sig (IVT_cor (fun t => cy c t - y) 0 1 (cy_cont c y) Rle_0_1 H)
  | right _ => 0
  end.
Lemma ideal_solves : solves ideal_t.
Proof.
  intros c y Hr Hy. unfold ideal_t. destruct (Rle_dec _ 0) as [H|H].
  - destruct (IVT_cor _ _ _ _ _ _) as (z & Hz & E). cbn. split; [assumption|lra].
  - exfalso. apply H. rewrite cy_0, cy_1. apply np_mul; lra.
Qed.
