(** Proofs about the exact reading of the curve code: approximating parabolas. *)
From Coq Require Import Reals List Bool Lra Lia Psatz.
From Verif Require Import CurveOrderModel ExactModel ExactSpec ExactProofs.
Import ListNotations.
Local Open Scope R_scope.


Lemma fold_max_le l : forall a x, (x <= a \/ In x l) -> x <= fold_left Rmax l a.
Proof.
  induction l as [|y l IH]; cbn; intros a x H; [destruct H as [H|[]]; exact H|].
  apply IH. destruct H as [H|[H|H]]; [left| |right; exact H].
  - pose proof (Rmax_l a y). lra.
  - left. subst. apply Rmax_r.
Qed.
Lemma fold_min_le l : forall a x, (a <= x \/ In x l) -> fold_left Rmin l a <= x.
Proof.
  induction l as [|y l IH]; cbn; intros a x H; [destruct H as [H|[]]; exact H|].
  apply IH. destruct H as [H|[H|H]]; [left| |right; exact H].
  - pose proof (Rmin_l a y). lra.
  - left. subst. apply Rmin_r.
Qed.

(** A polynomial of degree four without constant part, and its derivative. *)
Definition quartic (f0 f1 f2 f3 t : R) : R := f0 * t + f1 * / 2 * (t * t) + f2 * / 3 * (t * (t * t)) + f3 * / 4 * (t * (t * (t * t))).
Definition cubicp (f0 f1 f2 f3 t : R) : R := f0 + f1 * t + f2 * (t * t) + f3 * (t * (t * t)).
Lemma dlim_pow2 t : derivable_pt_lim (fun t => t * t) t (2 * t).
Proof. replace (2 * t) with (1 * t + t * 1) by ring. apply derivable_pt_lim_mult with (f1 := fun t => t) (f2 := fun t => t); apply derivable_pt_lim_id. Qed.
Lemma dlim_pow3 t : derivable_pt_lim (fun t => t * (t * t)) t (3 * (t * t)).
Proof.
  replace (3 * (t * t)) with (1 * (t * t) + t * (2 * t)) by ring.
  apply derivable_pt_lim_mult with (f1 := fun t => t) (f2 := fun t => t * t); [apply derivable_pt_lim_id|apply dlim_pow2].
Qed.
Lemma dlim_pow4 t : derivable_pt_lim (fun t => t * (t * (t * t))) t (4 * (t * (t * t))).
Proof.
  replace (4 * (t * (t * t))) with (1 * (t * (t * t)) + t * (3 * (t * t))) by ring.
  apply derivable_pt_lim_mult with (f1 := fun t => t) (f2 := fun t => t * (t * t)); [apply derivable_pt_lim_id|apply dlim_pow3].
Qed.
Lemma quartic_deriv f0 f1 f2 f3 t : derivable_pt_lim (quartic f0 f1 f2 f3) t (cubicp f0 f1 f2 f3 t).
Proof.
  replace (cubicp f0 f1 f2 f3 t) with (f0 * 1 + f1 * / 2 * (2 * t) + f2 * / 3 * (3 * (t * t)) + f3 * / 4 * (4 * (t * (t * t))))
    by (unfold cubicp; field).
  unfold quartic.
  apply derivable_pt_lim_plus with (f1 := fun t => f0 * t + f1 * / 2 * (t * t) + f2 * / 3 * (t * (t * t))) (f2 := fun t => f3 * / 4 * (t * (t * (t * t)))).
  2: { apply derivable_pt_lim_scal with (f := fun t => t * (t * (t * t))). apply dlim_pow4. }
  apply derivable_pt_lim_plus with (f1 := fun t => f0 * t + f1 * / 2 * (t * t)) (f2 := fun t => f2 * / 3 * (t * (t * t))).
  2: { apply derivable_pt_lim_scal with (f := fun t => t * (t * t)). apply dlim_pow3. }
  apply derivable_pt_lim_plus with (f1 := fun t => f0 * t) (f2 := fun t => f1 * / 2 * (t * t)).
  2: { apply derivable_pt_lim_scal with (f := fun t => t * t). apply dlim_pow2. }
  apply derivable_pt_lim_scal with (f := fun t => t). apply derivable_pt_lim_id.
Qed.
(** It is largest at an end, where it is zero, or at a root of its derivative. *)
Lemma quartic_max f0 f1 f2 f3 t : quartic f0 f1 f2 f3 1 = 0 -> 0 <= t <= 1 ->
  quartic f0 f1 f2 f3 t <= 0 \/
  exists u, 0 <= u <= 1 /\ ~ (f0 = 0 /\ f1 = 0 /\ f2 = 0 /\ f3 = 0) /\ cubicp f0 f1 f2 f3 u = 0 /\ quartic f0 f1 f2 f3 t <= quartic f0 f1 f2 f3 u.
Proof.
  intros H1 Ht. destruct (Rle_lt_dec (quartic f0 f1 f2 f3 t) 0) as [H|H]; [left; exact H|right].
  assert (Z0 : quartic f0 f1 f2 f3 0 = 0) by (unfold quartic; ring).
  destruct (continuity_ab_maj (quartic f0 f1 f2 f3) 0 1 ltac:(lra)) as (M & HM & HM1).
  { intros c _. apply derivable_continuous_pt. exists (cubicp f0 f1 f2 f3 c). apply quartic_deriv. }
  pose proof (HM t Ht) as Hm. exists M. split; [exact HM1|].
  assert (M <> 0) by (intros ->; lra). assert (M <> 1) by (intros ->; lra).
  split. { intros (-> & -> & -> & ->). unfold quartic in H. lra. }
  split; [|exact Hm].
  pose (pr := exist (fun l => derivable_pt_abs (quartic f0 f1 f2 f3) M l) _ (quartic_deriv f0 f1 f2 f3 M) : derivable_pt (quartic f0 f1 f2 f3) M).
  change (derive_pt (quartic f0 f1 f2 f3) M pr = 0).
  apply (deriv_maximum (quartic f0 f1 f2 f3) 0 1 M pr); [lra|lra|]. intros x Hx Hx'. apply HM. lra.
Qed.

Section Estimate.
Variable roots : R -> R -> R -> R -> list R.
Hypothesis Hroots : finds_roots roots.

(** The error of a parabola along a quadratic curve. *)
Definition qerr (k0' k1' k2' : R) (q : rquad) (t : R) : R :=
  let p := quad_at q t in rx p - (k0' + k1' * ry p + k2' * (ry p * ry p)).
Lemma errors_bound c0 c1 c2 q t : qerr c0 c1 c2 q 0 = 0 -> qerr c0 c1 c2 q 1 = 0 -> 0 <= t <= 1 ->
  (qerr c0 c1 c2 q t <= 0 \/ exists x, In x (errors roots c0 c1 c2 q) /\ qerr c0 c1 c2 q t <= x) /\
  (0 <= qerr c0 c1 c2 q t \/ exists x, In x (errors roots c0 c1 c2 q) /\ x <= qerr c0 c1 c2 q t).
Proof.
  intros H0 H1 Ht. unfold errors, tangencies. destruct (quad_parameters q) as ((p0, p1), p2) eqn:Ep. cbn [ry rx].
  set (f0 := ry p1 * (c1 + 2 * c2 * ry p0) - rx p1).
  set (f1 := ry p1 * (2 * c2 * ry p1) + 2 * ry p2 * (c1 + 2 * c2 * ry p0) - 2 * rx p2).
  set (f2 := ry p1 * (2 * c2 * ry p2) + 2 * ry p2 * (2 * c2 * ry p1)).
  set (f3 := 2 * ry p2 * (2 * c2 * ry p2)).
  assert (Q : forall u, qerr c0 c1 c2 q u = qerr c0 c1 c2 q 0 - quartic f0 f1 f2 f3 u).
  { intros u. unfold quad_parameters in Ep. injection Ep as <- <- <-. unfold f0, f1, f2, f3, qerr, quartic, quad_at, bern2. cbn [ry rx]. field. }
  rewrite H0 in Q.
  assert (Z1 : quartic f0 f1 f2 f3 1 = 0) by (specialize (Q 1); lra).
  assert (K : forall u, 0 <= u <= 1 -> cubicp f0 f1 f2 f3 u = 0 -> ~ (f0 = 0 /\ f1 = 0 /\ f2 = 0 /\ f3 = 0) ->
    In (qerr c0 c1 c2 q u) (map (fun t => rx (quad_at q t) - (c0 + c1 * ry (quad_at q t) + c2 * (ry (quad_at q t) * ry (quad_at q t))))
      (filter (fun t => rleb 0 t && rleb t 1) (roots f0 f1 f2 f3)))).
  { intros u Hu Hz Hn. apply in_map_iff. exists u. split; [reflexivity|]. apply filter_In. split.
    - apply Hroots; [exact Hn|exact Hu|exact Hz].
    - destruct (rleb_spec 0 u); [|lra]. destruct (rleb_spec u 1); [reflexivity|lra]. }
  split.
  - assert (N : forall u, quartic (- f0) (- f1) (- f2) (- f3) u = - quartic f0 f1 f2 f3 u) by (intros; unfold quartic; ring).
    destruct (quartic_max (- f0) (- f1) (- f2) (- f3) t) as [H|(u & Hu & Hn & Hz & H)]; [rewrite N; lra|exact Ht| |].
    + left. rewrite Q. rewrite N in H. lra.
    + right. exists (qerr c0 c1 c2 q u). rewrite !N in H. split; [|rewrite !Q; lra].
      apply K; [exact Hu| |intros (A & B & C & D); apply Hn; lra].
      replace (cubicp f0 f1 f2 f3 u) with (- cubicp (- f0) (- f1) (- f2) (- f3) u) by (unfold cubicp; ring). lra.
  - destruct (quartic_max f0 f1 f2 f3 t Z1 Ht) as [H|(u & Hu & Hn & Hz & H)].
    + left. rewrite Q. lra.
    + right. exists (qerr c0 c1 c2 q u). split; [|rewrite !Q; lra]. apply K; assumption.
Qed.

Variable c : rcubic.
Hypothesis Hdy : ry (q0 c) <> ry (q3 c).
Let e := from_cubic roots c.

Lemma est_end : parab_at e (ry (q3 c)) = rx (q3 c).
Proof. unfold e, from_cubic, parab_at. cbv zeta. cbn [e_c0 e_c1 e_c2]. set (A := _ / (_ * _)). field. lra. Qed.
Lemma est_start : parab_at e (ry (q0 c)) = rx (q0 c).
Proof. unfold e, from_cubic, parab_at. cbv zeta. cbn [e_c0 e_c1 e_c2]. ring. Qed.

Lemma hybrid_mix t : cx c t = (1 - t) * rx (quad_at (hybrid0 c) t) + t * rx (quad_at (hybrid1 c) t) /\
                     cy c t = (1 - t) * ry (quad_at (hybrid0 c) t) + t * ry (quad_at (hybrid1 c) t).
Proof. unfold cx, cy, hybrid0, hybrid1, quad_at, rlerp, bern2, bern3. cbn. split; field. Qed.

Lemma est_signs : e_dmin e <= 0 <= e_dmax e.
Proof. unfold e, from_cubic. cbv zeta. cbn [e_dmin e_dmax]. split; [apply fold_min_le|apply fold_max_le]; left; lra. Qed.
Lemma qerr_parab q t : qerr (e_c0 e) (e_c1 e) (e_c2 e) q t = rx (quad_at q t) - parab_at e (ry (quad_at q t)).
Proof. unfold qerr, parab_at. ring. Qed.
Lemma hybrid_bound q t : q = hybrid0 c \/ q = hybrid1 c -> 0 <= t <= 1 ->
  e_dmin e <= rx (quad_at q t) - parab_at e (ry (quad_at q t)) <= e_dmax e.
Proof.
  intros Hq Ht. rewrite <- qerr_parab.
  assert (E0 : quad_at q 0 = q0 c) by (destruct Hq as [->| ->]; unfold quad_at, hybrid0, hybrid1, rlerp, bern2; cbn; destruct (q0 c); cbn; f_equal; ring).
  assert (E1 : quad_at q 1 = q3 c) by (destruct Hq as [->| ->]; unfold quad_at, hybrid0, hybrid1, rlerp, bern2; cbn; destruct (q3 c); cbn; f_equal; ring).
  assert (Z0 : qerr (e_c0 e) (e_c1 e) (e_c2 e) q 0 = 0) by (rewrite qerr_parab, E0, est_start; ring).
  assert (Z1 : qerr (e_c0 e) (e_c1 e) (e_c2 e) q 1 = 0) by (rewrite qerr_parab, E1, est_end; ring).
  destruct (errors_bound (e_c0 e) (e_c1 e) (e_c2 e) q t Z0 Z1 Ht) as (Hi & Lo).
  assert (S : incl (errors roots (e_c0 e) (e_c1 e) (e_c2 e) q)
    (errors roots (e_c0 e) (e_c1 e) (e_c2 e) (hybrid0 c) ++ errors roots (e_c0 e) (e_c1 e) (e_c2 e) (hybrid1 c))).
  { intros x Hx. apply in_or_app. destruct Hq as [->| ->]; auto. }
  set (v := qerr _ _ _ q t) in *.
  split.
  - change (e_dmin e) with (fold_left Rmin (errors roots (e_c0 e) (e_c1 e) (e_c2 e) (hybrid0 c) ++ errors roots (e_c0 e) (e_c1 e) (e_c2 e) (hybrid1 c)) 0).
    destruct Lo as [H|(x & Hx & H)]; [apply fold_min_le; left; exact H|].
    eapply Rle_trans; [|exact H]. apply fold_min_le. right. apply S, Hx.
  - change (e_dmax e) with (fold_left Rmax (errors roots (e_c0 e) (e_c1 e) (e_c2 e) (hybrid0 c) ++ errors roots (e_c0 e) (e_c1 e) (e_c2 e) (hybrid1 c)) 0).
    destruct Hi as [H|(x & Hx & H)]; [apply fold_max_le; left; exact H|].
    eapply Rle_trans; [exact H|]. apply fold_max_le. right. apply S, Hx.
Qed.

Lemma bump t : 0 <= t <= 1 -> 0 <= 4 * (t * (1 - t)) ^ 3 <= / 16.
Proof.
  intros Ht. set (u := t * (1 - t)). assert (0 <= u <= / 4). { unfold u. split; [apply pp_mul; lra|]. pose proof (Rle_0_sqr (t - / 2)) as K. unfold Rsqr in K. nra. }
  assert (0 <= u * u <= / 16) by (split; nra). split.
  - assert (0 <= u * (u * u)) by (apply pp_mul; lra). replace (4 * u ^ 3) with (4 * (u * (u * u))) by ring. lra.
  - assert ((/ 4 - u) * (u * u) >= 0) by (pose proof (pp_mul (/ 4 - u) (u * u) ltac:(lra) ltac:(lra)); lra).
    replace (4 * u ^ 3) with (4 * (u * (u * u))) by ring. lra.
Qed.
Lemma est_error t : exists E, cx c t - parab_at e (cy c t) = E + e_c2 e * unevenness c * unevenness c * (4 * (t * (1 - t)) ^ 3) /\
  E = (1 - t) * (rx (quad_at (hybrid0 c) t) - parab_at e (ry (quad_at (hybrid0 c) t))) + t * (rx (quad_at (hybrid1 c) t) - parab_at e (ry (quad_at (hybrid1 c) t))).
Proof.
  eexists. split; [|reflexivity]. destruct (hybrid_mix t) as (-> & ->).
  assert (U : ry (quad_at (hybrid0 c) t) - ry (quad_at (hybrid1 c) t) = - 2 * (t * (1 - t)) * unevenness c).
  { unfold unevenness, quad_at, hybrid0, hybrid1, rlerp, bern2. cbn. field. }
  set (a := ry (quad_at (hybrid0 c) t)) in *. set (b := ry (quad_at (hybrid1 c) t)) in *.
  unfold parab_at. replace (e_c2 e * unevenness c * unevenness c * (4 * (t * (1 - t)) ^ 3)) with (e_c2 e * (t * (1 - t)) * ((- 2 * (t * (1 - t)) * unevenness c) * (- 2 * (t * (1 - t)) * unevenness c))) by ring.
  rewrite <- U. ring.
Qed.
Lemma est_bounds t : 0 <= t <= 1 ->
  let s := Rabs (e_c2 e) * unevenness c * unevenness c / 16 in
  (0 <= e_c2 e -> e_dmin e <= cx c t - parab_at e (cy c t) <= e_dmax e + s) /\
  (e_c2 e <= 0 -> e_dmin e - s <= cx c t - parab_at e (cy c t) <= e_dmax e).
Proof.
  intros Ht s. destruct (est_error t) as (E & -> & HE).
  pose proof (hybrid_bound (hybrid0 c) t (or_introl eq_refl) Ht) as B0. pose proof (hybrid_bound (hybrid1 c) t (or_intror eq_refl) Ht) as B1.
  set (x0 := rx (quad_at (hybrid0 c) t) - _) in *. set (x1 := rx (quad_at (hybrid1 c) t) - _) in *.
  assert (BE : e_dmin e <= E <= e_dmax e).
  { pose proof (pp_mul (1 - t) (x0 - e_dmin e) ltac:(lra) ltac:(lra)). pose proof (pp_mul t (x1 - e_dmin e) ltac:(lra) ltac:(lra)).
    pose proof (pp_mul (1 - t) (e_dmax e - x0) ltac:(lra) ltac:(lra)). pose proof (pp_mul t (e_dmax e - x1) ltac:(lra) ltac:(lra)). lra. }
  pose proof (bump t Ht) as Hb. set (k := 4 * (t * (1 - t)) ^ 3) in *. set (w := unevenness c) in *.
  assert (W : 0 <= w * w) by (apply (Rle_0_sqr w)).
  split; intros H; unfold s.
  - rewrite Rabs_pos_eq by exact H. pose proof (pp_mul _ _ H W) as A.
    pose proof (pp_mul _ _ A (proj1 Hb)) as A1. pose proof (pp_mul _ (/ 16 - k) A ltac:(lra)) as A2.
    replace (e_c2 e * w * w * k) with (e_c2 e * (w * w) * k) by ring. lra.
  - rewrite Rabs_left1 by exact H. pose proof (pp_mul (- e_c2 e) _ ltac:(lra) W) as A.
    pose proof (pp_mul _ _ A (proj1 Hb)) as A1. pose proof (pp_mul _ (/ 16 - k) A ltac:(lra)) as A2.
    replace (e_c2 e * w * w * k) with (- (- e_c2 e * (w * w) * k)) by ring. lra.
Qed.

(** ** Equal areas *)
Definition area_to (t : R) : R :=
  let a0 := rx (q0 c) in let a1 := 3 * (rx (q1 c) - rx (q0 c)) in let a2 := 3 * (rx (q2 c) - 2 * rx (q1 c) + rx (q0 c)) in
  let a3 := rx (q3 c) - 3 * rx (q2 c) + 3 * rx (q1 c) - rx (q0 c) in
  let b1 := 3 * (ry (q1 c) - ry (q0 c)) in let b2 := 3 * (ry (q2 c) - 2 * ry (q1 c) + ry (q0 c)) in
  let b3 := ry (q3 c) - 3 * ry (q2 c) + 3 * ry (q1 c) - ry (q0 c) in
  quartic (a0 * b1) (2 * a0 * b2 + a1 * b1) (3 * a0 * b3 + 2 * a1 * b2 + a2 * b1) (3 * a1 * b3 + 2 * a2 * b2 + a3 * b1) t
  + ((3 * a2 * b3 + 2 * a3 * b2) * / 5 * (t * (t * (t * (t * t)))) + 3 * a3 * b3 * / 6 * (t * (t * (t * (t * (t * t)))))).
Lemma area_to_deriv t : derivable_pt_lim area_to t (cx c t * dydt c t).
Proof.
  unfold area_to. cbv zeta.
  set (a0 := rx (q0 c)). set (a1 := 3 * (rx (q1 c) - rx (q0 c))). set (a2 := 3 * (rx (q2 c) - 2 * rx (q1 c) + rx (q0 c))).
  set (a3 := rx (q3 c) - 3 * rx (q2 c) + 3 * rx (q1 c) - rx (q0 c)).
  set (b1 := 3 * (ry (q1 c) - ry (q0 c))). set (b2 := 3 * (ry (q2 c) - 2 * ry (q1 c) + ry (q0 c))).
  set (b3 := ry (q3 c) - 3 * ry (q2 c) + 3 * ry (q1 c) - ry (q0 c)).
  set (g0 := a0 * b1). set (g1 := 2 * a0 * b2 + a1 * b1). set (g2 := 3 * a0 * b3 + 2 * a1 * b2 + a2 * b1). set (g3 := 3 * a1 * b3 + 2 * a2 * b2 + a3 * b1).
  set (g4 := 3 * a2 * b3 + 2 * a3 * b2). set (g5 := 3 * a3 * b3).
  replace (cx c t * dydt c t) with (cubicp g0 g1 g2 g3 t + (g4 * / 5 * (5 * (t * (t * (t * t)))) + g5 * / 6 * (6 * (t * (t * (t * (t * t))))))).
  2: { unfold cubicp, g0, g1, g2, g3, g4, g5, a0, a1, a2, a3, b1, b2, b3, cx, dydt, bern3, quad_eval, deriv0, deriv1, deriv2, rtriple, rdiff. cbn [ry rx]. field. }
  assert (D5 : derivable_pt_lim (fun t => t * (t * (t * (t * t)))) t (5 * (t * (t * (t * t))))).
  { replace (5 * (t * (t * (t * t)))) with (1 * (t * (t * (t * t))) + t * (4 * (t * (t * t)))) by ring.
    apply derivable_pt_lim_mult with (f1 := fun t => t) (f2 := fun t => t * (t * (t * t))); [apply derivable_pt_lim_id|apply dlim_pow4]. }
  assert (D6 : derivable_pt_lim (fun t => t * (t * (t * (t * (t * t))))) t (6 * (t * (t * (t * (t * t)))))).
  { replace (6 * (t * (t * (t * (t * t))))) with (1 * (t * (t * (t * (t * t)))) + t * (5 * (t * (t * (t * t))))) by ring.
    apply derivable_pt_lim_mult with (f1 := fun t => t) (f2 := fun t => t * (t * (t * (t * t)))); [apply derivable_pt_lim_id|exact D5]. }
  apply derivable_pt_lim_plus with (f1 := quartic g0 g1 g2 g3) (f2 := fun t => g4 * / 5 * (t * (t * (t * (t * t)))) + g5 * / 6 * (t * (t * (t * (t * (t * t)))))).
  - apply quartic_deriv.
  - apply derivable_pt_lim_plus with (f1 := fun t => g4 * / 5 * (t * (t * (t * (t * t))))) (f2 := fun t => g5 * / 6 * (t * (t * (t * (t * (t * t)))))).
    + apply derivable_pt_lim_scal with (f := fun t => t * (t * (t * (t * t)))). exact D5.
    + apply derivable_pt_lim_scal with (f := fun t => t * (t * (t * (t * (t * t))))). exact D6.
Qed.
Lemma dlim_parab t : derivable_pt_lim (fun t => cy c t * (e_c0 e + cy c t * (e_c1 e * / 2 + cy c t * (e_c2 e * / 3)))) t (parab_at e (cy c t) * dydt c t).
Proof.
  pose proof (cy_deriv c t) as D. fold (dydt c t) in D.
  replace (parab_at e (cy c t) * dydt c t) with
    (dydt c t * (e_c0 e + cy c t * (e_c1 e * / 2 + cy c t * (e_c2 e * / 3))) +
     cy c t * (0 + (dydt c t * (e_c1 e * / 2 + cy c t * (e_c2 e * / 3)) + cy c t * (0 + (dydt c t * (e_c2 e * / 3) + cy c t * 0)))))
    by (unfold parab_at; field).
  apply derivable_pt_lim_mult with (f1 := cy c) (f2 := fun t => e_c0 e + cy c t * (e_c1 e * / 2 + cy c t * (e_c2 e * / 3))); [exact D|].
  apply derivable_pt_lim_plus with (f1 := fun _ => e_c0 e) (f2 := fun t => cy c t * (e_c1 e * / 2 + cy c t * (e_c2 e * / 3))); [apply derivable_pt_lim_const|].
  apply derivable_pt_lim_mult with (f1 := cy c) (f2 := fun t => e_c1 e * / 2 + cy c t * (e_c2 e * / 3)); [exact D|].
  apply derivable_pt_lim_plus with (f1 := fun _ => e_c1 e * / 2) (f2 := fun t => cy c t * (e_c2 e * / 3)); [apply derivable_pt_lim_const|].
  apply derivable_pt_lim_mult with (f1 := cy c) (f2 := fun _ => e_c2 e * / 3); [exact D|apply derivable_pt_lim_const].
Qed.
Lemma est_area : exists G, (forall t, derivable_pt_lim G t ((cx c t - parab_at e (cy c t)) * dydt c t)) /\ G 0 = G 1.
Proof.
  exists (fun t => area_to t - cy c t * (e_c0 e + cy c t * (e_c1 e * / 2 + cy c t * (e_c2 e * / 3)))). split.
  - intros t. replace ((cx c t - parab_at e (cy c t)) * dydt c t) with (cx c t * dydt c t - parab_at e (cy c t) * dydt c t) by ring.
    apply derivable_pt_lim_minus with (f1 := area_to); [apply area_to_deriv|apply dlim_parab].
  - rewrite cy_0, cy_1. unfold e, from_cubic. cbv zeta. cbn [e_c0 e_c1 e_c2]. unfold area_to, cubic_area, line_area, rcross, quartic. cbv zeta. field. lra.
Qed.
End Estimate.
