(** Proofs about the exact reading of the curve code: comparing curves. *)
From Coq Require Import Reals List Bool Lra Lia Psatz.
From Verif Require Import CurveOrderModel ExactModel ExactSpec ExactProofs ExactProofs2 ExactProofs3.
Import ListNotations.
Local Open Scope R_scope.

(** ** Pieces of curves *)
Lemma sub_y c t0 t1 t : cy (subsegment c t0 t1) t = cy c (t0 + t * (t1 - t0)).
Proof. unfold subsegment, cubic_at, deriv_at, cy, cx, bern3, bern2, deriv0, deriv1, deriv2, rtriple, rdiff. cbn [ry rx q0 q1 q2 q3]. field. Qed.
Lemma sub_x c t0 t1 t : cx (subsegment c t0 t1) t = cx c (t0 + t * (t1 - t0)).
Proof. unfold subsegment, cubic_at, deriv_at, cy, cx, bern3, bern2, deriv0, deriv1, deriv2, rtriple, rdiff. cbn [ry rx q0 q1 q2 q3]. field. Qed.
Lemma rescale_y m k c t : cy (rescale m k c) t = (cy c t - m) * k.
Proof. unfold rescale, cy, bern3. cbn. ring. Qed.
Lemma rescale_x m k c t : cx (rescale m k c) t = cx c t.
Proof. reflexivity. Qed.

Lemma cx_cont c : continuity (cx c).
Proof. intros t. apply derivable_continuous_pt. exists (dxdt c t). apply cx_deriv. Qed.



(** ** Close by control points *)
Lemma abs_le x y a : Rabs (x - y) <= a <-> - a <= x - y <= a.
Proof. unfold Rabs. destruct (Rcase_abs (x - y)); split; intros; lra. Qed.
Lemma bern3_close a b c d a' b' c' d' t m : 0 <= t <= 1 -> Rabs (a - a') <= m -> Rabs (b - b') <= m -> Rabs (c - c') <= m -> Rabs (d - d') <= m ->
  Rabs (bern3 a b c d t - bern3 a' b' c' d' t) <= m.
Proof.
  rewrite !abs_le. intros Ht A B C D.
  set (k0 := (1 - t) * (1 - t) * (1 - t)). set (k1 := 3 * (1 - t) * (1 - t) * t). set (k2 := 3 * (1 - t) * t * t). set (k3 := t * t * t).
  assert (0 <= k0) by (unfold k0; repeat apply pp_mul; lra). assert (0 <= k1) by (unfold k1; repeat apply pp_mul; lra).
  assert (0 <= k2) by (unfold k2; repeat apply pp_mul; lra). assert (0 <= k3) by (unfold k3; repeat apply pp_mul; lra).
  assert (S : k0 + k1 + k2 + k3 = 1) by (unfold k0, k1, k2, k3; ring).
  unfold bern3. fold k0 k1 k2 k3.
  pose proof (pp_mul k0 (m - (a - a')) ltac:(lra) ltac:(lra)). pose proof (pp_mul k0 (m + (a - a')) ltac:(lra) ltac:(lra)).
  pose proof (pp_mul k1 (m - (b - b')) ltac:(lra) ltac:(lra)). pose proof (pp_mul k1 (m + (b - b')) ltac:(lra) ltac:(lra)).
  pose proof (pp_mul k2 (m - (c - c')) ltac:(lra) ltac:(lra)). pose proof (pp_mul k2 (m + (c - c')) ltac:(lra) ltac:(lra)).
  pose proof (pp_mul k3 (m - (d - d')) ltac:(lra) ltac:(lra)). pose proof (pp_mul k3 (m + (d - d')) ltac:(lra) ltac:(lra)).
  assert (Em : m = k0 * m + k1 * m + k2 * m + k3 * m) by (rewrite <- !Rmult_plus_distr_r, S; ring).
  lra.
Qed.
Lemma linf_le p q m : l_infty_distance p q <= m -> Rabs (rx p - rx q) <= m /\ Rabs (ry p - ry q) <= m.
Proof. unfold l_infty_distance. pose proof (Rmax_l (Rabs (rx p - rx q)) (Rabs (ry p - ry q))). pose proof (Rmax_r (Rabs (rx p - rx q)) (Rabs (ry p - ry q))). intros; split; lra. Qed.
Lemma Rmax_split x y m : Rmax x y <= m -> x <= m /\ y <= m.
Proof. pose proof (Rmax_l x y). pose proof (Rmax_r x y). intros; split; lra. Qed.
Lemma max_distance_close c d m t : max_distance c d <= m -> 0 <= t <= 1 -> Rabs (cx c t - cx d t) <= m /\ Rabs (cy c t - cy d t) <= m.
Proof.
  intros H Ht. unfold max_distance in H. apply Rmax_split in H as (H & H3). apply Rmax_split in H as (H & H2). apply Rmax_split in H as (H0 & H1).
  apply linf_le in H0, H1, H2, H3. split; apply bern3_close; tauto.
Qed.

Section Compare.
Variable solve_t : rcubic -> R -> R.
Variable bbox : rcubic -> R * R.
Variable est : rcubic -> rparab.
Variables tolerance accuracy slack : R.
Hypothesis Hsol : solves solve_t.
Hypothesis Hbox : boxes bbox.
Hypothesis Hacc : 0 < accuracy.
Hypothesis Hslack : 0 <= slack.
Hypothesis Htol : 2 * slack < tolerance.
Variables c0 c1 : rcubic.
Hypothesis Hr0 : rises c0.
Hypothesis Hr1 : rises c1.
Hypothesis He0 : estimates est slack c0.
Hypothesis He1 : estimates est slack c1.
Variables Y0 Y1 : R.
Hypothesis HY0 : ry (q0 c0) <= Y0 /\ ry (q0 c1) <= Y0.
Hypothesis HY1 : Y1 <= ry (q3 c0) /\ Y1 <= ry (q3 c1).

Definition xat (c : rcubic) (y : R) : R := cx c (solve_t c y).
(** Two curves come close to each other near a height. *)
Definition close_near (y : R) : Prop :=
  exists y' y'', Y0 <= y' <= Y1 /\ Y0 <= y'' <= Y1 /\ Rabs (y' - y) <= Rmax tolerance accuracy /\ Rabs (y'' - y) <= Rmax tolerance accuracy /\
    Rabs (xat c0 y' - xat c1 y'') <= tolerance + accuracy + 2 * slack.
Definition says (o : order) (y : R) : Prop :=
  match o with
  | Left => xat c0 y + (tolerance - 2 * slack) <= xat c1 y
  | Right => xat c1 y + (tolerance - 2 * slack) <= xat c0 y
  | Ish => close_near y \/ exists a b, Y0 <= a /\ a <= y <= b /\ b <= Y1 /\ b - a = accuracy
  end.
Lemma says_excl : strict_excl says.
Proof. intros y (A & B). cbn in *. lra. Qed.

Lemma curve_at c : rises c -> forall y t, ry (q0 c) <= y <= ry (q3 c) -> 0 <= t <= 1 -> cy c t = y -> cx c t = xat c y /\ t = solve_t c y.
Proof.
  intros Hr y t Hy Ht E. destruct (Hsol c y Hr Hy) as (A & B). assert (t = solve_t c y) as ->; [|auto].
  apply (rises_inj c); auto. lra.
Qed.
(** The piece of a curve between two heights: the heights and [x] coordinates. *)
Section Piece.
Variable c : rcubic.
Hypothesis Hr : rises c.
Variables y0 y1 : R.
Hypothesis Hy0 : ry (q0 c) <= y0.
Hypothesis Hy : y0 <= y1.
Hypothesis Hy1 : y1 <= ry (q3 c).
Let T0 := solve_t c y0.
Let T1 := solve_t c y1.
Lemma T_range : 0 <= T0 /\ T0 <= T1 /\ T1 <= 1 /\ cy c T0 = y0 /\ cy c T1 = y1.
Proof.
  destruct (Hsol c y0 Hr ltac:(lra)) as (A & B). destruct (Hsol c y1 Hr ltac:(lra)) as (C & D). fold T0 in A, B. fold T1 in C, D.
  split; [lra|]. split; [|split; [lra|auto]]. apply Rnot_lt_le. intros H. pose proof (rises_strictly c T1 T0 Hr ltac:(lra) H ltac:(lra)). lra.
Qed.
Lemma T_lt : y0 < y1 -> T0 < T1.
Proof. intros H. pose proof T_range. destruct (Req_dec T0 T1) as [E|]; [|lra]. exfalso. rewrite E in *. lra. Qed.
Lemma piece_y t : 0 <= t <= 1 -> y0 <= cy (y_subsegment solve_t c y0 y1) t <= y1.
Proof.
  intros Ht. unfold y_subsegment. rewrite sub_y. fold T0 T1. pose proof T_range as (A & B & C & D & E).
  rewrite <- D, <- E. destruct Hr as (Hm & _). pose proof (pp_mul t (T1 - T0) ltac:(lra) ltac:(lra)). pose proof (pp_mul (1 - t) (T1 - T0) ltac:(lra) ltac:(lra)).
  split; apply Hm; lra.
Qed.
Lemma piece_x t : 0 <= t <= 1 -> cx (y_subsegment solve_t c y0 y1) t = xat c (cy (y_subsegment solve_t c y0 y1) t).
Proof.
  intros Ht. pose proof (piece_y t Ht) as P. revert P. unfold y_subsegment. rewrite sub_x, sub_y. fold T0 T1. intros P. pose proof T_range as (A & B & C & D & E).
  pose proof (pp_mul t (T1 - T0) ltac:(lra) ltac:(lra)). pose proof (pp_mul (1 - t) (T1 - T0) ltac:(lra) ltac:(lra)).
  apply (curve_at c Hr); [lra|lra|reflexivity].
Qed.
Lemma piece_solve y : y0 <= y <= y1 -> exists t, 0 <= t <= 1 /\ cy (y_subsegment solve_t c y0 y1) t = y.
Proof.
  intros H. destruct (IVT_cor (fun t => cy (y_subsegment solve_t c y0 y1) t - y) 0 1 (cy_cont _ y) Rle_0_1) as (t & Ht & E).
  - pose proof T_range as (A & B & C & D & E). unfold y_subsegment. rewrite !sub_y. fold T0 T1.
    replace (T0 + 0 * (T1 - T0)) with T0 by ring. replace (T0 + 1 * (T1 - T0)) with T1 by ring. apply np_mul; lra.
  - exists t. split; [exact Ht|lra].
Qed.
End Piece.

Lemma close_by_distance y0 y1 y : Y0 <= y0 -> y0 <= y1 -> y1 <= Y1 -> y0 <= y <= y1 ->
  max_distance (y_subsegment solve_t c0 y0 y1) (y_subsegment solve_t c1 y0 y1) <= tolerance -> says Ish y.
Proof.
  intros A B C Hy H. left.
  destruct (piece_solve c0 Hr0 y0 y1 ltac:(lra) B ltac:(lra) y Hy) as (t & Ht & Et).
  destruct (max_distance_close _ _ _ t H Ht) as (Hx & Hh). rewrite Et in Hh.
  pose proof (piece_y c1 Hr1 y0 y1 ltac:(lra) B ltac:(lra) t Ht) as P1.
  rewrite (piece_x c0 Hr0 y0 y1 ltac:(lra) B ltac:(lra) t Ht), (piece_x c1 Hr1 y0 y1 ltac:(lra) B ltac:(lra) t Ht), Et in Hx.
  exists y, (cy (y_subsegment solve_t c1 y0 y1) t).
  split; [lra|]. split; [lra|]. pose proof (Rmax_l tolerance accuracy).
  split; [rewrite Rminus_eq_0, Rabs_R0; lra|]. split; [rewrite Rabs_minus_sym; lra|]. lra.
Qed.

(** ** Close by boxes *)
Lemma boxes_meet c d : ~ snd (bbox c) + tolerance <= fst (bbox d) -> ~ snd (bbox d) + tolerance <= fst (bbox c) ->
  exists t t', 0 <= t <= 1 /\ 0 <= t' <= 1 /\ Rabs (cx c t - cx d t') <= tolerance.
Proof.
  intros H1 H2. destruct (Hbox c) as (_ & (tl & Htl & El) & (th & Hth & Eh)). destruct (Hbox d) as (_ & (tl' & Htl' & El') & (th' & Hth' & Eh')).
  destruct (Rle_dec (cx c th - cx d tl') tolerance) as [G|G].
  { exists th, tl'. split; [exact Hth|]. split; [exact Htl'|]. apply abs_le. lra. }
  destruct (Rle_dec (- tolerance) (cx c tl - cx d th')) as [G'|G'].
  { exists tl, th'. split; [exact Htl|]. split; [exact Hth'|]. apply abs_le. lra. }
  set (f := fun u => cx c (th + u * (tl - th)) - cx d (tl' + u * (th' - tl'))).
  assert (Cf : continuity f).
  { intros u. apply derivable_continuous_pt.
    exists (dxdt c (th + u * (tl - th)) * (0 + (1 * (tl - th) + u * 0)) - dxdt d (tl' + u * (th' - tl')) * (0 + (1 * (th' - tl') + u * 0))).
    assert (L : forall a b v, derivable_pt_lim (fun u => a + u * (b - a)) v (0 + (1 * (b - a) + v * 0))).
    { intros a b v.
      apply derivable_pt_lim_plus with (f1 := fun _ => a) (f2 := fun u => u * (b - a)); [apply derivable_pt_lim_const|].
      apply derivable_pt_lim_mult with (f1 := fun u => u) (f2 := fun _ => b - a); [apply derivable_pt_lim_id|apply derivable_pt_lim_const]. }
    apply derivable_pt_lim_minus with (f1 := fun u => cx c (th + u * (tl - th))) (f2 := fun u => cx d (tl' + u * (th' - tl'))).
    - apply (derivable_pt_lim_comp (fun u => th + u * (tl - th)) (cx c)); [apply L|apply cx_deriv].
    - apply (derivable_pt_lim_comp (fun u => tl' + u * (th' - tl')) (cx d)); [apply L|apply cx_deriv]. }
  destruct (IVT_cor f 0 1 Cf Rle_0_1) as (u & Hu & E).
  - unfold f. replace (th + 0 * (tl - th)) with th by ring. replace (tl' + 0 * (th' - tl')) with tl' by ring.
    replace (th + 1 * (tl - th)) with tl by ring. replace (tl' + 1 * (th' - tl')) with th' by ring. apply pn_mul; lra.
  - assert (M : forall a b, 0 <= a <= 1 -> 0 <= b <= 1 -> 0 <= a + u * (b - a) <= 1).
    { intros a b Ha Hb. pose proof (pp_mul u b ltac:(lra) ltac:(lra)). pose proof (pp_mul (1 - u) a ltac:(lra) ltac:(lra)).
      pose proof (pp_mul u (1 - b) ltac:(lra) ltac:(lra)). pose proof (pp_mul (1 - u) (1 - a) ltac:(lra) ltac:(lra)). split; lra. }
    exists (th + u * (tl - th)), (tl' + u * (th' - tl')). split; [apply M; assumption|]. split; [apply M; assumption|].
    unfold f in E. rewrite E, Rabs_R0. lra.
Qed.
Lemma says_by_boxes y0 y1 y : Y0 <= y0 -> y0 <= y1 -> y1 <= Y1 -> y0 <= y <= y1 -> y1 - y0 < accuracy ->
  let d0 := y_subsegment solve_t c0 y0 y1 in let d1 := y_subsegment solve_t c1 y0 y1 in
  says (order_of (rleb (snd (bbox d0) + tolerance) (fst (bbox d1))) (rleb (snd (bbox d1) + tolerance) (fst (bbox d0)))) y.
Proof.
  intros A B C Hy Ha d0 d1.
  destruct (piece_solve c0 Hr0 y0 y1 ltac:(lra) B ltac:(lra) y Hy) as (t & Ht & Et).
  destruct (piece_solve c1 Hr1 y0 y1 ltac:(lra) B ltac:(lra) y Hy) as (t' & Ht' & Et').
  pose proof (piece_x c0 Hr0 y0 y1 ltac:(lra) B ltac:(lra) t Ht) as X0. pose proof (piece_x c1 Hr1 y0 y1 ltac:(lra) B ltac:(lra) t' Ht') as X1.
  rewrite Et in X0. rewrite Et' in X1.
  destruct (Hbox d0) as (B0 & _). destruct (Hbox d1) as (B1 & _). specialize (B0 t Ht). specialize (B1 t' Ht'). fold d0 in X0. fold d1 in X1.
  unfold order_of. destruct (rleb_spec (snd (bbox d0) + tolerance) (fst (bbox d1))) as [G|G]; [cbn; lra|].
  destruct (rleb_spec (snd (bbox d1) + tolerance) (fst (bbox d0))) as [G'|G']; [cbn; lra|].
  left. destruct (boxes_meet d0 d1 G G') as (s & s' & Hs & Hs' & E).
  pose proof (piece_y c0 Hr0 y0 y1 ltac:(lra) B ltac:(lra) s Hs) as P0. pose proof (piece_y c1 Hr1 y0 y1 ltac:(lra) B ltac:(lra) s' Hs') as P1.
  pose proof (piece_x c0 Hr0 y0 y1 ltac:(lra) B ltac:(lra) s Hs) as S0. pose proof (piece_x c1 Hr1 y0 y1 ltac:(lra) B ltac:(lra) s' Hs') as S1.
  fold d0 in P0, S0. fold d1 in P1, S1. rewrite S0, S1 in E.
  exists (cy d0 s), (cy d1 s'). pose proof (Rmax_r tolerance accuracy).
  split; [lra|]. split; [lra|]. split; [apply abs_le; lra|]. split; [apply abs_le; lra|]. lra.
Qed.

(** ** The approximation *)
Definition piece_says (width : R) (o : order) (y : R) : Prop :=
  match o with
  | Left => xat c0 y + (tolerance - 2 * slack) <= xat c1 y
  | Right => xat c1 y + (tolerance - 2 * slack) <= xat c0 y
  | Ish => Rabs (xat c0 y - xat c1 y) <= tolerance + width + 2 * slack
  end.
Lemma table_map (P P' : order -> R -> Prop) (f : R -> R) l : forall s e, (forall x y, x <= y -> f x <= f y) ->
  (forall a b o, s <= a -> b <= e -> a <= b -> (forall y, a <= y <= b -> P o y) -> forall y, f a <= y <= f b -> P' o y) -> table P s l e ->
  table P' (f s) (map (fun x => (f (fst x), snd x)) l) (f e).
Proof.
  induction l as [|(m, o) l IH]; cbn; intros s e Hf Hm H; [congruence|].
  destruct H as (H1 & H2 & H3). split; [apply Hf; assumption|]. pose proof (table_le _ _ _ _ H3). split.
  - apply (Hm s m o); [lra|lra|lra|]. exact H2.
  - apply IH; [exact Hf| |exact H3]. intros a b o' Ha Hb Hab. apply Hm; lra.
Qed.
Lemma set_last_same P s l e : table P s l e -> set_last_end l e = l.
Proof.
  intros H. unfold set_last_end. destruct (last_opt l) as [(m, o)|] eqn:E; [|reflexivity].
  pose proof (table_last _ _ _ _ _ _ H E) as <-. symmetry. apply last_opt_split. exact E.
Qed.
Lemma rclamp_mono x y lo hi : x <= y -> rclamp x lo hi <= rclamp y lo hi.
Proof. unfold rclamp, Rmin, Rmax. intros. repeat destruct (Rle_dec _ _); lra. Qed.
Lemma rclamp_in x lo hi : lo <= x <= hi -> rclamp x lo hi = x.
Proof. unfold rclamp, Rmin, Rmax. intros. repeat destruct (Rle_dec _ _); lra. Qed.
Lemma max_param_pos p : 0 <= max_param p.
Proof. unfold max_param. pose proof (Rabs_pos (e_c0 p)). pose proof (Rmax_l (Rabs (e_c0 p)) (Rabs (e_c1 p))). pose proof (Rmax_l (Rmax (Rabs (e_c0 p)) (Rabs (e_c1 p))) (Rabs (e_c2 p))). lra. Qed.

Lemma estimate_ok y0 y1 : Y0 <= y0 -> y0 < y1 -> y1 <= Y1 ->
  let r := estimate est tolerance (y_subsegment solve_t c0 y0 y1) (y_subsegment solve_t c1 y0 y1) y0 y1 in
  ro_start (fst r) = y0 /\ table (piece_says (snd r)) y0 (ro_cmps (fst r)) y1.
Proof.
  intros A B C. unfold estimate. cbv zeta. cbn [fst snd ro_start ro_cmps]. split; [reflexivity|].
  set (mid := (y0 + y1) / 2). set (u := Rmax (y1 - y0) 1).
  assert (Hu : 0 < u) by (unfold u; pose proof (Rmax_r (y1 - y0) 1); lra).
  assert (Hk : 0 < / u) by (apply Rinv_0_lt_compat; exact Hu).
  assert (Uu : / u * u = 1) by (field; lra).
  set (p0 := rescale mid (/ u) (y_subsegment solve_t c0 y0 y1)). set (p1 := rescale mid (/ u) (y_subsegment solve_t c1 y0 y1)).
  set (E0 := est p0). set (E1 := est p1).
  pose proof (T_range c0 Hr0 y0 y1 ltac:(lra) ltac:(lra) ltac:(lra)) as (T0a & _ & T0b & _). pose proof (T_lt c0 Hr0 y0 y1 ltac:(lra) ltac:(lra) ltac:(lra) B) as T0c.
  pose proof (T_range c1 Hr1 y0 y1 ltac:(lra) ltac:(lra) ltac:(lra)) as (T1a & _ & T1b & _). pose proof (T_lt c1 Hr1 y0 y1 ltac:(lra) ltac:(lra) ltac:(lra) B) as T1c.
  destruct (He0 _ _ mid (/ u) T0a T0c T0b Hk) as (S0 & B0). destruct (He1 _ _ mid (/ u) T1a T1c T1b Hk) as (S1 & B1).
  fold (y_subsegment solve_t c0 y0 y1) in S0, B0. fold (y_subsegment solve_t c1 y0 y1) in S1, B1. fold p0 in S0, B0. fold p1 in S1, B1. fold E0 in S0, B0. fold E1 in S1, B1.
  set (err := Rmax (max_param E0) (max_param E1) * / 10 ^ 12).
  assert (Herr : 0 <= err).
  { unfold err. apply pp_mul; [|left; apply Rinv_0_lt_compat, pow_lt; lra]. pose proof (max_param_pos E0). pose proof (Rmax_l (max_param E0) (max_param E1)). lra. }
  set (dmax := e_dmax E1 - e_dmin E0 + err). set (dmin := e_dmin E1 - e_dmax E0 - err).
  set (z0 := (y0 - mid) * / u). set (z1 := (y1 - mid) * / u).
  assert (Hz : z0 < z1) by (unfold z0, z1; apply Rmult_lt_compat_r; lra).
  assert (Hlu : - dmax - tolerance < - dmin + tolerance) by (unfold dmax, dmin; lra).
  pose proof (push_quadratic_signs_ok (e_c2 E1 - e_c2 E0) (e_c1 E1 - e_c1 E0) (e_c0 E1 - e_c0 E0) (- dmax - tolerance) (- dmin + tolerance) z0 z1 (y0 - mid) Hlu Hz) as (Ht & _).
  set (cmps := ro_cmps (push_quadratic_signs _ _ _ _ _ _ _ _)) in *.
  set (f := fun z => rclamp (z * u + mid) y0 y1).
  assert (Fz0 : f z0 = y0). { unfold f, z0. replace ((y0 - mid) * / u * u + mid) with y0 by (rewrite Rmult_assoc, Uu; ring). apply rclamp_in. lra. }
  assert (Fz1 : f z1 = y1). { unfold f, z1. replace ((y1 - mid) * / u * u + mid) with y1 by (rewrite Rmult_assoc, Uu; ring). apply rclamp_in. lra. }
  assert (K : table (piece_says (dmax - dmin)) (f z0) (map (fun x => (f (fst x), snd x)) cmps) (f z1)).
  { eapply table_map; [| |exact Ht].
    - intros x y Hxy. apply rclamp_mono. pose proof (Rmult_le_compat_r u x y ltac:(lra) Hxy). lra.
    - intros a b o Ha Hb Hab HP y Hyy.
      assert (In_ : forall z, z0 <= z <= z1 -> f z = z * u + mid).
      { intros z Hzz. apply rclamp_in. split.
        - apply Rle_trans with (z0 * u + mid); [|apply Rplus_le_compat_r, Rmult_le_compat_r; lra].
          unfold z0. replace ((y0 - mid) * / u * u + mid) with y0 by (rewrite Rmult_assoc, Uu; ring). lra.
        - apply Rle_trans with (z1 * u + mid); [apply Rplus_le_compat_r, Rmult_le_compat_r; lra|].
          unfold z1. replace ((y1 - mid) * / u * u + mid) with y1 by (rewrite Rmult_assoc, Uu; ring). lra. }
      rewrite !In_ in Hyy by lra.
      assert (Hy01 : y0 <= y <= y1).
      { pose proof (In_ a ltac:(lra)) as Fa. pose proof (In_ b ltac:(lra)) as Fb.
        assert (y0 <= f a) by (rewrite <- Fz0; unfold f; apply rclamp_mono; pose proof (Rmult_le_compat_r u z0 a ltac:(lra) ltac:(lra)); lra).
        assert (f b <= y1) by (rewrite <- Fz1; unfold f; apply rclamp_mono; pose proof (Rmult_le_compat_r u b z1 ltac:(lra) ltac:(lra)); lra).
        lra. }
      set (z := (y - mid) * / u).
      assert (Hzab : a <= z <= b).
      { assert (Ez : z * u = y - mid) by (unfold z; rewrite Rmult_assoc, Uu; ring).
        split; apply Rmult_le_reg_r with u; lra. }
      specialize (HP z Hzab).
      destruct (piece_solve c0 Hr0 y0 y1 ltac:(lra) ltac:(lra) ltac:(lra) y Hy01) as (t & Htt & Et).
      destruct (piece_solve c1 Hr1 y0 y1 ltac:(lra) ltac:(lra) ltac:(lra) y Hy01) as (t' & Htt' & Et').
      pose proof (piece_x c0 Hr0 y0 y1 ltac:(lra) ltac:(lra) ltac:(lra) t Htt) as X0. pose proof (piece_x c1 Hr1 y0 y1 ltac:(lra) ltac:(lra) ltac:(lra) t' Htt') as X1.
      rewrite Et in X0. rewrite Et' in X1.
      specialize (B0 t Htt). specialize (B1 t' Htt'). 
      assert (Q0 : cy p0 t = z /\ cx p0 t = xat c0 y) by (unfold p0; rewrite rescale_x, rescale_y, Et; auto).
      assert (Q1 : cy p1 t' = z /\ cx p1 t' = xat c1 y) by (unfold p1; rewrite rescale_x, rescale_y, Et'; auto).
      rewrite (proj1 Q0), (proj2 Q0) in B0. rewrite (proj1 Q1), (proj2 Q1) in B1.
      unfold parab_at in B0, B1.
      unfold dmax, dmin in *. destruct o; cbn in HP |- *; try (apply abs_le); lra. }
  rewrite Fz0, Fz1 in K. rewrite <- (set_last_same _ _ _ _ K) in K. exact K.
Qed.

(** ** The recursion *)
Lemma push_says out y0 y1 o : table says Y0 (ro_cmps out) y0 -> y0 <= y1 -> (forall y, y0 <= y <= y1 -> says o y) ->
  table says Y0 (ro_cmps (ro_push out y1 o)) y1.
Proof. intros H1 H2 H3. destruct out as (st, l). eapply ro_push_ok; eauto using says_excl. Qed.

Lemma refine_ok rec y0 y1 width : Y0 <= y0 -> y1 <= Y1 ->
  accuracy <= y1 - y0 ->
  (forall s e out out', Y0 <= s -> s <= e -> e <= Y1 -> table says Y0 (ro_cmps out) s -> rec s e out = Some out' ->
     ro_start out' = ro_start out /\ table says Y0 (ro_cmps out') e) ->
  forall l s e out out', y0 <= s -> e <= y1 -> table (piece_says width) s l e -> table says Y0 (ro_cmps out) s ->
    refine_all accuracy rec y0 y1 width (intervals s l) out = Some out' -> ro_start out' = ro_start out /\ table says Y0 (ro_cmps out') e.
Proof.
  intros A B Hlen Hrec. induction l as [|(m, o) l IH]; intros s e out out' Hs He Hl Ho E.
  - cbn in *. injection E as <-. subst. auto.
  - cbn [table] in Hl. destruct Hl as (L1 & L2 & L3). pose proof (table_le _ _ _ _ L3) as L4. cbn [intervals refine_all] in E.
    match type of E with match ?M with _ => _ end = _ => destruct M as [out1|] eqn:E1; [|discriminate] end.
    assert (Push : (forall y, s <= y <= m -> says o y) -> Some (ro_push out m o) = Some out1 -> ro_start out1 = ro_start out /\ table says Y0 (ro_cmps out1) m).
    { intros P Q. injection Q as <-. split; [apply ro_push_start|]. apply push_says with (y0 := s); assumption. }
    assert (K : ro_start out1 = ro_start out /\ table says Y0 (ro_cmps out1) m).
    { destruct (order_eqb o Ish) eqn:Eo.
      - assert (o = Ish) as -> by (destruct o; try discriminate; reflexivity).
        destruct (rleb_spec (y1 - y0) accuracy) as [G|G]; cbn [orb] in E1.
        + apply Push; [|exact E1]. intros y Hy. right. exists y0, y1. repeat split; lra.
        + destruct (rleb_spec width accuracy) as [G'|G'].
          * apply Push; [|exact E1]. intros y Hy. left. specialize (L2 y Hy). cbn in L2. exists y, y.
            pose proof (Rmax_l tolerance accuracy). rewrite Rminus_eq_0, Rabs_R0. repeat split; lra.
          * destruct (rltb_spec (m - s) (/ 2 * (y1 - y0))).
            -- apply (Hrec s m out out1); try assumption; lra.
            -- destruct (rec s (/ 2 * (s + m)) out) as [out2|] eqn:E2; [|discriminate].
               apply Hrec in E2 as (S2 & T2); try assumption; try lra.
               apply Hrec in E1 as (S1 & T1); try assumption; try lra. split; [congruence|assumption].
      - apply Push; [|exact E1]. intros y Hy. specialize (L2 y Hy). destruct o; try discriminate; exact L2. }
    destruct K as (K1 & K2). rewrite <- K1. apply (IH m e out1 out'); [lra|exact He|exact L3|exact K2|exact E].
Qed.

Lemma compare_rec_ok fuel : forall y0 y1 out out', Y0 <= y0 -> y0 <= y1 -> y1 <= Y1 -> table says Y0 (ro_cmps out) y0 ->
  compare_rec solve_t bbox est tolerance accuracy fuel c0 c1 y0 y1 out = Some out' -> ro_start out' = ro_start out /\ table says Y0 (ro_cmps out') y1.
Proof.
  induction fuel as [|fuel IH]; intros y0 y1 out out' A B C Ht E; [discriminate|]. cbn [compare_rec] in E.
  set (d0 := y_subsegment solve_t c0 y0 y1) in *. set (d1 := y_subsegment solve_t c1 y0 y1) in *.
  destruct (rleb_spec (max_distance d0 d1) tolerance) as [G|G].
  { injection E as <-. split; [apply ro_push_start|]. apply push_says with (y0 := y0); try assumption.
    intros y Hy. apply (close_by_distance y0 y1); assumption. }
  destruct (rltb_spec (y1 - y0) accuracy) as [Ga|Ga].
  { pose proof (says_by_boxes y0 y1) as K. fold d0 d1 in K. cbv zeta in K. destruct (bbox d0) as (lo0, hi0). destruct (bbox d1) as (lo1, hi1). cbn [fst snd] in K.
    injection E as <-. split; [apply ro_push_start|]. apply push_says with (y0 := y0); try assumption. intros y Hy. apply K; assumption. }
  destruct (rotates d0 d1 y0 y1); [discriminate|].
  pose proof (estimate_ok y0 y1 A ltac:(lra) C) as K. fold d0 d1 in K. cbv zeta in K.
  destruct (estimate est tolerance d0 d1 y0 y1) as (scratch, width). cbn [fst snd] in K. destruct K as (K1 & K2).
  unfold ro_iter in E. rewrite K1 in E.
  apply (refine_ok (compare_rec solve_t bbox est tolerance accuracy fuel c0 c1) y0 y1 width A C ltac:(lra)) with (e := y1) in E; try assumption; try lra.
Qed.
End Compare.
