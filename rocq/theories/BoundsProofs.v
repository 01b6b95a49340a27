(** Proofs about bounding boxes. *)
From Coq Require Import ZArith Bool Lia Reals Lra Psatz List.
From Flocq Require Import Core BinarySingleNaN.
From Verif Require Import F64 F64Arith CurveOrderProofs TreeVecModel GeomModel SegmentsModel SweepModel PosModel CompareModel CompareArith LineSpec LineProofs LineProofs2 NearArith QuadProofs ExactModel ExactSpec CubicModel CubicSpec CubicProofs CubicProofs2 CubicProofs3 CubicProofs4 BoundsModel BoundsSpec.
Import ListNotations.
Local Open Scope R_scope.

(** Exchanging the coordinates. *)
Definition flipp (p : point) : point := mkPoint (px p) (py p).
Definition flipc (c : cubic) : cubic := mkCubic (flipp (cb0 c)) (flipp (cb1 c)) (flipp (cb2 c)) (flipp (cb3 c)).
Lemma flipc_twice c : flipc (flipc c) = c.
Proof. destruct c as [[] [] [] []]. reflexivity. Qed.
Lemma flip_within M c : curve_within M c -> curve_within M (flipc c).
Proof. unfold curve_within, within. cbn. tauto. Qed.
Lemma flip_cx c t : cx (real_curve (flipc c)) t = cy (real_curve c) t.
Proof. reflexivity. Qed.
Lemma flip_cy c t : cy (real_curve (flipc c)) t = cx (real_curve c) t.
Proof. reflexivity. Qed.

Section Box.
Variable candidates : cubic -> list f64.
Definition flipk (c : cubic) : list f64 := candidates (flipc c).
Lemma bounds_x M acc : finds_bounds candidates M acc -> finds_extremes candidates M acc.
Proof. intros F c W s S. apply (proj1 (F c W s S)). Qed.
Lemma bounds_y M acc : finds_bounds candidates M acc -> finds_extremes flipk M acc.
Proof. intros F c W s S. apply (proj2 (F (flipc c) (flip_within M c W) s S)). Qed.
Lemma box_split c : (bx0 (cubic_bounds candidates c), bx1 (cubic_bounds candidates c)) = box_x candidates c /\
  (by0 (cubic_bounds candidates c), by1 (cubic_bounds candidates c)) = box_x flipk (flipc c).
Proof.
  unfold cubic_bounds, box_x. replace (extrema flipk (flipc c)) with (extrema candidates c) by (unfold extrema, flipk; rewrite flipc_twice; reflexivity).
  change (fun b t => let x := px (eval_cubic (flipc c) t) in (fmin (fst b) x, fmax (snd b) x)) with (fun b t => (fmin (fst b) (py (eval_cubic c t)), fmax (snd b) (py (eval_cubic c t)))).
  change (fun b t => let x := px (eval_cubic c t) in (fmin (fst b) x, fmax (snd b) x)) with (fun b t => (fmin (fst b) (px (eval_cubic c t)), fmax (snd b) (px (eval_cubic c t)))).
  change (px (cb0 (flipc c))) with (py (cb0 c)). change (px (cb3 (flipc c))) with (py (cb3 c)).
  assert (G : forall r x y x' y', (bx0 r, bx1 r) = (x, x') -> (by0 r, by1 r) = (y, y') -> forall ts,
    (bx0 (fold_left (fun r t => union_pt r (eval_cubic c t)) ts r), bx1 (fold_left (fun r t => union_pt r (eval_cubic c t)) ts r)) = fold_left (fun b t => (fmin (fst b) (px (eval_cubic c t)), fmax (snd b) (px (eval_cubic c t)))) ts (x, x') /\
    (by0 (fold_left (fun r t => union_pt r (eval_cubic c t)) ts r), by1 (fold_left (fun r t => union_pt r (eval_cubic c t)) ts r)) = fold_left (fun b t => (fmin (fst b) (py (eval_cubic c t)), fmax (snd b) (py (eval_cubic c t)))) ts (y, y')).
  { intros r x y x' y' EX EY ts. revert r x y x' y' EX EY. induction ts as [|t ts IH]; intros r x y x' y' EX EY; [split; assumption|]. cbn [fold_left fst snd]. injection EX as <- <-. injection EY as <- <-. apply IH; reflexivity. }
  apply G; reflexivity.
Qed.
End Box.

(** One coordinate of the box of one curve. *)
Section One.
Variable candidates : cubic -> list f64.
Variable c : cubic.
Variable M : R.
Hypothesis CW : curve_within M c.
Hypothesis MV : usual_size M.
Notation tau := (tau M).
Notation b := (box_x candidates c).
Lemma one_box : fin (fst b) = true /\ fin (snd b) = true /\
  (exists s, 0 <= s <= 1 /\ Rabs (B2R (fst b) - cx (real_curve c) s) <= 55 * tau) /\
  (exists s, 0 <= s <= 1 /\ Rabs (B2R (snd b) - cx (real_curve c) s) <= 55 * tau) /\
  (forall x, In x [px (cb0 c); px (cb3 c)] -> B2R (fst b) <= B2R x <= B2R (snd b)) /\
  (forall t, In t (extrema candidates c) -> B2R (fst b) <= B2R (px (eval_cubic c t)) <= B2R (snd b)).
Proof.
  pose proof (M_nonneg c M CW) as M0. destruct (tau_pos M M0) as (TP & _).
  unfold box_x. set (ts := extrema candidates c). set (x0 := px (cb0 c)). set (x3 := px (cb3 c)).
  assert (E : fold_left (fun b t => (fmin (fst b) (px (eval_cubic c t)), fmax (snd b) (px (eval_cubic c t)))) ts (fmin x0 x3, fmax x0 x3)
    = fold_left (fun b x => (fmin (fst b) x, fmax (snd b) x)) (map (fun t => px (eval_cubic c t)) ts) (fmin x0 x3, fmax x0 x3)).
  { generalize (fmin x0 x3, fmax x0 x3). induction ts as [|t ts IH]; intros b; [reflexivity|]. cbn [fold_left map]. apply IH. }
  cbv zeta. rewrite E.
  assert (F0 : fin x0 = true) by apply CW. assert (F3 : fin x3 = true) by apply CW.
  destruct (fmin_R x0 x3 F0 F3) as (FL & EL). destruct (fmax_R x0 x3 F0 F3) as (FH & EH).
  assert (UN : forall t, In t ts -> in_unit t). { intros t I. apply extrema_unit in I as (_ & F & R). split; [exact F|lra]. }
  assert (FA : Forall (fun x => fin x = true) (map (fun t => px (eval_cubic c t)) ts)). { apply Forall_forall. intros x I. apply in_map_iff in I as (t & <- & I). apply (eval_val c M CW MV t (UN t I)). }
  destruct (fold_box _ _ _ FL FH FA) as (G1 & G2 & (w1 & I1 & V1) & (w2 & I2 & V2) & B1 & B2).
  set (r := fold_left _ _ _) in *. split; [exact G1|]. split; [exact G2|].
  assert (P : forall x, In x (x0 :: x3 :: map (fun t => px (eval_cubic c t)) ts) -> exists s, 0 <= s <= 1 /\ Rabs (B2R x - cx (real_curve c) s) <= 55 * tau).
  { intros x [<-|[<-|I]].
    - exists 0. split; [lra|]. replace (cx (real_curve c) 0) with (B2R x0) by (unfold cx, bern3; cbn [real_curve real_point q0 q1 q2 q3 rx]; fold x0; ring). rewrite Rminus_diag_eq, Rabs_R0; [lra|reflexivity].
    - exists 1. split; [lra|]. replace (cx (real_curve c) 1) with (B2R x3) by (unfold cx, bern3; cbn [real_curve real_point q0 q1 q2 q3 rx]; fold x3; ring). rewrite Rminus_diag_eq, Rabs_R0; [lra|reflexivity].
    - apply in_map_iff in I as (t & <- & I). apply UN in I as U. exists (B2R t). split; [apply U|]. apply (eval_val c M CW MV t U). }
  split; [|split; [|split]].
  - destruct I1 as [<-|I1]; [|rewrite V1; apply P; right; right; exact I1]. rewrite V1, EL. destruct (Rmin_case (B2R x0) (B2R x3)) as [(-> & _)|(-> & _)]; apply P; cbn; auto.
  - destruct I2 as [<-|I2]; [|rewrite V2; apply P; right; right; exact I2]. rewrite V2, EH. destruct (Rmax_case' (B2R x0) (B2R x3)) as [(-> & _)|(-> & _)]; apply P; cbn; auto.
  - intros x I. pose proof (B1 _ (or_introl eq_refl)) as K1. pose proof (B2 _ (or_introl eq_refl)) as K2. rewrite EL in K1. rewrite EH in K2.
    pose proof (Rmin_l (B2R x0) (B2R x3)). pose proof (Rmin_r (B2R x0) (B2R x3)). pose proof (Rmax_l (B2R x0) (B2R x3)). pose proof (Rmax_r (B2R x0) (B2R x3)).
    destruct I as [<-|[<-|[]]]; lra.
  - intros t I. split; [apply B1|apply B2]; right; apply in_map_iff; exists t; auto.
Qed.
Lemma one_covers acc s : finds_extremes candidates M acc -> 0 <= s <= 1 ->
  B2R (fst b) <= cx (real_curve c) s + acc + 55 * tau /\ cx (real_curve c) s - acc - 55 * tau <= B2R (snd b).
Proof.
  intros FX RS. pose proof (M_nonneg c M CW) as M0. destruct (tau_pos M M0) as (TP & _). destruct one_box as (_ & _ & _ & _ & BE & BX).
  destruct (FX c CW s RS) as (lo & hi & LO & HI & B).
  assert (G : forall w, w = 0 \/ w = 1 \/ (exists t, In t (candidates c) /\ fin t = true /\ 0 < B2R t < 1 /\ w = B2R t) -> B2R (fst b) - 55 * tau <= cx (real_curve c) w <= B2R (snd b) + 55 * tau).
  { intros w [->|[->|(t & I & F & R & ->)]].
    - replace (cx (real_curve c) 0) with (B2R (px (cb0 c))) by (unfold cx, bern3; cbn [real_curve real_point q0 q1 q2 q3 rx]; ring). pose proof (BE _ (or_introl eq_refl)). lra.
    - replace (cx (real_curve c) 1) with (B2R (px (cb3 c))) by (unfold cx, bern3; cbn [real_curve real_point q0 q1 q2 q3 rx]; ring). pose proof (BE _ (or_intror (or_introl eq_refl))). lra.
    - assert (I' : In t (extrema candidates c)) by (apply extrema_unit; auto). specialize (BX t I'). destruct (eval_val c M CW MV t ltac:(split; [exact F|lra])) as ((_ & _ & K & _) & _). apply abs_le in K. lra. }
  apply G in LO, HI. lra.
Qed.
End One.

(** Straight segments as curves. *)
Lemma par_twothirds : par (fdiv ftwo (f64_of_Z 3)) (2 / 3) (2 / 3) (2 / 3 + / 100).
Proof.
  change (f64_of_Z 3) with fthree. change ftwo with F64Arith.ftwo.
  destruct (fdiv_fin F64Arith.ftwo fthree eq_refl) as (F & V). { rewrite three_R. lra. } { rewrite ftwo_R, three_R. apply big_fin. apply Rle_trans with 1; [apply abs_le; lra|]. change 1 with (bpow radix2 0). apply bpow_le. lia. }
  rewrite ftwo_R, three_R in V. split; [exact F|]. split; [apply abs_le; lra|]. split; [|lra]. rewrite V. apply Rle_trans with (1 := any_err _). pose proof h_u. pose proof u_pos. rewrite Rabs_pos_eq by lra. lra.
Qed.
Section Straight.
Variables p q : point.
Variable M : R.
Hypothesis WP : within M p.
Hypothesis WQ : within M q.
Hypothesis MV : usual_size M.
Notation tau := (tau M).
Notation coord := (coord M).
Notation c := (to_cubic (SLine p q)).
Ltac pm := first [eassumption|lra].
Lemma M_pos : 0 <= M.
Proof. destruct WP as (_ & _ & B & _). apply Rle_trans with (2 := B). apply Rabs_pos. Qed.
Lemma third_val a b w v : fin a = true -> fin b = true -> Rabs (B2R a) <= M -> Rabs (B2R b) <= M -> par w v (2 / 3) (2 / 3 + / 100) -> 0 <= v <= 1 ->
  coord (fadd a (fmul w (fsub b a))) ((1 - v) * B2R a + v * B2R b) 1 (8 + / 2).
Proof.
  intros FA FB BA BB P V. pose proof M_pos as M0. assert (MB : M <= bpow radix2 1000). { apply Rle_trans with (1 := proj2 MV). apply bpow_le. lia. }
  assert (CA : coord a (B2R a) 1 0) by (apply coord_exact; [exact FA|lra|lra]). assert (CB : coord b (B2R b) 1 0) by (apply coord_exact; [exact FB|lra|lra]).
  pose proof (coord_sub M M0 MB _ _ _ _ _ _ _ _ 2 (2 + / 50) CB CA ltac:(lra) ltac:(lra)) as D.
  pose proof (coord_mul_l M M0 MB _ _ _ _ _ _ _ _ (4 / 3) (6 - / 10) P D ltac:(lra) ltac:(lra)) as E.
  pose proof (coord_add M M0 MB _ _ _ _ _ _ _ _ (7 / 3) (8 + / 2) CA E ltac:(lra) ltac:(lra)) as G.
  replace (B2R a + v * (B2R b - B2R a)) with ((1 - v) * B2R a + v * B2R b) in G by ring.
  apply (coord_bound M _ _ _ _ 1) in G; [exact G| |lra]. rewrite Rmult_1_l. apply convex; assumption.
Qed.
Lemma straight_ctrl : 
  (coord (px (cb1 c)) ((1 - 1 / 3) * B2R (px p) + 1 / 3 * B2R (px q)) 1 (8 + / 2) /\ coord (py (cb1 c)) ((1 - 1 / 3) * B2R (py p) + 1 / 3 * B2R (py q)) 1 (8 + / 2)) /\
  (coord (px (cb2 c)) ((1 - 2 / 3) * B2R (px p) + 2 / 3 * B2R (px q)) 1 (8 + / 2) /\ coord (py (cb2 c)) ((1 - 2 / 3) * B2R (py p) + 2 / 3 * B2R (py q)) 1 (8 + / 2)).
Proof.
  destruct WP as (A & B & C & D), WQ as (A' & B' & C' & D').
  assert (P1 : par (fdiv fone (f64_of_Z 3)) (1 / 3) (2 / 3) (2 / 3 + / 100)) by (apply (par_weak _ _ (1 / 3) (1 / 3 + / 100)); [lra|lra|exact par_third]).
  pose proof par_twothirds as P2. cbn [to_cubic cb1 cb2 lerp_third px py]. split; split; apply third_val; first [assumption|lra].
Qed.
Lemma straight_within : 9 * tau <= M -> curve_within (2 * M) c.
Proof.
  intros TM. pose proof M_pos as M0. destruct straight_ctrl as ((S1 & S1') & (S2 & S2')). destruct (tau_pos M M0) as (TP & _).
  assert (G : forall p v, coord p v 1 (8 + / 2) -> fin p = true /\ Rabs (B2R p) <= 2 * M). { intros z v (F & B & E & _). split; [exact F|]. apply Rle_trans with (1 := abs_near _ _ _ _ B E). lra. }
  assert (H : forall z, within M z -> within (2 * M) z). { intros z (A & B & C & D). repeat split; first [assumption|lra]. }
  split; [apply H, WP|]. split; [split; [apply (G _ _ S1)|]; split; [apply (G _ _ S1')|]; split; [apply (G _ _ S1)|apply (G _ _ S1')]|].
  split; [split; [apply (G _ _ S2)|]; split; [apply (G _ _ S2')|]; split; [apply (G _ _ S2)|apply (G _ _ S2')]|]. apply H, WQ.
Qed.
Lemma straight_near s : 0 <= s <= 1 ->
  Rabs (cx (real_curve c) s - ((1 - s) * B2R (px p) + s * B2R (px q))) <= (8 + / 2) * tau /\
  Rabs (cy (real_curve c) s - ((1 - s) * B2R (py p) + s * B2R (py q))) <= (8 + / 2) * tau.
Proof.
  intros S. pose proof M_pos as M0. destruct (tau_pos M M0) as (TP & _).
  destruct straight_ctrl as (((_ & _ & S1 & _) & (_ & _ & S1' & _)) & ((_ & _ & S2 & _) & (_ & _ & S2' & _))).
  assert (L : forall a b b1 b2, Rabs (b1 - ((1 - 1 / 3) * a + 1 / 3 * b)) <= (8 + / 2) * tau -> Rabs (b2 - ((1 - 2 / 3) * a + 2 / 3 * b)) <= (8 + / 2) * tau ->
    Rabs (bern3 a b1 b2 b s - ((1 - s) * a + s * b)) <= (8 + / 2) * tau).
  { intros a b b1 b2 E1 E2. replace (bern3 a b1 b2 b s - ((1 - s) * a + s * b)) with (bern3 0 (b1 - ((1 - 1 / 3) * a + 1 / 3 * b)) (b2 - ((1 - 2 / 3) * a + 2 / 3 * b)) 0 s) by (unfold bern3; field).
    apply bern3_abs; [exact S|rewrite Rabs_R0; lra|exact E1|exact E2|rewrite Rabs_R0; lra]. }
  split; apply L; assumption.
Qed.
End Straight.

(** Any segment. *)
Section Segment.
Variable candidates : cubic -> list f64.
Variable M : R.
Hypothesis MV : bpow radix2 (-900) <= M <= bpow radix2 998.
Notation tau := (tau M).
Notation slack := (128 * (u * M)).
Lemma sizes : usual_size M /\ usual_size (2 * M) /\ 0 <= M /\ 0 <= tau /\ 9 * tau <= M /\ 55 * CubicProofs.tau (2 * M) + (8 + / 2) * tau <= slack.
Proof.
  destruct MV as (L & H). pose proof (bpow_gt_0 radix2 (-900)) as P. assert (M0 : 0 <= M) by lra. destruct (tau_pos M M0) as (TP & _).
  assert (E : bpow radix2 999 = 2 * bpow radix2 998) by (change 999%Z with (1 + 998)%Z; rewrite bpow_plus; reflexivity).
  assert (U1 : usual_size M) by (split; lra). pose proof (tau_M M U1) as T. pose proof u_pos as UP. pose proof u_4 as U4.
  assert (UM : 0 <= u * M <= / 1000000 * M). { split; [apply Rmult_le_pos; lra|]. apply Rmult_le_compat_r; lra. }
  assert (T2 : CubicProofs.tau (2 * M) <= 2 * tau). { unfold CubicProofs.tau. pose proof h_u. assert (0 <= h) by (unfold h; apply bpow_ge_0). lra. }
  split; [exact U1|]. split; [split; lra|]. repeat split; lra.
Qed.
Lemma seg_param s : segment_within M s -> curve_within (2 * M) (to_cubic s) /\
  px (cb0 (to_cubic s)) = px (seg_start s) /\ py (cb0 (to_cubic s)) = py (seg_start s) /\ px (cb3 (to_cubic s)) = px (seg_end s) /\ py (cb3 (to_cubic s)) = py (seg_end s) /\
  exists PX PY : R -> R, (forall Y X, point_of s Y X <-> exists t, 0 <= t <= 1 /\ Y = PY t /\ X = PX t) /\
    forall t, 0 <= t <= 1 -> Rabs (cx (real_curve (to_cubic s)) t - PX t) <= (8 + / 2) * tau /\ Rabs (cy (real_curve (to_cubic s)) t - PY t) <= (8 + / 2) * tau.
Proof.
  destruct sizes as (U1 & _ & M0 & TP & T9 & _). destruct s as [p q|p0 p1 p2 p3]; intros W.
  - destruct W as (WP & WQ). split; [apply straight_within; assumption|]. split; [reflexivity|]. split; [reflexivity|]. split; [reflexivity|]. split; [reflexivity|].
    exists (fun t => (1 - t) * B2R (px p) + t * B2R (px q)), (fun t => (1 - t) * B2R (py p) + t * B2R (py q)). split; [intros Y X; reflexivity|]. intros t T. apply straight_near; assumption.
  - split. { assert (H : forall z, within M z -> within (2 * M) z) by (intros z (A & B & C & D); repeat split; first [assumption|lra]). destruct W as (A & B & C & D). repeat split; apply H; assumption. }
    split; [reflexivity|]. split; [reflexivity|]. split; [reflexivity|]. split; [reflexivity|].
    exists (cx (real_curve (mkCubic p0 p1 p2 p3))), (cy (real_curve (mkCubic p0 p1 p2 p3))). split.
    + intros Y X. cbn [point_of]. unfold passes. split; intros (t & T & A & B); exists t; auto.
    + intros t T. cbn [to_cubic]. rewrite !Rminus_diag_eq by reflexivity. rewrite Rabs_R0. split; lra.
Qed.
Definition finite_rect (r : rect) : Prop := fin (bx0 r) = true /\ fin (by0 r) = true /\ fin (bx1 r) = true /\ fin (by1 r) = true.
Lemma seg_box s : segment_within M s -> let r := cubic_bounds candidates (to_cubic s) in finite_rect r /\
  (forall p, p = seg_start s \/ p = seg_end s -> B2R (bx0 r) <= B2R (px p) <= B2R (bx1 r) /\ B2R (by0 r) <= B2R (py p) <= B2R (by1 r)) /\
  (exists Y X, point_of s Y X /\ Rabs (B2R (bx0 r) - X) <= slack) /\ (exists Y X, point_of s Y X /\ Rabs (B2R (bx1 r) - X) <= slack) /\
  (exists Y X, point_of s Y X /\ Rabs (B2R (by0 r) - Y) <= slack) /\ (exists Y X, point_of s Y X /\ Rabs (B2R (by1 r) - Y) <= slack) /\
  (forall acc, finds_bounds candidates (2 * M) acc -> forall Y X, point_of s Y X -> nearly_in r (acc + slack) Y X).
Proof.
  intros W r. destruct sizes as (_ & U2 & M0 & TP & _ & SL). destruct (seg_param s W) as (CW & E0 & E0' & E3 & E3' & PX & PY & PO & NEAR).
  set (c := to_cubic s) in *. destruct (box_split candidates c) as (BX & BY). fold r in BX, BY.
  pose proof (one_box candidates c _ CW U2) as OX. pose proof (one_box (flipk candidates) (flipc c) _ (flip_within _ _ CW) U2) as OY. rewrite <- BX in OX. rewrite <- BY in OY. cbn [fst snd] in OX, OY.
  destruct OX as (F1 & F2 & (s1 & S1 & V1) & (s2 & S2 & V2) & EX & _). destruct OY as (F3 & F4 & (s3 & S3 & V3) & (s4 & S4 & V4) & EY & _). rewrite flip_cx in V3, V4.
  assert (PT : forall t, 0 <= t <= 1 -> point_of s (PY t) (PX t)). { intros t T. apply PO. exists t. auto. }
  split; [repeat split; assumption|]. split; [|split; [|split; [|split; [|split]]]].
  - intros p [->| ->].
    + split; [rewrite <- E0; apply EX; left; reflexivity|rewrite <- E0'; apply EY; left; reflexivity].
    + split; [rewrite <- E3; apply EX; right; left; reflexivity|rewrite <- E3'; apply EY; right; left; reflexivity].
  - exists (PY s1), (PX s1). split; [apply PT, S1|]. apply Rle_trans with (1 := abs_dist _ _ _ _ _ V1 (proj1 (NEAR _ S1))). exact SL.
  - exists (PY s2), (PX s2). split; [apply PT, S2|]. apply Rle_trans with (1 := abs_dist _ _ _ _ _ V2 (proj1 (NEAR _ S2))). exact SL.
  - exists (PY s3), (PX s3). split; [apply PT, S3|]. apply Rle_trans with (1 := abs_dist _ _ _ _ _ V3 (proj2 (NEAR _ S3))). exact SL.
  - exists (PY s4), (PX s4). split; [apply PT, S4|]. apply Rle_trans with (1 := abs_dist _ _ _ _ _ V4 (proj2 (NEAR _ S4))). exact SL.
  - intros acc FB Y X P. apply PO in P as (t & T & -> & ->). destruct (NEAR t T) as (NX & NY). apply abs_le in NX, NY.
    pose proof (one_covers candidates c _ CW U2 acc t (bounds_x _ _ _ FB) T) as KX. pose proof (one_covers (flipk candidates) (flipc c) _ (flip_within _ _ CW) U2 acc t (bounds_y _ _ _ FB) T) as KY.
    rewrite flip_cx in KY. rewrite <- BX in KX. rewrite <- BY in KY. cbn [fst snd] in KX, KY. split; lra.
Qed.

(** The union of the boxes. *)
Lemma fold_mins (xs : list f64) : forall a, fin a = true -> Forall (fun x => fin x = true) xs -> let r := fold_left fmin xs a in
  fin r = true /\ (exists x, In x (a :: xs) /\ B2R r = B2R x) /\ (forall x, In x (a :: xs) -> B2R r <= B2R x).
Proof.
  induction xs as [|x xs IH]; intros a FA F; cbn [fold_left].
  - split; [exact FA|]. split; [exists a; cbn; auto|]. intros x [<-|[]]. lra.
  - inversion F as [|? ? Fx Fxs]; subst. destruct (fmin_R a x FA Fx) as (F1 & E1). destruct (IH _ F1 Fxs) as (G1 & (w1 & I1 & V1) & B1). split; [exact G1|]. split.
    + destruct I1 as [<-|I1]; [|exists w1; split; [right; right; exact I1|exact V1]]. rewrite E1 in V1. destruct (Rmin_case (B2R a) (B2R x)) as [(Q & _)|(Q & _)]; rewrite Q in V1; [exists a|exists x]; cbn; auto.
    + pose proof (B1 _ (or_introl eq_refl)) as K. rewrite E1 in K. pose proof (Rmin_l (B2R a) (B2R x)). pose proof (Rmin_r (B2R a) (B2R x)). intros z [<-|[<-|I]]; [lra|lra|apply B1; right; exact I].
Qed.
Lemma fold_maxs (xs : list f64) : forall a, fin a = true -> Forall (fun x => fin x = true) xs -> let r := fold_left fmax xs a in
  fin r = true /\ (exists x, In x (a :: xs) /\ B2R r = B2R x) /\ (forall x, In x (a :: xs) -> B2R x <= B2R r).
Proof.
  induction xs as [|x xs IH]; intros a FA F; cbn [fold_left].
  - split; [exact FA|]. split; [exists a; cbn; auto|]. intros x [<-|[]]. lra.
  - inversion F as [|? ? Fx Fxs]; subst. destruct (fmax_R a x FA Fx) as (F1 & E1). destruct (IH _ F1 Fxs) as (G1 & (w1 & I1 & V1) & B1). split; [exact G1|]. split.
    + destruct I1 as [<-|I1]; [|exists w1; split; [right; right; exact I1|exact V1]]. rewrite E1 in V1. destruct (Rmax_case' (B2R a) (B2R x)) as [(Q & _)|(Q & _)]; rewrite Q in V1; [exists a|exists x]; cbn; auto.
    + pose proof (B1 _ (or_introl eq_refl)) as K. rewrite E1 in K. pose proof (Rmax_l (B2R a) (B2R x)). pose proof (Rmax_r (B2R a) (B2R x)). intros z [<-|[<-|I]]; [lra|lra|apply B1; right; exact I].
Qed.
Notation box s := (cubic_bounds candidates (to_cubic s)).
Notation join := (fold_left (fun r s => union r (box s))).
Lemma join_parts ss : forall r, join ss r = mkRect (fold_left fmin (map (fun s => bx0 (box s)) ss) (bx0 r)) (fold_left fmin (map (fun s => by0 (box s)) ss) (by0 r))
  (fold_left fmax (map (fun s => bx1 (box s)) ss) (bx1 r)) (fold_left fmax (map (fun s => by1 (box s)) ss) (by1 r)).
Proof. induction ss as [|s ss IH]; intros r; [destruct r; reflexivity|]. cbn [fold_left map]. rewrite IH. reflexivity. Qed.
Lemma inf_min x : fin x = true -> fmin (B754_infinity false) x = x.
Proof. destruct x as [[]|[]| |[] m e V]; try discriminate; reflexivity. Qed.
Lemma inf_max x : fin x = true -> fmax (B754_infinity true) x = x.
Proof. destruct x as [[]|[]| |[] m e V]; try discriminate; reflexivity. Qed.
Lemma box_join s ss : (forall t, In t (s :: ss) -> segment_within M t) -> let r := bounding_box candidates (s :: ss) in finite_rect r /\
  (forall t, In t (s :: ss) -> B2R (bx0 r) <= B2R (bx0 (box t)) /\ B2R (by0 r) <= B2R (by0 (box t)) /\ B2R (bx1 (box t)) <= B2R (bx1 r) /\ B2R (by1 (box t)) <= B2R (by1 r)) /\
  (exists t, In t (s :: ss) /\ B2R (bx0 r) = B2R (bx0 (box t))) /\ (exists t, In t (s :: ss) /\ B2R (by0 r) = B2R (by0 (box t))) /\
  (exists t, In t (s :: ss) /\ B2R (bx1 r) = B2R (bx1 (box t))) /\ (exists t, In t (s :: ss) /\ B2R (by1 r) = B2R (by1 (box t))).
Proof.
  intros W r. assert (FB : forall t, In t (s :: ss) -> finite_rect (box t)) by (intros t I; apply (seg_box t (W t I))).
  assert (E : r = join ss (box s)).
  { unfold r, bounding_box. cbn [fold_left]. f_equal. destruct (FB s (or_introl eq_refl)) as (A & B & C & D). unfold union. cbn [bx0 by0 bx1 by1].
    rewrite (inf_min _ A), (inf_min _ B), (inf_max _ C), (inf_max _ D). destruct (box s). reflexivity. }
  rewrite E, join_parts. cbn [bx0 by0 bx1 by1].
  assert (FA : forall f : rect -> f64, (forall t, In t (s :: ss) -> fin (f (box t)) = true) -> Forall (fun x => fin x = true) (map (fun s => f (box s)) ss)).
  { intros f H. apply Forall_forall. intros x I. apply in_map_iff in I as (t & <- & I). apply H. right. exact I. }
  assert (IN : forall (f : rect -> f64) x, In x (f (box s) :: map (fun s => f (box s)) ss) <-> exists t, In t (s :: ss) /\ x = f (box t)).
  { intros f x. split.
    - intros [<-|I]; [exists s; split; [left; reflexivity|reflexivity]|]. apply in_map_iff in I as (t & <- & I). exists t. split; [right; exact I|reflexivity].
    - intros (t & [<-|I] & ->); [left; reflexivity|right]. apply in_map_iff. exists t. auto. }
  destruct (fold_mins _ _ (proj1 (FB s (or_introl eq_refl))) (FA bx0 (fun t I => proj1 (FB t I)))) as (G1 & (w1 & I1 & V1) & L1).
  destruct (fold_mins _ _ (proj1 (proj2 (FB s (or_introl eq_refl)))) (FA by0 (fun t I => proj1 (proj2 (FB t I))))) as (G2 & (w2 & I2 & V2) & L2).
  destruct (fold_maxs _ _ (proj1 (proj2 (proj2 (FB s (or_introl eq_refl))))) (FA bx1 (fun t I => proj1 (proj2 (proj2 (FB t I)))))) as (G3 & (w3 & I3 & V3) & L3).
  destruct (fold_maxs _ _ (proj2 (proj2 (proj2 (FB s (or_introl eq_refl))))) (FA by1 (fun t I => proj2 (proj2 (proj2 (FB t I)))))) as (G4 & (w4 & I4 & V4) & L4).
  split; [repeat split; assumption|]. split; [|split; [|split; [|split]]].
  - intros t I. split; [apply L1, (IN bx0); exists t; auto|]. split; [apply L2, (IN by0); exists t; auto|]. split; [apply L3, (IN bx1); exists t; auto|apply L4, (IN by1); exists t; auto].
  - apply (IN bx0) in I1 as (t & I & ->). exists t. auto.
  - apply (IN by0) in I2 as (t & I & ->). exists t. auto.
  - apply (IN bx1) in I3 as (t & I & ->). exists t. auto.
  - apply (IN by1) in I4 as (t & I & ->). exists t. auto.
Qed.
End Segment.
