(** Comparing curves: release builds, where nothing checks the pushed heights. *)
From Coq Require Import List Bool ZArith Arith Lia.
From Verif Require Import F64 F64Arith TreeVecModel GeomModel SegmentsModel CurveOrderModel CurveOrderSpec CurveOrderProofs CurveOrderProofs2 CurveOrderProofs3
  SweepModel TopoModel ScanModel PosModel PosProofs CompareModel CompareSpec CompareArith CompareProofs CompareProofs2 CompareProofs3 CompareProofs4.
Import ListNotations.
Local Open Scope Z_scope.

Section Compare.
Variable sub : cubic -> f64 -> f64 -> cubic.
Variable bbox : cubic -> f64 * f64.
Variable est : cubic -> parab.
Variable solve_x : cubic -> f64 -> f64.
Variables rot unrot : bool -> point -> point -> point.
Variables tolerance accuracy : f64.
Hypothesis FA : fin accuracy = true.
Hypothesis PA : fgt accuracy fzero = true.
Notation rec d := (intersect_rec d sub bbox est solve_x rot unrot tolerance accuracy).

Lemma map_back_steady d flag center r0 r1 y0 y1 lo hi : nan y0 = false -> nan y1 = false -> nan lo = false -> nan hi = false ->
  (forall h h', fle lo h = true -> fle h h' = true -> fle h' hi = true -> fle (back solve_x unrot flag center r0 r1 h) (back solve_x unrot flag center r0 r1 h') = true) ->
  forall l E a s out out' b, chained E a l -> nan a = false -> key E <= key hi -> key lo <= key a -> good s b out -> (b <= key y0 \/ exists p, fclamp (back solve_x unrot flag center r0 r1 a) y0 y1 = Ok p /\ b = key p) ->
  map_back d solve_x unrot flag center r0 r1 y0 y1 l out = Ok out' -> key y0 <= key y1 -> b <= key y1 -> good s (key y1) out'.
Proof.
  intros N0 N1 Nl Nh HM. induction l as [|[[x h] o] l IH]; intros E a s out out' b Ch Na LE LA G HB R L01 Lb; cbn [map_back] in R; [injection R as <-; eapply good_mono; eassumption|].
  cbn [chained] in Ch. destruct Ch as (-> & Ne & L1 & L2 & Ch). ok R e E1. ok R o1 E2. fold (back solve_x unrot flag center r0 r1 h) in E1.
  assert (LB : fle lo h = true) by (fk; zb; lia). assert (LH : fle h hi = true) by (fk; zb; lia).
  assert (Nb : nan (back solve_x unrot flag center r0 r1 h) = false) by (eapply (fle_nonnan _ _ (HM h h LB ltac:(fk; zb; lia) LH))).
  destruct (fclamp_ok _ _ _ _ E1) as (_ & B & B' & _). specialize (B' Nb). destruct (B B') as (B1 & B2). pose proof (fclamp_key _ _ _ _ E1 Nb) as K.
  assert (LB2 : b <= key e).
  { destruct HB as [HB|(p & Ep & ->)]; [lia|]. assert (A1 : fle lo a = true) by (fk; zb; lia). assert (A2 : fle a h = true) by (fk; zb; lia).
    pose proof (HM a h A1 A2 LH) as M. destruct (fle_nonnan _ _ M) as (M1 & M2). rewrite (fclamp_key _ _ _ _ Ep M1), K. rewrite fle_key in M by assumption. zb. lia. }
  destruct (push_good d s b out e o o1 G B' LB2 E2) as (G1 & _). apply (IH E h s o1 out' (key e)); [exact Ch|exact Ne|exact LE|lia|exact G1| |exact R|exact L01|exact B2].
  right. exists e. split; [exact E1|reflexivity].
Qed.

(** Like [rec_good], for release builds. *)
Lemma rec_steady fuel : forall n oc0 oc1 lo hi y0 y1 s out out', steady sub solve_x rot unrot n oc0 oc1 lo hi -> nan lo = false -> nan hi = false -> key lo <= key y0 -> key y1 <= key hi ->
  tame y0 -> tame y1 -> key y0 <= key y1 -> good s (key y0) out -> rec false fuel oc0 oc1 y0 y1 out = Ok out' ->
  good s (key y1) out' /\ key (table_end out') = key y1 /\ co_cmps out' <> [].
Proof.
  induction fuel as [|f IH]; intros n oc0 oc1 lo hi y0 y1 s out out' HS Nl Nh L0 L2 T0 T1 L G E; [discriminate|].
  cbn [intersect_rec] in E. rewrite !y_subsegment_cut in E. cbn [rbind] in E.
  pose proof (fin_nonnan _ (tame_fin _ T0)) as N0. pose proof (fin_nonnan _ (tame_fin _ T1)) as N1.
  set (k0 := cut sub oc0 y0 y1) in *. set (k1 := cut sub oc1 y0 y1) in *.
  destruct (fle (max_distance k0 k1) tolerance); [eapply push_good; [exact G|exact N1|exact L|exact E]|].
  destruct (flt (fsub y1 y0) accuracy) eqn:SH; [destruct (bbox k0), (bbox k1); eapply push_good; [exact G|exact N1|exact L|exact E]|].
  assert (LT : key y0 < key y1).
  { destruct (Z.eq_dec (key y0) (key y1)) as [K|K]; [exfalso|lia]. destruct (tame_sub y1 y0 T1 T0) as (Fd & Rd).
    assert (KZ : key (fsub y1 y0) = 0). { apply (fin_keys _ fzero Fd eq_refl). rewrite Rd. apply sub_zero; [apply tame_fin; assumption..|congruence]. }
    pose proof (fin_nonnan _ Fd). pose proof (fin_nonnan _ FA). assert (nan fzero = false) by reflexivity. fk. zb. change (key fzero) with 0 in *. lia. }
  ok E r E3. destruct r as [o1|].
  - cbn in E. injection E as <-. unfold with_rotation in E3. destruct (rotation rot k0 k1 y0 y1) as [[[[flag center] r0] r1]|] eqn:RO; [|discriminate].
    fold (common_start r0 r1) (common_end r0 r1) in E3. destruct (fge (common_start r0 r1) (common_end r0 r1)) eqn:GE.
    + ok E3 o2 E5. injection E3 as <-. eapply push_good; [exact G|exact N1|exact L|exact E5].
    + ok E3 orot E5. ok E3 o2 E6. ok E3 o3 E7. injection E3 as <-.
      assert (LOb : fle lo y0 = true) by (fk; zb; exact L0). assert (LTb : flt y0 y1 = true) by (fk; zb; exact LT). assert (HIb : fle y1 hi = true) by (fk; zb; exact L2).
      destruct n as [|n]; cbn [steady] in HS; (destruct (HS y0 y1 LOb LTb HIb flag center r0 r1 RO) as [X|X]; [congruence|]); [destruct X|]. destruct X as (Ta & Tb & HM & HS').
      pose proof (fin_nonnan _ (tame_fin _ Ta)) as Na. pose proof (fin_nonnan _ (tame_fin _ Tb)) as Nb.
      set (a := common_start r0 r1) in *. set (b := common_end r0 r1) in *.
      assert (LAB : key a <= key b) by (fk; zb; lia).
      destruct (IH n r0 r1 a b a b a (co_new a) orot HS' Na Nb (Z.le_refl _) (Z.le_refl _) Ta Tb LAB (good_new a (key a) Na (Z.le_refl _)) E5) as (Gr & Kr & NEr).
      pose proof (good_wf _ _ _ Gr NEr) as Wr. pose proof (wf_chained _ Wr) as Ch. assert (Sr : co_start orot = a) by apply Gr.
      pose proof (map_back_steady false flag center r0 r1 y0 y1 a b N0 N1 Na Nb HM (co_iter orot) (table_end orot) (co_start orot) s out o2 (key y0)) as MB.
      assert (G2 : good s (key y1) o2). { rewrite Sr in MB. apply MB; [rewrite <- Sr; exact Ch|exact Na|lia|lia|exact G|left; lia|exact E6|exact L|exact L]. }
      exact (good_set_last s (key y1) o2 y1 o3 G2 N1 (Z.le_refl _) E7).
  - okp E scratch w E5. ok E x E6. destruct (estimate_good est tolerance false k0 k1 y0 y1 scratch w T0 T1 LT E5) as (Gs & Ks & NEs).
    pose proof (good_wf _ _ _ Gs NEs) as W. pose proof (wf_chained _ W) as Ch. assert (St : co_start scratch = y0) by apply Gs.
    destruct (refine_good accuracy false (rec false f oc0 oc1) y0 y1 w (table_end scratch) s (co_iter scratch) (co_start scratch) out out' T0 T1 Ks) with (7 := E) as (G2 & H2).
    + intros s0 e o1 o2 Ts Te A1 A2 A3 Go Eo. eapply (IH n oc0 oc1 lo hi s0 e s o1); [exact HS|exact Nl|exact Nh|lia|lia|exact Ts|exact Te|exact A2|exact Go|exact Eo].
    + rewrite St. exact T0.
    + rewrite St. lia.
    + exact Ch.
    + rewrite St. exact G.
    + right. unfold co_iter. destruct (co_cmps scratch); [contradiction|discriminate].
    + rewrite (chained_last _ _ Ch), Ks in G2, H2. split; [exact G2|]. apply H2. unfold co_iter. destruct (co_cmps scratch); [contradiction|discriminate].
Qed.

Notation compare d := (intersect_cubics d sub bbox est solve_x rot unrot tolerance accuracy).
Lemma compare_steady fuel n c0 c1 t : tame_curve c0 -> tame_curve c1 -> steady sub solve_x rot unrot n c0 c1 (common_start c0 c1) (common_end c0 c1) -> fle (common_start c0 c1) (common_end c0 c1) = true ->
  compare false fuel c0 c1 = Ok t -> table_between (common_start c0 c1) (common_end c0 c1) t.
Proof.
  intros H0 H1 HS LE E. destruct (common_ok c0 c1 H0 H1) as (T0 & T1 & _). pose proof (fin_nonnan _ (tame_fin _ T0)) as N0. pose proof (fin_nonnan _ (tame_fin _ T1)) as N1.
  unfold intersect_cubics in E. fold (common_start c0 c1) (common_end c0 c1) in E. set (y0 := common_start c0 c1) in *. set (y1 := common_end c0 c1) in *.
  cbn [dassert andb rbind] in E. ok E r E2. injection E as <-. assert (L : key y0 <= key y1) by (fk; zb; exact LE).
  assert (G : good y0 (key y1) r /\ key (table_end r) = key y1 /\ co_cmps r <> []).
  { destruct (flt y0 y1) eqn:F.
    - eapply (rec_steady fuel n c0 c1 y0 y1 y0 y1); [exact HS|exact N0|exact N1|lia|lia|exact T0|exact T1|exact L|exact (good_new y0 (key y0) N0 (Z.le_refl _))|exact E2].
    - assert (feq y0 y1 = true) as F2 by (fk; zb; lia). rewrite F2 in E2. destruct (if _ : bool then _ else _) as (x0 & x1). exact (push_good false y0 (key y0) _ y1 _ r (good_new y0 (key y0) N0 (Z.le_refl _)) N1 L E2). }
  destruct G as (G & K & NE). split; [exact (good_wf _ _ _ G NE)|]. split; [apply G|]. pose proof (good_end_nonnan _ _ _ G). fk. zb. exact K.
Qed.

Lemma compare_total n c0 c1 lo hi : tame_curve c0 -> tame_curve c1 -> calm sub rot accuracy n c0 c1 lo hi -> fle lo (common_start c0 c1) = true -> fle (common_end c0 c1) hi = true ->
  exists fuel0 t, forall fuel, (fuel0 <= fuel)%nat -> compare false fuel c0 c1 = Ok t.
Proof.
  intros H0 H1 CA L0 L1. destruct (common_ok c0 c1 H0 H1) as (T0 & T1 & _). pose proof (fin_nonnan _ (tame_fin _ T0)) as N0. pose proof (fin_nonnan _ (tame_fin _ T1)) as N1.
  assert (X : exists f t, compare false f c0 c1 = Ok t).
  { unfold intersect_cubics. fold (common_start c0 c1) (common_end c0 c1). set (y0 := common_start c0 c1) in *. set (y1 := common_end c0 c1) in *. cbn [dassert andb rbind].
    destruct (fle_nonnan _ _ L0) as (Na & _). destruct (fle_nonnan _ _ L1) as (_ & Nb).
    destruct (flt y0 y1) eqn:F.
    - destruct (rec_total sub bbox est solve_x rot unrot tolerance accuracy FA PA n c0 c1 lo hi CA (S (Z.to_nat (key y1 - key y0))) y0 y1 (co_new y0) N0 N1) as (f & o & E); [fk; zb; lia..|lia|].
      exists f, o. rewrite E. reflexivity.
    - destruct (feq y0 y1); [|exists 0%nat, (co_new y0); reflexivity]. destruct (if _ : bool then _ else _) as (x0 & x1). destruct (push_total (co_new y0) y1 (order_of (flt x0 (fsub x1 tolerance)) (fgt x0 (fadd x1 tolerance)))) as (c' & ->).
      exists 0%nat, c'. reflexivity. }
  destruct X as (f & t & E). exists f, t. intros fuel Lf. eapply intersect_less; [|exact Lf|exact E]. auto.
Qed.
End Compare.
