(** Comparing curves: the recursion. *)
From Coq Require Import List Bool ZArith Arith Lia.
From Verif Require Import F64 F64Arith TreeVecModel GeomModel SegmentsModel CurveOrderModel CurveOrderSpec CurveOrderProofs CurveOrderProofs2 CurveOrderProofs3
  SweepModel TopoModel ScanModel PosModel PosProofs CompareModel CompareSpec CompareArith CompareProofs.
Import ListNotations.
Local Open Scope Z_scope.

Section Compare.
Variable sub : cubic -> f64 -> f64 -> cubic.
Variable bbox : cubic -> f64 * f64.
Variable est : cubic -> parab.
Variable solve_x : cubic -> f64 -> f64.
Variables rot unrot : bool -> point -> point -> point.
Variables tolerance accuracy : f64.

Lemma estimate_good dbg c0 c1 y0 y1 scratch w : tame y0 -> tame y1 -> key y0 < key y1 -> estimate dbg est tolerance c0 c1 y0 y1 = Ok (scratch, w) ->
  good y0 (key y1) scratch /\ key (table_end scratch) = key y1 /\ co_cmps scratch <> [].
Proof.
  intros T0 T1 L E. unfold estimate in E. ok E sc E1. ok E cm E2. ok E sc' E3. injection E as <- _.
  destruct (scaled_strict y0 y1 T0 T1 L) as (F0 & F1 & LT). destruct (unscale_pos y0 y1 T0 T1) as (Fu & Pu). destruct (mid_tame y0 y1 T0 T1 L) as (Tm & Lm).
  set (y_mid := fdiv (fadd y0 y1) ftwo) in *. set (u := fmax (fsub y1 y0) fone) in *. set (k := fdiv fone u) in *.
  assert (EI : ends_in (fmul (fsub y0 y_mid) k) (fmul (fsub y1 y_mid) k) sc).
  { unfold push_quadratic_signs in E1. ok E1 x E4. ok E1 l E5. eapply pushes_in_ends; [apply fin_nonnan, F0|apply fin_nonnan, F1| | |exact E1].
    - destruct (flt_nonnan _ _ LT) as (Na & Nb). rewrite flt_key in LT by assumption. apply Z.ltb_lt in LT. apply Z.lt_le_incl, LT.
    - split; [apply adjacent_nil|]. split; [apply adjacent_nil|constructor]. }
  destruct EI as (A & B & C). pose proof (fin_nonnan _ (tame_fin _ T0)) as N0. pose proof (fin_nonnan _ (tame_fin _ T1)) as N1.
  destruct (unscale_ends y_mid u y0 y1 _ _ (co_cmps sc) (tame_fin _ Tm) Fu Pu F0 F1 cm C A E2) as (O & R & S).
  assert (G : good y0 (key y1) (mkCO y0 cm)).
  { apply (ends_in_good y0 y1 (mkCO y0 cm)); [exact N0| |lia]. split; [exact S|]. split; [|exact R]. unfold orders. cbn [co_cmps]. rewrite O. exact B. }
  exact (good_set_last y0 (key y1) _ y1 sc' G N1 (Z.le_refl _) E3).
Qed.

(** Refining, for any treatment of the close intervals that is itself all right. *)
Lemma refine_good dbg rec y0 y1 w E s l : forall a out out', tame y0 -> tame y1 -> key E = key y1 ->
  (forall s0 e out out', tame s0 -> tame e -> key y0 <= key s0 -> key s0 <= key e -> key e <= key y1 -> good s (key s0) out -> rec s0 e out = Ok out' -> good s (key e) out' /\ key (table_end out') = key e /\ co_cmps out' <> []) ->
  tame a -> key y0 <= key a -> chained E a l -> good s (key a) out -> key (table_end out) = key a \/ l <> [] ->
  refine_all dbg accuracy rec y0 y1 w l out = Ok out' ->
  good s (key (last (map (fun i => snd (fst i)) l) a)) out' /\ (l <> [] -> key (table_end out') = key (last (map (fun i => snd (fst i)) l) a) /\ co_cmps out' <> []).
Proof.
  induction l as [|[[b e] o] l IH]; intros a out out' T0 T1 EE HR Ta La Ch G HT R; cbn [refine_all] in R.
  - injection R as <-. split; [exact G|]. congruence.
  - cbn [chained] in Ch. destruct Ch as (-> & Ne & L1 & L2 & Ch). ok R o1 R1.
    assert (Te : tame e) by (apply (tame_between y0 y1); [assumption..|lia]).
    assert (ST : good s (key e) o1 /\ key (table_end o1) = key e /\ co_cmps o1 <> []).
    { destruct (order_eqb o Ish); [|eapply push_good; [exact G|exact Ne|exact L1|exact R1]].
      destruct (fle (fsub y1 y0) accuracy || fle w accuracy); [eapply push_good; [exact G|exact Ne|exact L1|exact R1]|].
      destruct (flt (fsub e a) (fmul fhalf (fsub y1 y0))).
      - eapply HR; [exact Ta|exact Te|exact La|exact L1|lia|exact G|exact R1].
      - ok R1 o2 R2. destruct (half_mid a e (tame_add _ _ Ta Te)) as (Fm & Km). destruct (tame_mid a e Ta Te L1) as (_ & Lm). rewrite <- Km in Lm.
        assert (Tm : tame (fmul fhalf (fadd a e))) by (apply (tame_between a e); [assumption..|apply fin_nonnan, Fm|lia]).
        destruct (HR a _ out o2 Ta Tm La ltac:(lia) ltac:(lia) G R2) as (G2 & _).
        eapply HR; [exact Tm|exact Te| | | |exact G2|exact R1]; lia. }
    destruct ST as (G1 & K1 & NE1). assert (LL : last (map (fun i : f64 * f64 * order => snd (fst i)) ((a, e, o) :: l)) a = last (map (fun i => snd (fst i)) l) e).
    { clear. cbn [map fst snd]. generalize (map (fun i : f64 * f64 * order => snd (fst i)) l). clear. intro l. revert a e. induction l as [|x l IH]; intros a e; [reflexivity|]. cbn [last] in *. destruct l; [reflexivity|]. apply IH. }
    rewrite LL. destruct (IH e o1 out' T0 T1 EE HR Te ltac:(lia) Ch G1 (or_introl K1) R) as (G2 & H2). split; [exact G2|]. intros _.
    destruct l as [|i l]; [|apply H2; discriminate]. cbn [refine_all] in R. injection R as <-. split; [exact K1|exact NE1].
Qed.
Lemma chained_last c E : chained E (co_start c) (co_iter c) -> last (map (fun i => snd (fst i)) (co_iter c)) (co_start c) = table_end c.
Proof.
  intros _. assert (M : forall l s, map (fun i : f64 * f64 * order => snd (fst i)) (co_iter_from s l) = map e_end l).
  { clear. induction l as [|e l IH]; intro s; [reflexivity|]. cbn [co_iter_from map fst snd]. f_equal. apply IH. }
  unfold table_end, heights, co_iter. rewrite M. destruct (map e_end (co_cmps c)); reflexivity.
Qed.

(** ** Debug builds: whatever comes out is well formed. *)
Lemma rec_good fuel : forall oc0 oc1 y0 y1 s out out', tame y0 -> tame y1 -> key y0 <= key y1 -> good s (key y0) out ->
  intersect_rec true sub bbox est solve_x rot unrot tolerance accuracy fuel oc0 oc1 y0 y1 out = Ok out' ->
  good s (key y1) out' /\ key (table_end out') = key y1 /\ co_cmps out' <> [].
Proof.
  induction fuel as [|f IH]; intros oc0 oc1 y0 y1 s out out' T0 T1 L G E; [discriminate|]. cbn [intersect_rec] in E.
  pose proof (fin_nonnan _ (tame_fin _ T0)) as N0. pose proof (fin_nonnan _ (tame_fin _ T1)) as N1.
  ok E k0 E1. ok E k1 E2. destruct (fle (max_distance k0 k1) tolerance); [eapply push_good; [exact G|exact N1|exact L|exact E]|].
  assert (LT : key y0 < key y1). { unfold y_subsegment, dassert in E1. destruct (flt y0 y1) eqn:F; [|discriminate]. fk. zb. exact F. }
  destruct (flt (fsub y1 y0) accuracy); [destruct (bbox k0), (bbox k1); eapply push_good; [exact G|exact N1|exact L|exact E]|].
  ok E r E3. destruct r as [o1|].
  - ok E x E4. injection E as <-. unfold with_rotation in E3. destruct (rotation rot k0 k1 y0 y1) as [[[[flag center] r0] r1]|]; [|discriminate].
    destruct (fge _ _).
    + ok E3 o2 E5. injection E3 as <-. eapply push_good; [exact G|exact N1|exact L|exact E5].
    + ok E3 orot E5. ok E3 o2 E6. ok E3 o3 E7. injection E3 as <-.
      assert (LE : key (table_end out) <= key y0) by (destruct G as (_ & _ & _ & _ & B); exact B).
      destruct (map_back_good solve_x unrot flag center r0 r1 y0 y1 (co_iter orot) s out o2 (good_mono _ _ _ _ G L) N0 N1 LE E6) as [G2|(e & C1 & C2 & St)].
      * exact (good_set_last s (key y1) o2 y1 o3 G2 N1 (Z.le_refl _) E7).
      * unfold set_last_end in E7. rewrite C2 in E7. cbn [last_opt orerr rbind set_last] in E7. injection E7 as <-. rewrite St.
        assert (NS : nan s = false /\ key s <= key y1). { destruct G as (A & B & _ & _ & D). unfold heights, table_end, heights in B, D. rewrite C1 in B, D. cbn in D. rewrite A in *. split; [inversion B; assumption|lia]. }
        split; [|split; [reflexivity|discriminate]]. split; [reflexivity|]. split; [repeat constructor; [apply NS|exact N1]|].
        split; [apply adjacent_cons; split; [|apply adjacent_one]; cbn; destruct NS; fk; zb; assumption|]. split; [apply adjacent_one|]. unfold table_end. cbn. lia.
  - okp E scratch w E5. ok E x E6. destruct (estimate_good true k0 k1 y0 y1 scratch w T0 T1 LT E5) as (Gs & Ks & NEs).
    pose proof (good_wf _ _ _ Gs NEs) as W. pose proof (wf_chained _ W) as Ch. assert (St : co_start scratch = y0) by apply Gs.
    destruct (refine_good true (intersect_rec true sub bbox est solve_x rot unrot tolerance accuracy f oc0 oc1) y0 y1 w (table_end scratch) s (co_iter scratch) (co_start scratch) out out' T0 T1 Ks) with (7 := E) as (G2 & H2).
    + intros s0 e o1 o2 Ts Te A1 A2 A3 Go Eo. eapply IH; [exact Ts|exact Te|exact A2|exact Go|exact Eo].
    + rewrite St. exact T0.
    + rewrite St. lia.
    + exact Ch.
    + rewrite St. exact G.
    + right. unfold co_iter. destruct (co_cmps scratch); [contradiction|discriminate].
    + rewrite (chained_last _ _ Ch), Ks in G2, H2. split; [exact G2|]. apply H2. unfold co_iter. destruct (co_cmps scratch); [contradiction|discriminate].
Qed.
End Compare.
