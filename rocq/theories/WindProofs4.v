(** Winding numbers: the invariant of the topology builder. *)
From Coq Require Import List Bool ZArith Arith Lia Permutation Sorted.
From Verif Require Import F64 F64Arith TreeVecModel GeomModel SegmentsModel SegmentsSpec SegmentsProofs CurveOrderModel CurveOrderProofs SweepModel SweepSpec
  SweepProofs2 SweepProofs10 RangeModel RangeSpec RangeProofs3 RangeProofs4 RangeProofs5 TopoModel TopoSpec TopoProofs TopoProofs2 TopoProofs3 TopoProofs4 TopoProofs5 TopoProofs6 TopoProofs7 TopoProofs8 TopoProofs9 WindSpec WindProofs WindProofs2 WindProofs3.
Import ListNotations.

Section Inv.
Context {W T : Type}.
Variable ops : wops W T.
Hypothesis OK : wops_ok ops.
Infix "+w" := (w_add ops) (at level 50, left associativity).
Notation w0 := (w_zero ops).
Variable tag : list T.
Variable a : arena.
Variable eps : f64.
Variables lower upper : segment -> f64 -> f64 -> f64.
Variable at_y : segment -> f64 -> f64.
Variable sort_by : forall A : Type, (A -> A -> comparison) -> list A -> list A.
Hypothesis SP : sweepable a.
Hypothesis TAG : length tag = arena_len a.
Hypothesis ORI : length (orientation a) = arena_len a.
Hypothesis CC : closed_contours a tag.
Notation tline := (tline a eps lower upper at_y sort_by).
Notation st c := (fst (ci_segs c)).
Notation en c := (snd (ci_segs c)).
Notation gain := (gain ops a tag).
Notation igains := (igains ops tag a).
Notation ugains := (ugains ops tag a).
Notation dgains := (dgains ops a tag).
Notation ogains := (ogains ops a tag).
Notation vwinds := (vwinds ops a tag).
Notation rstep := (rstep ops a tag eps lower upper at_y sort_by).

(** An open output segment of input segment [i] steps by the gain of [i]. *)
Definition gainful (tw : list (wpair W)) (O : nat -> option nat) : Prop :=
  forall i o, O i = Some o -> exists p, nth_error tw o = Some p /\ wn_ccw p = wn_cw p +w gain i true.
Lemma up_chain tw O is : gainful tw O -> (forall i, In i is -> O i <> None) -> forall w u, wchain tw w (map (val O) is) u -> u = w +w wsum ops (map (fun i => gain i true) is).
Proof.
  intros GF. induction is as [|i is IH]; intros HO w u H; cbn [map wchain] in *; [rewrite H; cbn; symmetry; apply wadd_0, OK|]. destruct H as (p & H1 & H2 & H3). unfold val in H1.
  destruct (O i) as [o|] eqn:E; [|exfalso; apply (HO i); [left; reflexivity|exact E]]. destruct (GF i o E) as (p' & P1 & P2). assert (p' = p) by congruence. subst p'.
  rewrite (IH (fun j Hj => HO j (or_intror Hj)) _ _ H3), P2, H2. cbn. rewrite <- (wo_assoc _ OK). reflexivity.
Qed.

(** All positions of a range. *)
Lemma views_chain (t : topo W) tw O : t_wind t = tw -> gainful tw O -> forall l pre post inn oin w u vb,
  (forall v, In v l -> wsum ops (igains v) +w wsum ops (ugains v) = wsum ops (dgains v) +w wsum ops (ogains v)) ->
  chained inn l -> tw = pre ++ vwinds w l ++ post -> wchain tw w oin u -> u = wend ops w (map (fun q => gain (fst q) (snd q)) inn) ->
  length oin = length inn -> (forall i, In i (ups l) -> O i <> None) -> wchain tw u (map (val O) (ups l)) vb ->
  wchain tw w (odowns (vrecs (length pre) O oin l)) vb /\ Forall (fun r => Forall (agree t) (cyclic r)) (map vring (vrecs (length pre) O oin l)).
Proof.
  intros TW GF. induction l as [|v l IH]; intros pre post inn oin w u vb BAL CH E HI HU LI HO HUP; cbn [chained vrecs vwinds] in *.
  - subst inn. destruct oin; [|discriminate]. cbn in *. split; [congruence|constructor].
  - destruct CH as [<- CH]. unfold ups in HO, HUP. cbn [map concat] in HO, HUP. fold (ups l) in HO, HUP. rewrite map_app in HUP. apply wchain_app in HUP. destruct HUP as (u1 & HUP1 & HUP2).
    set (w' := wend ops w (dgains v)) in *. set (kd := length (vw_down v)) in *. set (ko := length (vw_out v)) in *.
    assert (LD : length (dgains v) = kd) by (unfold TopoProofs4.dgains; apply map_length). assert (LO : length (ogains v) = ko) by (unfold TopoProofs4.ogains; apply map_length).
    assert (HD : wchain tw w (seq (length pre) kd) w').
    { rewrite <- LD. unfold w'. apply (wchain_wlist ops tw pre _ w (wlist ops w' (ogains v) ++ vwinds w' l ++ post)). rewrite E, <- !app_assoc. reflexivity. }
    assert (HOU : wchain tw w' (seq (length pre + kd) ko) (wend ops w' (ogains v))).
    { replace (length pre + kd) with (length (pre ++ wlist ops w (dgains v))) by (rewrite app_length, wlist_length, LD; reflexivity). rewrite <- LO.
      apply (wchain_wlist ops tw _ _ w' (vwinds w' l ++ post)). rewrite E, <- !app_assoc. reflexivity. }
    assert (UG : u1 = wend ops w' (ogains v)).
    { rewrite (up_chain tw O (vw_up v) GF) with (w := u) (u := u1); [|intros i Hi; apply HO, in_or_app; left; exact Hi|exact HUP1].
      unfold w'. rewrite HU, !(wend_sum ops OK), <- !(wo_assoc _ OK). f_equal. apply (BAL v). left. reflexivity. }
    destruct (IH (pre ++ wlist ops w (dgains v) ++ wlist ops w' (ogains v)) post (vw_out v) (seq (length pre + kd) ko) w' (wend ops w' (ogains v)) vb) as [I1 I2].
    + intros v' Hv'. apply BAL. right. exact Hv'.
    + exact CH.
    + rewrite E, <- !app_assoc. reflexivity.
    + exact HOU.
    + reflexivity.
    + apply seq_length.
    + intros i Hi. apply HO, in_or_app. right. exact Hi.
    + rewrite <- UG. exact HUP2.
    + assert (LP : length (pre ++ wlist ops w (dgains v) ++ wlist ops w' (ogains v)) = length pre + kd + ko) by (rewrite !app_length, !wlist_length, LD, LO; lia). rewrite LP in I1, I2. split.
      * unfold odowns. cbn [map concat vr_down]. apply wchain_app. exists w'. auto.
      * cbn [map]. constructor; [|exact I2]. unfold vring. cbn [vr_in vr_up vr_down vr_out]. apply (ring_agrees tw t TW w w' u u1); [exact HI|exact HUP1|exact HD|]. rewrite UG. exact HOU.
Qed.

Definition stepping (t : topo W) : Prop := forall o, o < length (t_wind t) -> winding_steps ops tag t o.
Record winv (s : sweeper) (before : list lentry) (pos : nat) (t : topo W) (R : list (list half)) (O : nat -> option nat) : Prop := {
  wv_len : length before = length (sw_line s);
  wv_chain : wchain (t_wind t) w0 (map (val O) (mixed (sw_line s) before pos)) w0;
  wv_gain : gainful (t_wind t) O;
  wv_rings : Forall (fun r => Forall (agree t) (cyclic r)) R;
  wv_steps : stepping t }.

Lemma winv_start : winv start_line [] 0 (topo_new (arena_len a)) [] (fun _ => None).
Proof. constructor; try constructor; try reflexivity. - intros i o H. discriminate. - intros o H. cbn in H. lia. Qed.
Lemma winv_gap s before p q t R O : tline s before -> p <= q -> (forall j, p <= j < q -> gap s j) -> winv s before p t R O -> winv s before q t R O.
Proof. intros TL L G []. constructor; try assumption. replace (mixed (sw_line s) before q) with (mixed (sw_line s) before p) by (eapply mixed_gap; eassumption). assumption. Qed.
Lemma winv_line s before s' before' t R O : tline s' before' -> old_segs before' = new_segs (sw_line s) -> winv s before (length (sw_line s)) t R O -> winv s' before' 0 t R O.
Proof.
  intros TL E []. constructor; try assumption; [apply (tl_len _ _ _ _ _ _ _ _ TL)|]. unfold mixed in *. rewrite firstn_all, skipn_all2 in wv_chain0 by lia. cbn [old_segs flat_map] in wv_chain0. rewrite app_nil_r in wv_chain0.
  cbn [firstn skipn]. cbn [new_segs filter map app]. rewrite E. exact wv_chain0.
Qed.

Lemma wlist_nth gs : forall w k p, nth_error (wlist ops w gs) k = Some p -> exists g, nth_error gs k = Some g /\ wn_ccw p = wn_cw p +w g.
Proof.
  induction gs as [|g gs IH]; intros w [|k] p H; cbn in H; try discriminate; [injection H as <-; exists g; auto|]. apply (IH _ _ _ H).
Qed.
(** The output segments going down from a range. *)
Lemma downs_gain tw O l : forall pre post oin w i o, tw = pre ++ vwinds w l ++ post -> In (i, o) (combine (downs l) (odowns (vrecs (length pre) O oin l))) ->
  exists p, nth_error tw o = Some p /\ wn_ccw p = wn_cw p +w gain i true.
Proof.
  induction l as [|v l IH]; intros pre post oin w i o E H; [destruct H|]. unfold downs, odowns in H. cbn [map concat vrecs vr_down vwinds] in *. fold (downs l) in H. fold (odowns (vrecs (length pre + length (vw_down v) + length (vw_out v)) O (seq (length pre + length (vw_down v)) (length (vw_out v))) l)) in H.
  rewrite combine_app in H by (rewrite seq_length; reflexivity). apply in_app_iff in H.
  assert (LD : length (wlist ops w (dgains v)) = length (vw_down v)) by (rewrite wlist_length; apply map_length). assert (LO : length (wlist ops (wend ops w (dgains v)) (ogains v)) = length (vw_out v)) by (rewrite wlist_length; apply map_length).
  destruct H as [H|H].
  - apply In_nth_error in H. destruct H as [k H]. rewrite SegmentsProofs.combine_nth_error in H. destruct (nth_error (vw_down v) k) as [i'|] eqn:H1; [|discriminate]. destruct (nth_error (seq _ _) k) as [o'|] eqn:H2; [|discriminate]. injection H as -> ->. assert (Lk : k < length (vw_down v)) by (apply nth_error_Some; congruence).
    assert (o = length pre + k). { rewrite nth_error_nth' with (d := 0) in H2 by (rewrite seq_length; exact Lk). rewrite seq_nth in H2 by exact Lk. congruence. } subst o.
    destruct (nth_error (wlist ops w (dgains v)) k) as [p|] eqn:P; [|apply nth_error_None in P; lia]. exists p. split.
    + rewrite E, nth_error_app2 by lia. replace (length pre + k - length pre) with k by lia. rewrite <- !app_assoc. rewrite nth_error_app1 by lia. exact P.
    + apply wlist_nth in P. destruct P as (g & P1 & P2). unfold TopoProofs4.dgains in P1. rewrite nth_error_map, H1 in P1. cbn in P1. congruence.
  - apply (IH (pre ++ wlist ops w (dgains v) ++ wlist ops (wend ops w (dgains v)) (ogains v)) post (seq (length pre + length (vw_down v)) (length (vw_out v))) (wend ops w (dgains v)) i o).
    + rewrite E, <- !app_assoc. reflexivity.
    + rewrite !app_length, LD, LO. rewrite Nat.add_assoc. exact H.
Qed.
(** All output segments opened in a range. *)
Lemma gain_single i g b : nth_error tag i = Some g -> i < arena_len a -> gain i b = w_single ops g (Bool.eqb b (orient a i)).
Proof. intros H L. unfold TopoSpec.gain, orient. rewrite H. destruct (nth_error (orientation a) i) eqn:E; [reflexivity|]. apply nth_error_None in E. lia. Qed.
Definition steps3 (ws : list (wpair W)) (og : list nat) (po : list bool) : Prop :=
  length og = length ws /\ length po = length ws /\
  forall k p i b g, nth_error ws k = Some p -> nth_error og k = Some i -> nth_error po k = Some b -> i < arena_len a -> nth_error tag i = Some g -> wn_ccw p = wn_cw p +w w_single ops g b.
Lemma steps3_app ws og po ws' og' po' : steps3 ws og po -> steps3 ws' og' po' -> steps3 (ws ++ ws') (og ++ og') (po ++ po').
Proof.
  intros (A1 & A2 & A3) (B1 & B2 & B3). split; [rewrite !app_length; lia|]. split; [rewrite !app_length; lia|]. intros k p i b g H1 H2 H3. destruct (Nat.lt_ge_cases k (length ws)) as [L|L].
  - rewrite nth_error_app1 in H1, H2, H3 by lia. eapply A3; eassumption.
  - rewrite nth_error_app2 in H1, H2, H3 by lia. rewrite A1 in H2. rewrite A2 in H3. eapply B3; eassumption.
Qed.
Lemma vwinds_steps l : forall w, steps3 (vwinds w l) (vorig l) (vpos a l).
Proof.
  induction l as [|v l IH]; intros w; [split; [reflexivity|]; split; [reflexivity|]; intros k; destruct k; discriminate|]. cbn [vwinds]. unfold vorig, vpos. cbn [map concat]. fold (vorig l) (vpos a l). apply steps3_app; [|apply IH]. apply steps3_app.
  - split; [rewrite wlist_length; unfold TopoProofs4.dgains; rewrite map_length; reflexivity|]. split; [rewrite wlist_length; unfold TopoProofs4.dgains; rewrite !map_length; reflexivity|].
    intros k p i b g H1 H2 H3 L H4. apply wlist_nth in H1. destruct H1 as (g' & H1 & H5). unfold TopoProofs4.dgains in H1. rewrite nth_error_map, H2 in H1, H3. cbn in H1, H3. rewrite H5. f_equal. rewrite (gain_single i g true H4 L) in H1. injection H1 as <-. f_equal. destruct (orient a i); congruence.
  - split; [rewrite wlist_length; unfold TopoProofs4.ogains; rewrite !map_length; reflexivity|]. split; [rewrite wlist_length; unfold TopoProofs4.ogains; rewrite !map_length; reflexivity|].
    intros k p i b g H1 H2 H3 L H4. apply wlist_nth in H1. destruct H1 as (g' & H1 & H5). unfold TopoProofs4.ogains in H1. rewrite nth_error_map in H1, H2, H3. destruct (nth_error (vw_out v) k) as [[j bb]|]; [|discriminate]. cbn in *. rewrite H5. f_equal. injection H2 as ->. rewrite (gain_single i g bb H4 L) in H1. congruence.
Qed.

Lemma winv_range s before c evs l t R O t' R' O' : corners_together a s c ->
  rstep s before c evs l t R O t' R' O' -> winv s before (st c) t R O -> winv s before (en c) t' R' O'.
Proof.
  intros CT RS [WL CHN GF RG ST]. destruct (rs_points ops a tag eps lower upper at_y sort_by _ _ _ _ _ _ _ _ _ _ _ RS) as (_ & TW & TO & TP & _).
  destruct RS as [TL HC REP OP NP V I HO ER EO I' HO' WST GR].
  set (w := wind_of ops t (west_of s c O)) in *. set (L := new_segs (firstn (st c) (sw_line s))) in *. set (Rr := old_segs (skipn (en c) before)) in *.
  assert (EM : mixed (sw_line s) before (st c) = L ++ ups l ++ Rr).
  { rewrite (mixed_start a eps lower upper at_y sort_by s before TL c HC). rewrite (ups_line a eps lower upper at_y sort_by s before TL c HC evs REP l V OP). reflexivity. }
  assert (EM' : mixed (sw_line s) before (en c) = L ++ downs l ++ Rr).
  { rewrite (mixed_end a eps lower upper at_y sort_by s before TL c HC). rewrite (downs_line a eps lower upper at_y sort_by s before TL c evs REP l V NP). reflexivity. }
  rewrite EM, !map_app in CHN. apply wchain_app in CHN. destruct CHN as (wa & C1 & CHN). apply wchain_app in CHN. destruct CHN as (vb & C2 & C3).
  assert (WA : wa = w).
  { unfold w, west_of. destruct (st c) as [|i] eqn:ES; [cbn in C1; cbn; congruence|]. pose proof (tl_bounds _ _ _ _ _ _ _ _ TL c HC) as BD.
    destruct (nth_error (sw_line s) i) as [e|] eqn:He; [|apply nth_error_None in He; lia]. destruct (WST e i eq_refl He) as (o & _ & Q). unfold line_segment. rewrite He. cbn [option_map]. rewrite Q. cbn [wind_of].
    assert (GP : gap s i) by (eapply left_gap; eassumption). destruct (tl_gap _ _ _ _ _ _ _ _ TL _ _ He GP) as (_ & E1 & _ & E3).
    assert (EL : L = new_segs (firstn i (sw_line s)) ++ [le_seg e]).
    { unfold L. rewrite (firstn_piece (sw_line s) i (S i)) by lia. rewrite new_segs_app. f_equal. replace (piece (sw_line s) i (S i)) with [e].
      - cbn. unfold really_exits. rewrite E1, E3. reflexivity.
      - unfold piece. replace (S i - i) with 1 by lia. clear - He. revert He. generalize (sw_line s). induction i as [|i IH]; intros [|x m] H; try discriminate; cbn in *; [congruence|apply IH, H]. }
    rewrite EL, map_app in C1. apply wchain_app in C1. destruct C1 as (x & _ & C1). cbn in C1. unfold val in C1. rewrite Q in C1. destruct C1 as (p & P1 & _ & P2). rewrite P1. auto. }
  subst wa. set (tw' := t_wind t') in *. assert (TW' : tw' = t_wind t ++ vwinds w l ++ []) by (rewrite app_nil_r; exact TW). assert (TW2 : t_wind t' = t_wind t ++ vwinds w l) by exact TW.
  assert (GF1 : gainful tw' O). { intros i o Q. destruct (GF i o Q) as (p & P1 & P2). exists p. split; [|exact P2]. rewrite TW. rewrite nth_error_app1; [exact P1|]. apply nth_error_Some. congruence. }
  assert (UPO : forall i, In i (ups l) -> O i <> None). { intros i Hi. apply HO. rewrite EM. apply in_or_app. right. apply in_or_app. left. exact Hi. }
  destruct (views_chain t' tw' O eq_refl GF1 l (t_wind t) [] [] [] w w vb) as [VC VR].
  { intros v Hv. eapply view_balance; eassumption. } { apply (views_chained _ _ V). } { exact TW'. } { reflexivity. } { reflexivity. } { reflexivity. } { exact UPO. } { rewrite TW. apply wchain_grow, C2. }
  assert (MD : forall i o, In (i, o) (combine (downs l) (odowns (vrecs (length (t_wind t)) O [] l))) -> O' i = Some o).
  { intros i o Hi. rewrite EO. unfold reopen. assert (X : In i (downs l)) by (eapply in_combine_l, Hi). apply (downs_in _ _ V) in X. destruct X as (e & He & _ & <-). rewrite (proj2 (memn_spec _ _) (in_map ev_seg _ _ He)).
    apply assoc_nodup; [|exact Hi]. rewrite map_fst_combine by apply odowns_length. apply (downs_nodup _ _ V). }
  assert (SAME : forall i, ~ In i (map ev_seg evs) -> O' i = O i) by (intros i N; rewrite EO; unfold reopen; rewrite (proj2 (memn_false _ _) N); reflexivity).
  constructor.
  - exact WL.
  - rewrite EM', !map_app. apply wchain_app. exists w. split; [|apply wchain_app; exists vb; split].
    + replace (map (val O') L) with (map (val O) L); [rewrite TW2; apply wchain_grow, C1|]. apply map_ext_in. intros i Hi. unfold val. rewrite SAME; [reflexivity|]. eapply left_not_segs; eassumption.
    + replace (map (val O') (downs l)) with (odowns (vrecs (length (t_wind t)) O [] l)); [exact VC|]. clear - MD. pose proof (odowns_length (length (t_wind t)) O [] l) as LN. revert MD LN. generalize (odowns (vrecs (length (t_wind t)) O [] l)).
      induction (downs l) as [|i m IH]; intros [|o n] MD LN; cbn in *; try discriminate; [reflexivity|]. f_equal; [unfold val; rewrite (MD i o (or_introl eq_refl)); reflexivity|]. apply IH; [intros j o' H; apply MD; right; exact H|lia].
    + replace (map (val O') Rr) with (map (val O) Rr); [rewrite TW2; apply wchain_grow, C3|]. apply map_ext_in. intros i Hi. unfold val. rewrite SAME; [reflexivity|]. eapply right_not_segs; eassumption.
  - intros i o Q. rewrite EO in Q. unfold reopen in Q. destruct (memn i (map ev_seg evs)); [|apply GF1, Q]. apply assoc_in in Q. eapply downs_gain; [exact TW'|exact Q].
  - rewrite ER. apply Forall_app. split; [|exact VR]. eapply Forall_impl; [|exact RG]. intros r. apply Forall_impl. intros [h k] (x & A1 & A2). exists x. unfold winding_cw, winding_ccw in *. rewrite TW2. cbn [fst snd] in *.
    destruct (nth_error (t_wind t) (h_idx h)) as [p1|] eqn:E1; [|discriminate]. destruct (nth_error (t_wind t) (h_idx k)) as [p2|] eqn:E2; [|discriminate].
    rewrite !nth_error_app1 by (apply nth_error_Some; congruence). rewrite E1, E2. auto.
  - destruct (proj1 I) as [J1 J2 J3 J4 J5 J6 J7 _ _ _ _]. destruct (vwinds_steps l w) as (S1 & S2 & S3). intros o Lo. destruct (Nat.lt_ge_cases o (length (t_wind t))) as [Q|Q].
    + destruct (ST o Q) as (p & i & g & b & P1 & P2 & P3 & P4 & P5). exists p, i, g, b. rewrite TW2, TO, TP. rewrite !nth_error_app1 by lia. auto.
    + assert (Lk : o - length (t_wind t) < length (vwinds w l)) by (rewrite TW2, app_length in Lo; lia).
      destruct (nth_error (vwinds w l) (o - length (t_wind t))) as [p|] eqn:E1; [|apply nth_error_None in E1; lia].
      destruct (nth_error (vorig l) (o - length (t_wind t))) as [i|] eqn:E2; [|apply nth_error_None in E2; lia].
      destruct (nth_error (vpos a l) (o - length (t_wind t))) as [b|] eqn:E3; [|apply nth_error_None in E3; lia].
      assert (Li : i < arena_len a).
      { apply nth_error_In in E2. unfold vorig in E2. apply in_concat in E2. destruct E2 as (m & Hm & Hi). apply in_map_iff in Hm. destruct Hm as (v & <- & Hv). apply in_app_iff in Hi.
        assert (X : exists e, In e evs /\ ev_seg e = i). { destruct Hi as [Hi|Hi]; [apply (down_in _ _ V) in Hi; [|exact Hv]; destruct Hi as (e & He & _ & _ & Q'); eauto|]. apply (out_seg _ _ V v i Hv Hi). }
        destruct X as (e & He & <-). apply (registered_lt _ SP). eapply seg_registered; eassumption. }
      destruct (nth_error tag i) as [g|] eqn:E4; [|apply nth_error_None in E4; lia].
      exists p, i, g, b. rewrite TW2, TO, TP, !nth_error_app2 by lia. rewrite J6, J7. repeat split; try assumption. eapply S3; eassumption.
Qed.
End Inv.
