(** Proofs about the sweep, part 9: what handling one intersection event does, in any state. *)
From Coq Require Import List Bool ZArith Arith Lia Permutation Sorted.
From Verif Require Import F64 F64Arith TreeVecModel TreeVecSpec GeomModel SegmentsModel SegmentsSpec
  SegmentsProofs SegmentsProofs3 CurveOrderModel CurveOrderSpec CurveOrderProofs CurveOrderProofs2 CurveOrderProofs3
  SweepModel SweepSpec SweepProofs SweepProofs2 SweepProofs3 SweepProofs4 SweepProofs5 SweepProofs6 SweepProofs7.
Import ListNotations.

Lemma pick_split {A} (P Q : A -> Prop) (f : nat -> bool) l : forall k,
  (forall n e, nth_error l n = Some e -> if f (k + n) then Q e else P e) ->
  split_by P Q l (pick (fun i => negb (f i)) k l) (pick f k l).
Proof.
  induction l as [|x l IH]; intros k H; cbn [pick]; [constructor|].
  assert (IH' := IH (S k) ltac:(intros n e He; specialize (H (S n) e He); replace (k + S n) with (S k + n) in H by lia; exact H)).
  specialize (H 0 x eq_refl). rewrite Nat.add_0_r in H. destruct (f k); cbn [negb]; constructor; assumption.
Qed.

Lemma order_left o : order_eqb o Left = true <-> o = Left.
Proof. destruct o; cbn; split; congruence. Qed.

Lemma entry_eorder c y s e o : entry_at c y = Ok (s, e, o) -> eorder c y = Some o.
Proof. unfold entry_at, eorder. intros H. apply orerr_ok in H. rewrite H. reflexivity. Qed.

Section S.
Variable cmp : nat -> nat -> curve_order.

Lemma pushed_along_inr y L R rest : forall j js, pushed_along cmp y L R rest j = Ok (inr js) ->
  StronglySorted lt js /\ Forall (fun k => j <= k < j + length rest) js /\
  forall n e, nth_error rest n = Some e ->
    if memb js (j + n)
    then really_exits e = false /\ eorder (cmp L (le_seg e)) y = Some Left /\ eorder (cmp (le_seg e) R) y <> Some Left
    else really_exits e = true \/ eorder (cmp L (le_seg e)) y <> Some Left.
Proof.
  induction rest as [|e rest IH]; intros j js H; cbn [pushed_along] in H.
  - injection H as <-. split; [constructor|]. split; [constructor|]. intros [|n] e; discriminate.
  - assert (NXT : forall js', pushed_along cmp y L R rest (S j) = Ok (inr js') ->
      (really_exits e = true \/ eorder (cmp L (le_seg e)) y <> Some Left) ->
      StronglySorted lt js' /\ Forall (fun k => j <= k < j + length (e :: rest)) js' /\
      forall n e0, nth_error (e :: rest) n = Some e0 ->
        if memb js' (j + n)
        then really_exits e0 = false /\ eorder (cmp L (le_seg e0)) y = Some Left /\ eorder (cmp (le_seg e0) R) y <> Some Left
        else really_exits e0 = true \/ eorder (cmp L (le_seg e0)) y <> Some Left).
    { intros js' H' He. destruct (IH _ _ H') as (I1 & I2 & I3). split; [exact I1|]. split; [eapply Forall_impl; [|exact I2]; cbn; intros; lia|].
      intros [|n] e0 Hn; cbn [nth_error] in Hn.
      - apply some_inj in Hn. subst e0. rewrite Nat.add_0_r. rewrite (proj2 (memb_notin js' j)); [exact He|].
        intros HI. rewrite Forall_forall in I2. specialize (I2 _ HI). lia.
      - replace (j + S n) with (S j + n) by lia. apply I3, Hn. }
    destruct (really_exits e) eqn:RE; [apply NXT; auto|].
    inv1 H. destruct v as [[s1 y1] o1]. apply entry_eorder in E. destruct (order_eqb o1 Left) eqn:Q1.
    2:{ apply NXT; [exact H|]. right. rewrite E. intros [= ->]. discriminate. }
    apply order_left in Q1. subst o1. inv1 H. destruct v as [[s2 y2] o2]. apply entry_eorder in E0. destruct (order_eqb o2 Left) eqn:Q2; [discriminate|].
    inv1 H. destruct v as [h|js']; [discriminate|]. injection H as <-. destruct (IH _ _ E1) as (I1 & I2 & I3).
    split; [|split].
    + constructor; [exact I1|]. eapply Forall_impl; [|exact I2]. cbn; intros; lia.
    + constructor; [cbn; lia|]. eapply Forall_impl; [|exact I2]. cbn; intros; lia.
    + intros [|n] e0 Hn; cbn [nth_error] in Hn.
      * apply some_inj in Hn. subst e0. rewrite Nat.add_0_r. rewrite (proj2 (memb_in (j :: js') j)) by (left; reflexivity).
        split; [exact RE|]. split; [exact E|]. rewrite E0. intros [= ->]. discriminate.
      * specialize (I3 _ _ Hn). replace (j + S n) with (S j + n) by lia. unfold memb in *. cbn [existsb]. rewrite (proj2 (Nat.eqb_neq (S j + n) j)) by lia. exact I3.
Qed.

Lemma pushed_along_inl y L R rest : forall j h, pushed_along cmp y L R rest j = Ok (inl h) ->
  exists m1 e m2, rest = m1 ++ e :: m2 /\ really_exits e = false /\ eorder (cmp L (le_seg e)) y = Some Left /\ eorder (cmp (le_seg e) R) y = Some Left.
Proof.
  induction rest as [|e rest IH]; intros j h H; cbn [pushed_along] in H; [discriminate|].
  assert (NXT : forall h', pushed_along cmp y L R rest (S j) = Ok (inl h') ->
    exists m1 e0 m2, e :: rest = m1 ++ e0 :: m2 /\ really_exits e0 = false /\ eorder (cmp L (le_seg e0)) y = Some Left /\ eorder (cmp (le_seg e0) R) y = Some Left).
  { intros h' H'. destruct (IH _ _ H') as (m1 & e0 & m2 & -> & X). exists (e :: m1), e0, m2. split; [reflexivity|exact X]. }
  destruct (really_exits e) eqn:RE; [eapply NXT, H|].
  inv1 H. destruct v as [[s1 y1] o1]. destruct (order_eqb o1 Left) eqn:Q1; [|eapply NXT, H].
  inv1 H. destruct v as [[s2 y2] o2]. apply entry_eorder in E, E0. destruct (order_eqb o2 Left) eqn:Q2.
  - apply order_left in Q1, Q2. subst. exists [], e, rest. auto.
  - inv1 H. destruct v as [h'|js']; [|discriminate]. eapply NXT, E1.
Qed.
End S.

Section H.
Variable a : arena.
Variable eps : f64.
Variables cmp ccmp : nat -> nat -> curve_order.
Variables min_x max_x : segment -> f64.
Notation scan_right := (scan_right a eps cmp ccmp min_x max_x).
Notation remove_each := (remove_each a eps cmp ccmp min_x max_x).
Notation insert_each := (insert_each a eps cmp ccmp min_x max_x).
Notation handle_intersection := (handle_intersection a eps cmp ccmp min_x max_x).

Lemma remove_each_fun js : forall s rm s', StronglySorted gt js -> remove_each s js = Ok (rm, s') ->
  rm = rev (pick (memb js) 0 (sw_line s)) /\ exists evs, s' = with_int (with_line s (pick (notb js) 0 (sw_line s))) evs.
Proof.
  induction js as [|j js IH]; intros s rm s' SS H; cbn [SweepModel.remove_each] in H.
  - injection H as <- <-. rewrite pick_false by reflexivity. split; [reflexivity|]. exists (sw_int s).
    rewrite pick_true by reflexivity. destruct s; reflexivity.
  - inversion SS; subst. inv1 H. destruct v as [e l1]. inv1 H. inv1 H. destruct v0 as [rm2 s2]. injection H as <- <-.
    unfold line_remove, line_get in E. destruct (nth_error (sw_line s) j) as [e'|] eqn:N; [|discriminate]. cbn [orerr rbind] in E. injection E as <- <-.
    apply scan_removal_frame in E0. destruct E0 as [evs ->].
    set (l1 := firstn j (sw_line s) ++ skipn (S j) (sw_line s)) in *.
    destruct (IH _ _ _ H2 E1) as (Erm & evs2 & Es2). cbn [with_int with_line sw_line] in Erm, Es2.
    destruct (nth_error_split _ _ N) as (p1 & p2 & El & Ej).
    assert (El1 : l1 = p1 ++ p2).
    { unfold l1. rewrite El, <- Ej. rewrite firstn_app, firstn_all, Nat.sub_diag, skipn_app, skipn_all2 by lia.
      replace (S (length p1) - length p1) with 1 by lia. cbn. rewrite app_nil_r. reflexivity. }
    assert (HB : forall z, In z js -> z < j) by (intros z Hz; rewrite Forall_forall in H3; specialize (H3 _ Hz); lia).
    assert (Me : forall i, i < j -> memb (j :: js) i = memb js i).
    { intros i Hi. unfold memb. cbn [existsb]. rewrite (proj2 (Nat.eqb_neq i j)) by lia. reflexivity. }
    assert (Mj : memb (j :: js) j = true) by (apply memb_in; left; reflexivity).
    assert (Mg : forall i, j < i -> memb (j :: js) i = false) by (intros i Hi; apply memb_notin; intros [->|HI]; [lia|apply HB in HI; lia]).
    assert (Mg' : forall i, j <= i -> memb js i = false) by (intros i Hi; apply memb_notin; intros HI; apply HB in HI; lia).
    assert (P1 : pick (memb (j :: js)) 0 (sw_line s) = pick (memb js) 0 p1 ++ [e']).
    { rewrite El, pick_app. cbn [pick Nat.add]. rewrite Ej, Mj. rewrite (pick_false _ (S j)) by (intros; apply Mg; lia).
      f_equal. apply pick_ext. intros; apply Me; lia. }
    assert (P2 : pick (memb js) 0 l1 = pick (memb js) 0 p1).
    { rewrite El1, pick_app. rewrite (pick_false _ (0 + length p1)) by (intros; apply Mg'; lia). apply app_nil_r. }
    assert (P3 : pick (notb (j :: js)) 0 (sw_line s) = pick (notb js) 0 l1).
    { rewrite El, El1, !pick_app. cbn [pick Nat.add]. rewrite Ej. unfold notb at 2. rewrite Mj. cbn [negb]. f_equal.
      - apply pick_ext. intros i Hi. unfold notb. rewrite Me by lia. reflexivity.
      - rewrite !pick_true; [reflexivity| |]; intros i Hi; unfold notb; [rewrite Mg' by lia|rewrite Mg by lia]; reflexivity. }
    split; [rewrite P1, rev_app_distr; cbn; f_equal; etransitivity; [exact Erm|]; f_equal; exact P2|]. exists evs2. rewrite P3. exact Es2.
Qed.

Lemma insert_each_fun es : forall s p s', insert_each s p es = Ok s' -> p <= length (sw_line s) ->
  exists evs, s' = with_int (with_line s (firstn p (sw_line s) ++ rev es ++ skipn p (sw_line s))) evs.
Proof.
  induction es as [|e es IH]; intros s p s' H Hp; cbn [SweepModel.insert_each] in H.
  - injection H as <-. exists (sw_int s). cbn [rev app]. rewrite firstn_skipn. destruct s; reflexivity.
  - unfold SweepModel.insert_entry in H. rewrite (line_insert_spec _ _ _ Hp) in H. cbn [rbind] in H. inv1 H.
    apply scan_both_frame in E. destruct E as [evs ->]. apply IH in H.
    2:{ cbn [with_int with_line sw_line]. rewrite app_length, firstn_length. cbn. lia. }
    destruct H as [evs2 ->]. exists evs2. cbn [with_int with_line sw_line].
    assert (Lf : length (firstn p (sw_line s)) = p) by (apply firstn_length_le; lia).
    unfold with_int, with_line. cbn [sw_y sw_line sw_next_enter sw_next_exit sw_int sw_horiz sw_need sw_changed]. f_equal.
    rewrite firstn_app, Lf, Nat.sub_diag, firstn_firstn, Nat.min_id, skipn_app, Lf, Nat.sub_diag. cbn [firstn skipn]. rewrite (skipn_all2 (firstn p (sw_line s))) by lia.
    cbn [rev app]. rewrite app_nil_r, <- !app_assoc. reflexivity.
Qed.

Lemma mid_forall2 A el er B mid : forall mid0 k, mid0 ++ mid = mid0 ++ mid -> k = S (length A) + length mid0 ->
  Forall2 (fun e e' => exists k, e' = set_old_idx k e /\ nth_error (A ++ el :: (mid0 ++ mid) ++ er :: B) k = Some e) mid (mapi set_old_idx k mid).
Proof.
  induction mid as [|e mid IH]; intros mid0 k _ Hk; cbn [mapi]; [constructor|]. constructor.
  - exists k. split; [reflexivity|]. rewrite nth_error_app2 by lia. subst k. replace (S (length A) + length mid0 - length A) with (S (length mid0)) by lia.
    cbn [nth_error]. rewrite <- app_assoc, nth_error_app2, Nat.sub_diag by lia. reflexivity.
  - specialize (IH (mid0 ++ [e]) (S k)). rewrite <- app_assoc in IH. cbn [app] in IH. apply IH; [reflexivity|]. rewrite app_length. cbn. lia.
Qed.

Lemma handle_intersection_handled s left right s' : nan (sw_y s) = false -> Forall (fun ev => nan (ie_y ev) = false) (sw_int s) ->
  handle_intersection s left right = Ok s' -> handled cmp s left right s'.
Proof.
  intros Ny NQ H. unfold SweepModel.handle_intersection in H. inv1 H. rename v into li. inv1 H. rename v into ri.
  apply orerr_ok in E, E0. destruct (position_of_some _ _ _ E) as (eL & NL & HL). destruct (position_of_some _ _ _ E0) as (eR & NR & HR).
  assert (HliL : li < length (sw_line s)) by (apply nth_error_Some; congruence).
  assert (HriL : ri < length (sw_line s)) by (apply nth_error_Some; congruence).
  destruct (li <? ri) eqn:C.
  2:{ apply Nat.ltb_ge in C. inv1 H. apply scan_right_frame in E1. destruct E1 as [evs ->]. apply scan_left_frame in H. destruct H as [evs2 ->].
      apply (h_in_order cmp s left right _ li ri eL eR); auto. }
  apply Nat.ltb_lt in C.
  destruct (split3 (sw_line s) li ri ltac:(lia) ltac:(lia)) as (A & M & B0 & El & LA & LM).
  destruct M as [|e0 mid]; [cbn in LM; lia|]. destruct B0 as [|e1 B].
  { rewrite app_nil_r in El. rewrite El, app_length in HriL. lia. }
  assert (e0 = eL) as ->. { rewrite El, nth_error_app2, LA, Nat.sub_diag in NL by lia. cbn in NL. congruence. }
  assert (e1 = eR) as ->. { rewrite El in NR. rewrite nth_error_app2 in NR by lia. rewrite LA in NR. rewrite nth_error_app2 in NR by lia. rewrite LM, Nat.sub_diag in NR. cbn in NR. congruence. }
  cbn [length] in LM. cbn [app] in El.
  assert (EM : firstn (ri - S li) (skipn (S li) (sw_line s)) = mid).
  { rewrite El. rewrite skipn_app, skipn_all2 by lia. replace (S li - length A) with 1 by lia. cbn [app skipn].
    rewrite firstn_app, firstn_all2 by lia. replace (ri - S li - length mid) with 0 by lia. cbn [firstn]. apply app_nil_r. }
  rewrite EM in H. clear EM. inv1 H. destruct v as [hd|js].
  - injection H as <-. destruct (pushed_along_delay _ _ _ _ _ Ny _ _ E1) as [Ky Nh]. destruct (pushed_along_inl _ _ _ _ _ _ _ E1) as (m1 & e & m2 & Em & X1 & X2 & X3).
    subst mid. destruct (bt_insert_mem (mkIE hd left right) (sw_int s)) as [(x & I1 & I2) _].
    assert (NX : nan (ie_y x) = false). { apply bt_insert_in in I1. rewrite Forall_forall in NQ. destruct I1 as [->|I1]; [exact Nh|apply NQ, I1]. }
    unfold ie_cmp in I2. cbn [ie_y ie_left ie_right] in I2. destruct (cof_cmp hd (ie_y x)) eqn:Cm; try discriminate.
    destruct (Nat.compare left (ie_left x)) eqn:C1; try discriminate. apply Nat.compare_eq in C1. apply Nat.compare_eq in I2.
    eapply (h_delayed cmp s left right _ A eL m1 e m2 eR B x); eauto. { cbn [ie_y ie_left ie_right] in *. rewrite cof_cmp_key in Cm by assumption. apply Z.compare_eq in Cm. fk. zb. lia. }
  - destruct (pushed_along_inr _ _ _ _ _ _ _ E1) as (J1 & J2 & J3). set (tm := li :: js) in *.
    assert (TS : StronglySorted lt tm). { constructor; [exact J1|]. eapply Forall_impl; [|exact J2]. cbn; intros; lia. }
    assert (TF : Forall (fun k => li <= k < ri) tm). { constructor; [lia|]. eapply Forall_impl; [|exact J2]. cbn; intros; lia. }
    inv1 H. unfold line_map_range in E2. cbn [with_need sw_line] in E2.
    rewrite (proj2 (Nat.leb_le li (S ri))), (proj2 (Nat.leb_le (S ri) _)) in E2 by lia. cbn [andb] in E2. injection E2 as <-.
    inv1 H. destruct v as [rm s2].
    set (mid' := mapi set_old_idx (S li) mid).
    set (eR' := set_old_idx ri eR). set (eL' := set_old_idx li eL).
    assert (Lm' : length mid' = length mid) by apply mapi_length.
    assert (El1 : map_range set_old_idx li (S ri) (sw_line s) = A ++ eL' :: mid' ++ eR' :: B).
    { assert (El' : sw_line s = A ++ (eL :: mid ++ [eR]) ++ B) by (rewrite El; cbn [app]; rewrite <- app_assoc; reflexivity).
      rewrite El'. replace (S ri) with (length A + length (eL :: mid ++ [eR])) by (cbn; rewrite app_length; cbn; lia). rewrite <- LA at 1.
      rewrite map_range_split, LA. cbn [mapi]. rewrite mapi_app. cbn [mapi app]. rewrite <- !app_assoc. cbn [app].
      replace (S li + length mid) with ri by lia. reflexivity. }
    rewrite El1 in E2. apply remove_each_fun in E2; [|apply rev_gt, TS]. destruct E2 as [Erm [evs Es2]].
    cbn [with_line with_need sw_line] in Erm, Es2. set (l := A ++ eL' :: mid' ++ eR' :: B) in *.
    assert (PE1 : pick (memb (rev tm)) 0 l = pick (memb tm) 0 l) by (apply pick_ext; intros; apply memb_rev).
    assert (PE2 : pick (notb (rev tm)) 0 l = pick (notb tm) 0 l) by (apply pick_ext; intros; unfold notb; rewrite memb_rev; reflexivity).
    rewrite PE1 in Erm. rewrite PE2 in Es2.
    assert (OUT : forall k, ~ (li <= k < ri) -> memb tm k = false).
    { intros k Hk. apply memb_notin. intros HI. rewrite Forall_forall in TF. specialize (TF _ HI). lia. }
    assert (IL : memb tm li = true) by (apply memb_in; left; reflexivity).
    assert (MJ : forall k, li < k -> memb tm k = memb js k).
    { intros k Hk. unfold tm, memb. cbn [existsb]. rewrite (proj2 (Nat.eqb_neq k li)) by lia. reflexivity. }
    set (PM := pick (memb js) (S li) mid'). set (KM := pick (fun i => negb (memb js i)) (S li) mid').
    assert (EP : pick (memb tm) 0 l = eL' :: PM).
    { unfold l. rewrite pick_app. rewrite (pick_false _ 0 A) by (intros; apply OUT; lia). cbn [app Nat.add]. rewrite LA. cbn [pick]. rewrite IL. f_equal.
      rewrite pick_app. rewrite (pick_false _ (S li + length mid')) by (intros i Hi; apply OUT; lia). rewrite app_nil_r. apply pick_ext. intros; apply MJ; lia. }
    assert (EK : pick (notb tm) 0 l = A ++ KM ++ eR' :: B).
    { unfold l. rewrite pick_app. rewrite (pick_true _ 0 A) by (intros; unfold notb; rewrite OUT by lia; reflexivity). cbn [Nat.add]. rewrite LA. f_equal.
      cbn [pick]. unfold notb at 1. rewrite IL. cbn [negb]. rewrite pick_app. f_equal.
      - apply pick_ext. intros; unfold notb; rewrite MJ by lia; reflexivity.
      - apply pick_true. intros i Hi. unfold notb. rewrite OUT by lia. reflexivity. }
    assert (LPM : length PM = length js).
    { unfold PM. apply pick_memb_length; [apply lt_nodup, J1|]. eapply Forall_impl; [|exact J2]. cbn. intros; lia. }
    assert (LKP : length KM + length PM = length mid).
    { rewrite <- app_length, <- Lm'. symmetry. apply Permutation_length. apply pick_perm. }
    assert (Epos : ri + 1 - length tm = length (A ++ KM ++ [eR'])) by (unfold tm; rewrite !app_length; cbn [length]; lia).
    rewrite Epos in H. subst s2 rm. rewrite EP, EK in H. apply insert_each_fun in H.
    2:{ cbn [with_int with_line sw_line]. rewrite !app_length. cbn [length]. lia. }
    destruct H as [evs3 ->]. cbn [with_int with_line with_need sw_line].
    assert (ElF : firstn (length (A ++ KM ++ [eR'])) (A ++ KM ++ eR' :: B) ++ rev (rev (eL' :: PM)) ++ skipn (length (A ++ KM ++ [eR'])) (A ++ KM ++ eR' :: B)
       = A ++ KM ++ eR' :: eL' :: PM ++ B).
    { rewrite rev_involutive. replace (A ++ KM ++ eR' :: B) with ((A ++ KM ++ [eR']) ++ B) by (rewrite <- !app_assoc; reflexivity).
      rewrite firstn_app, firstn_all, Nat.sub_diag, skipn_app, skipn_all2, Nat.sub_diag by lia. cbn [firstn skipn app].
      rewrite app_nil_r, <- !app_assoc. cbn [app]. reflexivity. }
    eapply (h_reordered cmp s left right _ A eL mid eR B mid' KM PM); eauto.
    + rewrite El. apply (mid_forall2 A eL eR B mid [] (S li) eq_refl). cbn. lia.
    + apply pick_split. intros n e' He'. apply mapi_nth in He'. destruct He' as (e & He & ->).
      assert (SEG : le_seg (set_old_idx (S li + n) e) = le_seg e) by (unfold set_old_idx; destruct (le_old_idx e); reflexivity).
      assert (RX : really_exits (set_old_idx (S li + n) e) = really_exits e) by (unfold set_old_idx; destruct (le_old_idx e); reflexivity).
      rewrite SEG, RX. apply J3, He.
    + unfold with_int, with_line. cbn [sw_line]. rewrite ElF. unfold eR', eL'. rewrite LA. replace (li + S (length mid)) with ri by lia. reflexivity.
    + unfold with_int, with_line, with_need. cbn [sw_need]. rewrite LA. replace (li + S (S (length mid))) with (S ri) by lia. reflexivity.
Qed.
End H.
