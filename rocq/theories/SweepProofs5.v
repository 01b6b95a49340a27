(** Proofs about the sweep, part 5: one crossing, and all crossings at one height. *)
From Coq Require Import List Bool ZArith Arith Lia Permutation Sorted.
From Verif Require Import F64 F64Arith TreeVecModel TreeVecSpec GeomModel SegmentsModel SegmentsSpec
  SegmentsProofs CurveOrderModel CurveOrderSpec CurveOrderProofs CurveOrderProofs2 CurveOrderProofs3
  SweepModel SweepSpec SweepProofs SweepProofs2 SweepProofs3 SweepProofs4.
Import ListNotations.

Lemma pick_in {A} f k (l : list A) n x : nth_error l n = Some x -> f (k + n) = true -> In x (pick f k l).
Proof.
  revert k n. induction l as [|y l IH]; intros k [|n] H F; cbn [nth_error] in H; try discriminate; cbn [pick].
  - injection H as ->. rewrite Nat.add_0_r in F. rewrite F. left. reflexivity.
  - specialize (IH (S k) n H). replace (S k + n) with (k + S n) in IH by lia. specialize (IH F). destruct (f k); [right|]; exact IH.
Qed.
Lemma memb_rev js k : memb (rev js) k = memb js k.
Proof. destruct (memb js k) eqn:E; [apply memb_in; rewrite <- in_rev; apply memb_in, E|apply memb_notin; rewrite <- in_rev; apply memb_notin, E]. Qed.
Lemma rev_gt js : StronglySorted lt js -> StronglySorted gt (rev js).
Proof.
  induction 1 as [|x l S IH F]; cbn [rev]; [constructor|]. apply SSorted_app. split; [exact IH|]. split; [repeat constructor|].
  intros u v Hu [<-|[]]. apply in_rev in Hu. rewrite Forall_forall in F. specialize (F _ Hu). lia.
Qed.
Lemma lt_nodup js : StronglySorted lt js -> NoDup js.
Proof.
  induction 1 as [|x l S IH F]; constructor; [|exact IH]. intros HI. rewrite Forall_forall in F. specialize (F _ HI). lia.
Qed.
Lemma has_seg_unidx e f i : unidx e = unidx f -> has_seg i e = has_seg i f.
Proof. unfold unidx, has_seg. intros [= E1 _ _ _ _ _ E7]. rewrite E1, E7. reflexivity. Qed.
Lemma mapi_seg k M : map le_seg (mapi set_old_idx k M) = map le_seg M.
Proof.
  rewrite map_mapi, <- (mapi_const le_seg k). apply mapi_ext. intros n e _.
  change (le_seg (unidx (set_old_idx (k + n) e)) = le_seg (unidx e)). now rewrite set_old_idx_unidx.
Qed.

Section S.
Variable a : arena.
Variable eps : f64.
Variables cmp ccmp : nat -> nat -> curve_order.
Variables min_x max_x : segment -> f64.

Notation scan_right := (scan_right a eps cmp ccmp min_x max_x).
Notation scan_left := (scan_left a eps cmp ccmp min_x max_x).
Notation remove_each := (remove_each a eps cmp ccmp min_x max_x).
Notation insert_each := (insert_each a eps cmp ccmp min_x max_x).
Notation handle_intersection := (handle_intersection a eps cmp ccmp min_x max_x).
Notation intersect_all := (intersect_all a eps cmp ccmp min_x max_x).
Notation start_y := (start_y a).
Notation end_y := (end_y a).
Notation slanted := (slanted a).
Notation registered := (SweepSpec.registered a).

Hypothesis SP : sweepable a.
Hypothesis CO : comparer_ok a cmp.
Variable tr : Prop.
Hypothesis TR_flip : tr -> forall i j, i <> j -> cmp j i = co_flip (cmp i j).
Notation live := (SweepSpec.live a).
Hypothesis TR_trans : tr -> forall y i j k, nan y = false -> live y i -> live y j -> live y k ->
  eorder (cmp i j) y = Some Left -> eorder (cmp j k) y = Some Left -> eorder (cmp i k) y = Some Left.

Notation evP := (evP a cmp tr).
Notation safe := (safe tr).
Notation scanok := (scanok a cmp tr).
Notation onlyq := (onlyq a cmp tr).
Notation liveline := (liveline a).
Notation INT := (INT a cmp tr).
Notation int_ok := (int_ok a).

Lemma INT_queue y L0 h s evs : INT y L0 h s -> qok (evP y) evs -> INT y L0 h (with_int s evs).
Proof. intros H HQ. destruct H. split; assumption. Qed.
Lemma INT_need y L0 h s need : INT y L0 h s -> incl (sw_need s) need -> Forall (fun k => k < length L0) need -> INT y L0 h (with_need s need).
Proof.
  intros H HI HB. destruct H. split; try assumption; cbn [with_need sw_line sw_need].
  - intros k e H1 H2. apply HI. eauto.
  - intros k e j H1 H2 H3. apply HI. eauto.
Qed.

Lemma position_of_lt i l p : position_of i l = Some p -> p < length l.
Proof. intros H. apply position_of_some in H. destruct H as (e & H & _). apply nth_error_Some. congruence. Qed.

Lemma handle_intersection_safe y L0 h s left right : INT y L0 h s -> live y left -> live y right -> left <> right ->
  (tr -> (key y < key (end_y left))%Z /\ (key y < key (end_y right))%Z /\ eorder (cmp left right) y <> Some Left) ->
  safe (handle_intersection s left right) (fun s' => INT y L0 h s' /\ crossed s left right s').
Proof.
  intros H LL LR D HT. pose proof (INT_scanok _ _ _ _ _ _ _ H) as HS.
  assert (Hy : sw_y s = y) by apply H. assert (N : nan y = false) by apply H.
  destruct (position_of_in _ _ (in_live _ _ _ _ _ _ _ H _ LL)) as (li & eL & PL & NL & HL).
  destruct (position_of_in _ _ (in_live _ _ _ _ _ _ _ H _ LR)) as (ri & eR & PR & NR & HR).
  assert (HliL : li < length (sw_line s)) by (apply nth_error_Some; congruence).
  assert (HriL : ri < length (sw_line s)) by (apply nth_error_Some; congruence).
  unfold SweepModel.handle_intersection. rewrite PL, PR. cbn [orerr rbind]. rewrite Hy.
  assert (RNG : forall x z k, In k (range x (S z)) <-> x <= k < S z).
  { intros x z k. unfold range. rewrite in_seq. lia. }
  destruct (li <? ri) eqn:E.
  - apply Nat.ltb_lt in E.
    destruct (split3 (sw_line s) li (S ri) ltac:(lia) ltac:(lia)) as (A & M & B & El & LA & LM).
    (* the entries strictly between *)
    set (mid := firstn (ri - S li) (skipn (S li) (sw_line s))).
    assert (NM : forall k, k < length mid -> exists e, nth_error (sw_line s) (S li + k) = Some e /\ nth_error mid k = Some e /\ S li + k < ri).
    { intros k Hk. unfold mid in *. rewrite firstn_length, skipn_length in Hk.
      destruct (nth_error (sw_line s) (S li + k)) as [e|] eqn:Ek; [|apply nth_error_None in Ek; lia].
      exists e. split; [reflexivity|]. split; [|lia]. rewrite nth_firstn by lia. rewrite nth_skipn. exact Ek. }
    assert (ND := in_nodup _ _ _ _ _ _ _ H).
    assert (NIN : forall x p e, nth_error (sw_line s) p = Some e -> has_seg x e = true -> (p = li \/ p = ri) -> ~ In x (map le_seg mid)).
    { intros x p e Hp Hx Hpp HI. apply in_map_iff in HI. destruct HI as (z & Ez & Hz). apply In_nth_error in Hz. destruct Hz as [k Hk].
      assert (Hkl : k < length mid) by (apply nth_error_Some; congruence). destruct (NM _ Hkl) as (e' & A1 & A2 & A3).
      rewrite Hk in A2. injection A2 as <-.
      assert (S li + k = p) by (eapply (members_unique _ ND); [exact A1|exact Hp| |exact Hx]; unfold has_seg; rewrite Ez, Nat.eqb_refl; reflexivity). lia. }
    assert (FM : Forall (int_ok y) mid).
    { unfold mid. apply Forall_firstn, Forall_skipn, (in_ok _ _ _ _ _ _ _ H). }
    assert (Lmid : length mid = ri - S li) by (unfold mid; rewrite firstn_length, skipn_length; lia).
    eapply safe_bind.
    { apply (pushed_along_safe a cmp ccmp SP CO tr TR_trans y left right mid N LL LR D HT FM); [exact (NIN left li eL NL HL (or_introl eq_refl))|exact (NIN right ri eR NR HR (or_intror eq_refl))]. }
    intros [hd|js] _.
    + intros (NT & K1 & K2 & K3 & K4). apply safe_ok. split.
      * apply INT_queue; [exact H|]. apply bt_insert_q; [|exact K2|apply H]. unfold SweepProofs2.evP. cbn [ie_left ie_right ie_y].
        repeat (split; [assumption || lia|]). intros Ht. contradiction.
      * exists li, ri. split; [exact PL|]. split; [exact PR|]. left. split; [exact E|]. split; [reflexivity|]. split; [reflexivity|].
        destruct (bt_insert_mem (mkIE hd left right) (sw_int s)) as [(x & X1 & X2) _]. exists x. split; [exact X1|].
        unfold ie_cmp in X2. cbn [ie_y ie_left ie_right] in X2. destruct (cof_cmp hd (ie_y x)) eqn:C; try discriminate.
        destruct (Nat.compare left (ie_left x)) eqn:C1; try discriminate. apply Nat.compare_eq in C1. apply Nat.compare_eq in X2.
        split; [congruence|]. split; [congruence|]. rewrite Hy.
        assert (Nx : nan (ie_y x) = false).
        { assert (HQ : qok (evP y) (bt_insert (mkIE hd left right) (sw_int s))).
          { apply bt_insert_q; [|exact K2|apply H]. unfold SweepProofs2.evP. cbn [ie_left ie_right ie_y]. repeat (split; [assumption || lia|]). intros Ht. contradiction. }
          destruct HQ as (_ & _ & HQ). rewrite Forall_forall in HQ. apply HQ, X1. }
        rewrite cof_cmp_key in C by assumption. apply Z.compare_eq in C. lia.
    + intros [JS JF]. rewrite Lmid in JF. set (tm := li :: js). cbv zeta.
      assert (TS : StronglySorted lt tm). { constructor; [exact JS|]. eapply Forall_impl; [|exact JF]. cbn; intros; lia. }
      assert (TF : Forall (fun k => li <= k < ri) tm). { constructor; [lia|]. eapply Forall_impl; [|exact JF]. cbn; intros; lia. }
      unfold line_map_range. cbn [with_need sw_line].
      rewrite (proj2 (Nat.leb_le li (S ri))), (proj2 (Nat.leb_le (S ri) _)) by lia. cbn [andb rbind].
      set (M1 := mapi set_old_idx li M).
      assert (LM1 : length M1 = length M) by apply mapi_length.
      assert (El1 : map_range set_old_idx li (S ri) (sw_line s) = A ++ M1 ++ B).
      { rewrite El. replace (S ri) with (length A + length M) by lia. rewrite <- LA at 1. rewrite map_range_split, LA. reflexivity. }
      rewrite El1. set (l := A ++ M1 ++ B). set (need' := sw_need s ++ range li (S ri)).
      set (s1 := with_line (with_need s need') l).
      assert (LLl : liveline y l).
      { assert (Es : map le_seg l = map le_seg (sw_line s)) by (unfold l; rewrite El, !map_app; unfold M1; rewrite mapi_seg; reflexivity).
        destruct HS as (_ & [F0 ND0] & _). rewrite Hy in F0. split; [|rewrite Es; exact ND0].
        apply (Forall_map le_seg) in F0. apply (Forall_map le_seg (fun i => live y i) l). rewrite Es. exact F0. }
      assert (HS1 : scanok s1).
      { split; [cbn; rewrite Hy; exact N|]. split; [cbn; rewrite Hy; exact LLl|]. cbn. rewrite Hy. apply H. }
      eapply safe_bind.
      { apply (remove_each_safe a eps cmp ccmp min_x max_x SP CO tr TR_flip (rev tm) s1 HS1 (rev_gt _ TS)).
        apply Forall_rev. eapply Forall_impl; [|exact TF]. cbn. intros k Hk. unfold l. rewrite !app_length. lia. }
      intros [rm s2] _ [Erm (evs & Es2 & HQ2)]. cbn [s1 with_line with_need sw_line sw_y] in Erm, Es2, HQ2. rewrite Hy in HQ2.
      assert (PE1 : pick (memb (rev tm)) 0 l = pick (memb tm) 0 l) by (apply pick_ext; intros; apply memb_rev).
      assert (PE2 : pick (notb (rev tm)) 0 l = pick (notb tm) 0 l) by (apply pick_ext; intros; unfold notb; rewrite memb_rev; reflexivity).
      rewrite PE1 in Erm. rewrite PE2 in Es2.
      set (KM := pick (notb tm) li M1). set (PM := pick (memb tm) li M1).
      assert (OUT : forall k, ~ (li <= k < ri) -> memb tm k = false).
      { intros k Hk. apply memb_notin. intros HI. rewrite Forall_forall in TF. specialize (TF _ HI). lia. }
      assert (EP : pick (memb tm) 0 l = PM).
      { unfold l. rewrite !pick_app. rewrite (pick_false _ 0 A) by (intros; apply OUT; lia).
        rewrite (pick_false _ _ B) by (intros; apply OUT; lia). cbn [app Nat.add]. rewrite app_nil_r, LA. reflexivity. }
      assert (EK : pick (notb tm) 0 l = A ++ KM ++ B).
      { unfold l. rewrite !pick_app. rewrite (pick_true _ 0 A) by (intros; unfold notb; rewrite OUT by lia; reflexivity).
        rewrite (pick_true _ _ B) by (intros; unfold notb; rewrite OUT by lia; reflexivity). cbn [Nat.add]. rewrite LA. reflexivity. }
      assert (LPM : length PM = length tm).
      { apply pick_memb_length; [apply lt_nodup, TS|]. eapply Forall_impl; [|exact TF]. cbn. intros; lia. }
      assert (PMK : Permutation M1 (KM ++ PM)) by apply pick_perm.
      assert (LKP : length KM + length PM = length M).
      { rewrite <- app_length, <- LM1. symmetry. apply Permutation_length, PMK. }
      assert (Epos : ri + 1 - length tm = length (A ++ KM)) by (rewrite app_length; lia).
      rewrite Epos. subst s2. rewrite EK. subst rm. rewrite EP.
      eapply safe_impl.
      { apply (insert_each_safe a eps cmp ccmp min_x max_x SP CO tr TR_flip); unfold s1; cbn [with_int with_line with_need sw_line sw_y sw_int]; rewrite ?Hy; try assumption.
        - eapply (liveline_sub a); [exact LLl|]. exists []. rewrite app_nil_r. unfold l. rewrite <- !app_assoc. apply Permutation_app_head.
          rewrite PMK, <- app_assoc. apply Permutation_app_head. rewrite Permutation_app_comm. apply Permutation_app_head, Permutation_rev.
        - rewrite !app_length. lia. }
      intros v _ (evs3 & -> & HQ3). unfold s1 in *. cbn [with_int with_line with_need sw_line sw_y sw_int] in HQ3. rewrite Hy in HQ3.
      assert (ElF : firstn (length (A ++ KM)) (A ++ KM ++ B) ++ rev (rev PM) ++ skipn (length (A ++ KM)) (A ++ KM ++ B) = A ++ (KM ++ PM) ++ B).
      { rewrite rev_involutive. rewrite (app_assoc A KM B). rewrite firstn_app, firstn_all, Nat.sub_diag, skipn_app, skipn_all2, Nat.sub_diag by lia.
        cbn [firstn skipn app]. rewrite app_nil_r, <- !app_assoc. reflexivity. }
      unfold with_int, with_line, with_need. cbn [sw_y sw_line sw_next_enter sw_next_exit sw_int sw_horiz sw_need sw_changed]. rewrite ElF.
      split.
      * apply (INT_rearrange a cmp tr y L0 h s A M B (KM ++ PM) need' evs3 H El); [rewrite LA; exact PMK|exact HQ3|].
        intros k. unfold need'. rewrite in_app_iff, RNG, LA, LM. split; intros [X|X]; auto; right; lia.
      * exists li, ri. split; [exact PL|]. split; [exact PR|]. right. right. cbn [sw_line sw_need]. split; [exact E|]. split; [reflexivity|].
        exists A, M, B, (KM ++ PM). split; [exact El|]. split; [exact LA|]. split; [exact LM|]. split; [exact PMK|]. split; [reflexivity|].
        (* order *)
        assert (NLM : nth_error M 0 = Some eL).
        { rewrite El, nth_error_app2, LA, Nat.sub_diag in NL by lia. rewrite nth_error_app1 in NL by lia. exact NL. }
        assert (NRM : nth_error M (ri - li) = Some eR).
        { rewrite El, nth_error_app2, LA in NR by lia. rewrite nth_error_app1 in NR by lia. exact NR. }
        assert (IL : In (set_old_idx (li + 0) eL) PM).
        { apply (pick_in _ _ _ 0); [apply mapi_nth; exists eL; auto|]. apply memb_in. left. lia. }
        assert (IR : In (set_old_idx (li + (ri - li)) eR) KM).
        { apply (pick_in _ _ _ (ri - li)); [apply mapi_nth; exists eR; auto|]. unfold notb. rewrite OUT by lia. reflexivity. }
        apply In_nth_error in IL, IR. destruct IL as [q Hq]. destruct IR as [p Hp].
        assert (Hpl : p < length KM) by (apply nth_error_Some; congruence).
        assert (Hql : q < length PM) by (apply nth_error_Some; congruence).
        exists (length A + p), (length A + (length KM + q)). eexists. eexists.
        split; [rewrite nth_error_app2 by lia; replace (length A + p - length A) with p by lia; rewrite nth_error_app1 by (rewrite app_length; lia); rewrite nth_error_app1 by lia; exact Hp|].
        split; [rewrite nth_error_app2 by lia; replace (length A + (length KM + q) - length A) with (length KM + q) by lia; rewrite nth_error_app1 by (rewrite app_length; lia);
          rewrite nth_error_app2 by lia; replace (length KM + q - length KM) with q by lia; exact Hq|].
        split; [rewrite (has_seg_unidx _ _ _ (set_old_idx_unidx _ eR)); exact HR|].
        split; [rewrite (has_seg_unidx _ _ _ (set_old_idx_unidx _ eL)); exact HL|]. lia.
  - apply Nat.ltb_ge in E. set (need' := sw_need s ++ range ri (S li)).
    assert (H1 : INT y L0 h (with_need s need')).
    { apply INT_need; [exact H|apply incl_appl, incl_refl|]. apply Forall_app. split; [apply H|]. apply Forall_forall. intros k Hk. apply RNG in Hk.
      rewrite <- (in_len _ _ _ _ _ _ _ H). lia. }
    pose proof (INT_scanok _ _ _ _ _ _ _ H1) as HS1.
    eapply safe_bind; [apply (scan_right_safe a eps cmp ccmp min_x max_x SP CO tr TR_flip); [exact HS1|exact HriL]|].
    intros s2 _ O. pose proof (onlyq_scanok _ _ _ _ _ HS1 O) as HS2. destruct O as (evs & -> & HQ).
    eapply safe_impl; [apply (scan_left_safe a eps cmp ccmp min_x max_x SP CO tr TR_flip); [exact HS2|exact HliL]|].
    intros s3 _ (evs3 & -> & HQ3). cbn [with_int with_need sw_y] in HQ3. rewrite Hy in HQ3.
    assert (Ew : with_int (with_int (with_need s need') evs) evs3 = with_int (with_need s need') evs3) by reflexivity. rewrite Ew.
    split; [apply INT_queue; assumption|]. exists li, ri. split; [exact PL|]. split; [exact PR|]. right. left. split; [exact E|]. split; reflexivity.
Qed.

Lemma intersect_all_safe y L0 h fuel : forall s, INT y L0 h s ->
  safe (intersect_all fuel s) (fun s' => INT y L0 h s' /\ Forall (fun ev => feq (ie_y ev) y = false) (sw_int s')).
Proof.
  assert (STOP : forall s, INT y L0 h s -> match sw_int s with [] => True | ev :: _ => feq (ie_y ev) (sw_y s) = false end ->
     Forall (fun ev => feq (ie_y ev) y = false) (sw_int s)).
  { intros s H HF. destruct (in_q _ _ _ _ _ _ _ H) as (Q1 & Q2 & Q3). rewrite (in_y _ _ _ _ _ _ _ H) in HF. pose proof (in_nan _ _ _ _ _ _ _ H) as N.
    destruct (sw_int s) as [|ev evs]; [constructor|]. inversion Q1; inversion Q2; inversion Q3; subst. constructor; [exact HF|].
    destruct H6 as (_ & _ & _ & Hy & _). rewrite Forall_forall in *. intros z Hz. specialize (H3 _ Hz). specialize (H11 _ Hz). unfold kle in H3. cbv beta in H11. fk. zb. lia. }
  induction fuel as [|f IH]; intros s H; cbn [SweepModel.intersect_all].
  - destruct (sw_int s) as [|ev evs] eqn:Ei.
    + apply safe_ok. split; [exact H|]. apply STOP; [exact H|]. rewrite Ei. exact I.
    + destruct (feq (ie_y ev) (sw_y s)) eqn:Ef; [left; reflexivity|]. apply safe_ok. split; [exact H|]. apply STOP; [exact H|]. rewrite Ei. exact Ef.
  - destruct (sw_int s) as [|ev evs] eqn:Ei.
    + apply safe_ok. split; [exact H|]. apply STOP; [exact H|]. rewrite Ei. exact I.
    + destruct (feq (ie_y ev) (sw_y s)) eqn:Ef; [|apply safe_ok; split; [exact H|]; apply STOP; [exact H|]; rewrite Ei; exact Ef].
      pose proof (in_q _ _ _ _ _ _ _ H) as HQ. rewrite Ei in HQ. destruct (qok_tail _ _ _ HQ) as (HQ' & (E1 & E2 & E3 & E4 & E5 & E6) & Ne).
      pose proof (in_nan _ _ _ _ _ _ _ H) as N. rewrite (in_y _ _ _ _ _ _ _ H) in Ef.
      assert (Ke : key (ie_y ev) = key y) by (fk; zb; lia).
      eapply safe_bind.
      * apply (handle_intersection_safe y L0 h); [apply INT_queue; eassumption|exact E2|exact E3|exact E1|].
        intros Ht. destruct (E6 Ht) as (X1 & X2 & X3). split; [lia|]. split; [lia|].
        rewrite <- (eorder_key _ (ie_y ev) y); auto. apply (live_table _ SP _ _ _ _ CO E2 E3 E1).
      * intros s1 _ [H1 _]. apply IH, H1.
Qed.
End S.
