(** The order of the line, part 3: crossings. *)
From Coq Require Import List Bool ZArith Arith Lia Reals Lra Permutation Sorted.
From Verif Require Import F64 F64Arith TreeVecModel TreeVecSpec GeomModel SegmentsModel SegmentsSpec
  SegmentsProofs CurveOrderModel CurveOrderSpec CurveOrderProofs CurveOrderProofs2 CurveOrderProofs3
  SweepModel SweepSpec SweepProofs SweepProofs2 SweepProofs3 SweepProofs4 SweepProofs5 OrderSpec OrderAbs OrderScan OrderProofs.
Import ListNotations.

Section S.
Variable a : arena.
Variable eps : f64.
Variables cmp ccmp : nat -> nat -> curve_order.
Variables min_x max_x : segment -> f64.
Variable X : nat -> f64 -> R.
Variable t : R.

Notation scan_both := (scan_both a eps cmp ccmp min_x max_x).
Notation scan_for_removal := (scan_for_removal a eps cmp ccmp min_x max_x).
Notation remove_each := (remove_each a eps cmp ccmp min_x max_x).
Notation insert_each := (insert_each a eps cmp ccmp min_x max_x).
Notation handle_intersection := (handle_intersection a eps cmp ccmp min_x max_x).
Notation intersect_all := (intersect_all a eps cmp ccmp min_x max_x).
Notation start_y := (start_y a).
Notation end_y := (end_y a).
Notation live := (SweepSpec.live a).
Notation registered := (SweepSpec.registered a).

Hypothesis SP : sweepable a.
Hypothesis CO : comparer_ok a cmp.
Hypothesis CC : comparer_ok a ccmp.
Hypothesis SE : sees a eps cmp ccmp min_x max_x X t.
Variable tr : Prop.
Hypothesis TR_flip : tr -> forall i j, i <> j -> cmp j i = co_flip (cmp i j).
Hypothesis TR_trans : tr -> forall y i j k, nan y = false -> live y i -> live y j -> live y k ->
  eorder (cmp i j) y = Some Left -> eorder (cmp j k) y = Some Left -> eorder (cmp i k) y = Some Left.
Hypothesis TR : tr.
Notation Q := (fun y => qok (evP a cmp tr y)).
Notation INT := (INT a cmp tr).
Notation INVS := (INVS a X t).
Notation scanned_r := (scanned_r a X t).
Notation scanned_l := (scanned_l a X t).
Notation act := (act a).
Notation scanok := (scanok a cmp tr).
Notation liveline := (liveline a).

Definition all_on (y : f64) (l : list lentry) : Prop := Forall (fun e => act y (le_seg e) = true) l.

Lemma remove_each_order V js : forall s rm s', scanok s -> all_on (sw_y s) (sw_line s) -> remove_each s js = Ok (rm, s') ->
  INVS (sw_y s) (V ++ sw_int s) (map le_seg (sw_line s)) -> INVS (sw_y s) (V ++ sw_int s') (map le_seg (sw_line s')).
Proof.
  induction js as [|j js IH]; intros s rm s' HS HA H HI; cbn [SweepModel.remove_each] in H; [injection H as <- <-; exact HI|].
  destruct (nth_error (sw_line s) j) as [e|] eqn:E; [|unfold line_remove, line_get in H; rewrite E in H; discriminate].
  rewrite (line_remove_spec _ _ _ E) in H. cbn [rbind] in H. set (l1 := firstn j (sw_line s) ++ skipn (S j) (sw_line s)) in H.
  pose proof (nth_cut _ _ _ E) as EL. set (p1 := firstn j (sw_line s)) in *. set (p2 := skipn (S j) (sw_line s)) in *.
  assert (Lp1 : length p1 = j) by (apply firstn_length_le; assert (j < length (sw_line s)) by (apply nth_error_Some; congruence); lia).
  clearbody p1 p2. destruct HS as (N & LL & HQ).
  assert (LL1 : liveline (sw_y s) l1).
  { eapply liveline_sub; [exact LL|]. exists [e]. rewrite EL. unfold l1. rewrite <- app_assoc. apply Permutation_app_head. apply Permutation_cons_append. }
  assert (HA1 : all_on (sw_y s) l1).
  { unfold all_on in *. rewrite EL in HA. apply Forall_app in HA. destruct HA as [HA1 HA2]. inversion HA2; subst. apply Forall_app. split; assumption. }
  rewrite EL, map_app in HI. cbn [map] in HI. pose proof (INVS_left _ _ _ _ _ _ _ HI) as I1.
  assert (I2 : INVS (sw_y s) (V ++ sw_int s) (map le_seg p2)).
  { apply (INVS_right a X t (sw_y s) (V ++ sw_int s) (map le_seg p1 ++ [le_seg e])). rewrite <- app_assoc. exact HI. }
  destruct (scan_for_removal (with_line s l1) j) as [s1|] eqn:ER; [|discriminate]. cbn [rbind] in H.
  assert (S1 : exists evs, s1 = with_int (with_line s l1) evs /\ Q (sw_y s) evs /\ INVS (sw_y s) (V ++ evs) (map le_seg l1)).
  { unfold SweepModel.scan_for_removal in ER. destruct (0 <? j) eqn:B.
    - apply Nat.ltb_lt in B. destruct (exists_last_or_nil p1) as [Q0|(u & m & Q0)]; [rewrite Q0 in Lp1; cbn in Lp1; lia|].
      assert (Lu : length u = j - 1) by (rewrite Q0, app_length in Lp1; cbn in Lp1; lia).
      assert (El1 : l1 = u ++ m :: p2) by (unfold l1; rewrite Q0, <- app_assoc; reflexivity).
      rewrite El1 in *. rewrite <- Lu in ER. rewrite Q0, map_app in I1.
      assert (Hm : act (sw_y s) (le_seg m) = true).
      { unfold all_on in HA1. rewrite Forall_forall in HA1. apply HA1. apply in_or_app. right. left. reflexivity. }
      destruct (join_scanned a eps cmp ccmp min_x max_x X t SP CO CC SE tr TR_flip V s u m p2 s1 N LL1 HQ ER Hm (INVS_left _ _ _ _ _ _ _ I1) I2) as (evs & R1 & R2 & _ & R3).
      exists evs. auto.
    - injection ER as <-. exists (sw_int s). split; [destruct s; reflexivity|]. split; [exact HQ|]. apply Nat.ltb_ge in B.
      assert (p1 = []) as Q0 by (destruct p1; [reflexivity|cbn in Lp1; lia]). unfold l1. rewrite Q0. exact I2. }
  destruct S1 as (evs & -> & HQ1 & I3). destruct (remove_each (with_int (with_line s l1) evs) js) as [[rm' s2]|] eqn:E2; [|discriminate].
  cbn [rbind] in H. injection H as <- <-.
  exact (IH (with_int (with_line s l1) evs) rm' s2 (conj N (conj LL1 HQ1)) HA1 E2 I3).
Qed.

Lemma insert_each_order es : forall s p s', nan (sw_y s) = false -> liveline (sw_y s) (sw_line s ++ es) -> all_on (sw_y s) es -> Q (sw_y s) (sw_int s) ->
  insert_each s p es = Ok s' -> INVS (sw_y s) (sw_int s) (map le_seg (sw_line s)) -> INVS (sw_y s) (sw_int s') (map le_seg (sw_line s')).
Proof.
  induction es as [|e es IH]; intros s p s' N LL HA HQ H HI; cbn [SweepModel.insert_each] in H; [injection H as <-; exact HI|].
  unfold SweepModel.insert_entry in H. destruct (line_insert (sw_line s) p e) as [l1|] eqn:EI; [|discriminate]. cbn [rbind] in H.
  destruct (line_insert_inv _ _ _ _ EI) as [Hp ->]. set (l1 := firstn p (sw_line s) ++ e :: skipn p (sw_line s)) in *.
  assert (P1 : Permutation (sw_line s ++ e :: es) (l1 ++ es)).
  { unfold l1. rewrite <- app_assoc. cbn [app]. eapply perm_trans; [symmetry; apply Permutation_middle|].
    rewrite <- Permutation_middle. apply perm_skip. rewrite app_assoc, firstn_skipn. reflexivity. }
  assert (LL1 : liveline (sw_y s) (l1 ++ es)) by (eapply liveline_sub; [exact LL|]; exists []; rewrite app_nil_r; exact P1).
  assert (LL2 : liveline (sw_y s) l1) by (eapply liveline_sub; [exact LL1|]; exists es; reflexivity).
  destruct (scan_both (with_line s l1) p) as [s1|] eqn:E1; [|discriminate]. cbn [rbind] in H. inversion HA as [|? ? HA1 HA2]; subst.
  assert (Lf : length (firstn p (sw_line s)) = p) by (apply firstn_length_le; lia). assert (E1' : scan_both (with_line s l1) (length (firstn p (sw_line s))) = Ok s1) by (rewrite Lf; exact E1).
  rewrite <- (firstn_skipn p (sw_line s)), map_app in HI.
  destruct (join_scanned a eps cmp ccmp min_x max_x X t SP CO CC SE tr TR_flip [] s (firstn p (sw_line s)) e (skipn p (sw_line s)) s1 N LL2 HQ E1' HA1
    (INVS_left _ _ _ _ _ _ _ HI) (INVS_right _ _ _ _ _ _ _ HI)) as (evs & -> & R2 & _ & R3).
  exact (IH (with_int (with_line s l1) evs) p s' N LL1 HA2 R2 H R3).
Qed.

(** An event about a segment that is not on the line does not matter. *)
Lemma INVS_drop y ev E A : ~ In (ie_left ev) A -> INVS y (ev :: E) A -> INVS y E A.
Proof.
  intros NI H z Nz Lz. eapply inv_events; [apply H; assumption|]. intros i x Hi Hx (ev' & [<-|HI] & L & K).
  - exfalso. apply NI. destruct K as [[-> _]|[-> _]]; assumption.
  - exists ev'. auto.
Qed.

Lemma on_seg y l p e i : Forall (int_ok a y) l -> nth_error l p = Some e -> has_seg i e = true -> (key y < key (end_y i))%Z -> le_seg e = i.
Proof.
  intros F Hp He L. rewrite Forall_forall in F. destruct (F e ltac:(eapply nth_error_In; eassumption)) as (_ & _ & E3).
  unfold has_seg in He. apply orb_true_iff in He. destruct He as [He|He]; [apply Nat.eqb_eq in He; exact He|].
  destruct (le_old_seg e) as [o|]; [|discriminate]. apply Nat.eqb_eq in He. subst o. lia.
Qed.

Lemma handle_intersection_order y L0 h s ev s' : INT y L0 h s -> live y (ie_left ev) -> live y (ie_right ev) -> ie_left ev <> ie_right ev ->
  (key y < key (end_y (ie_left ev)))%Z /\ (key y < key (end_y (ie_right ev)))%Z /\ eorder (cmp (ie_left ev) (ie_right ev)) y <> Some Left ->
  all_on y (sw_line s) -> handle_intersection s (ie_left ev) (ie_right ev) = Ok s' ->
  INVS y (ev :: sw_int s) (map le_seg (sw_line s)) -> INVS y (sw_int s') (map le_seg (sw_line s')).
Proof.
  intros H LL LR D HT HA HE HI. pose proof (INT_scanok _ _ _ _ _ _ _ H) as HS.
  set (left := ie_left ev) in *. set (right := ie_right ev) in *.
  assert (Hy : sw_y s = y) by apply H. assert (N : nan y = false) by apply H.
  destruct (position_of_in _ _ (in_live _ _ _ _ _ _ _ H _ LL)) as (li & eL & PL & NL & HL).
  destruct (position_of_in _ _ (in_live _ _ _ _ _ _ _ H _ LR)) as (ri & eR & PR & NR & HR).
  assert (HliL : li < length (sw_line s)) by (apply nth_error_Some; congruence).
  assert (HriL : ri < length (sw_line s)) by (apply nth_error_Some; congruence).
  pose proof (on_seg _ _ _ _ _ (in_ok _ _ _ _ _ _ _ H) NL HL (proj1 HT)) as SL.
  pose proof (on_seg _ _ _ _ _ (in_ok _ _ _ _ _ _ _ H) NR HR (proj1 (proj2 HT))) as SR.
  pose proof (in_nodup _ _ _ _ _ _ _ H) as ND.
  unfold SweepModel.handle_intersection in HE. rewrite PL, PR in HE. cbn [orerr rbind] in HE. rewrite Hy in HE.
  destruct (li <? ri) eqn:E.
  - apply Nat.ltb_lt in E. set (mid := firstn (ri - S li) (skipn (S li) (sw_line s))) in *.
    assert (NM : forall k, k < length mid -> exists e, nth_error (sw_line s) (S li + k) = Some e /\ nth_error mid k = Some e /\ S li + k < ri).
    { intros k Hk. unfold mid in *. rewrite firstn_length, skipn_length in Hk.
      destruct (nth_error (sw_line s) (S li + k)) as [e|] eqn:Ek; [|apply nth_error_None in Ek; lia].
      exists e. split; [reflexivity|]. split; [|lia]. rewrite nth_firstn by lia. rewrite nth_skipn. exact Ek. }
    assert (NIN : forall x p e, nth_error (sw_line s) p = Some e -> has_seg x e = true -> (p = li \/ p = ri) -> ~ In x (map le_seg mid)).
    { intros x p e Hp Hx Hpp K. apply in_map_iff in K. destruct K as (z & Ez & Hz). apply In_nth_error in Hz. destruct Hz as [k Hk].
      assert (Hkl : k < length mid) by (apply nth_error_Some; congruence). destruct (NM _ Hkl) as (e' & A1 & A2 & A3).
      rewrite Hk in A2. injection A2 as <-.
      assert (S li + k = p) by (eapply (members_unique _ ND); [exact A1|exact Hp| |exact Hx]; unfold has_seg; rewrite Ez, Nat.eqb_refl; reflexivity). lia. }
    assert (FM : Forall (int_ok a y) mid) by (unfold mid; apply Forall_firstn, Forall_skipn, (in_ok _ _ _ _ _ _ _ H)).
    assert (Lmid : length mid = ri - S li) by (unfold mid; rewrite firstn_length, skipn_length; lia).
    pose proof (pushed_along_safe a cmp ccmp SP CO tr TR_trans y left right mid N LL LR D (fun _ => HT) FM
      (NIN left li eL NL HL (or_introl eq_refl)) (NIN right ri eR NR HR (or_intror eq_refl)) (S li)) as PS.
    destruct (pushed_along cmp y left right mid (S li)) as [r|] eqn:EP; [|discriminate]. cbn [rbind] in HE. cbn in PS.
    destruct r as [hd|js]; [exfalso; apply (proj1 PS), TR|]. destruct PS as [JS JF]. rewrite Lmid in JF.
    set (tm := li :: js) in *. cbv zeta in HE.
    assert (TS : StronglySorted lt tm). { constructor; [exact JS|]. eapply Forall_impl; [|exact JF]. cbn; intros; lia. }
    assert (TF : Forall (fun k => li <= k < ri) tm). { constructor; [lia|]. eapply Forall_impl; [|exact JF]. cbn; intros; lia. }
    destruct (line_map_range set_old_idx li (S ri) (sw_line (with_need s (sw_need s ++ range li (S ri))))) as [l|] eqn:EM; [|discriminate]. cbn [rbind] in HE.
    assert (El : l = map_range set_old_idx li (S ri) (sw_line s)).
    { unfold line_map_range in EM. cbn [with_need sw_line] in EM. destruct (_ && _); [congruence|discriminate]. }
    assert (Es : map le_seg l = map le_seg (sw_line s)).
    { rewrite El, map_range_mapi, map_mapi. rewrite <- (mapi_const le_seg 0 (sw_line s)). apply mapi_ext. intros n e _.
      destruct (_ && _); [|reflexivity]. rewrite <- (unidx_seg (set_old_idx _ e)), set_old_idx_unidx. apply unidx_seg. }
    set (s1 := with_line (with_need s (sw_need s ++ range li (S ri))) l) in *.
    destruct (remove_each s1 (rev tm)) as [[rm s2]|] eqn:E2; [|discriminate]. cbn [rbind] in HE.
    assert (Ll : length l = length (sw_line s)) by (rewrite <- (map_length le_seg l), Es, map_length; reflexivity).
    destruct HS as (_ & [F0 ND0] & HQ). rewrite Hy in F0, HQ.
    assert (LLl : liveline y l).
    { split; [|rewrite Es; exact ND0]. rewrite <- (Forall_map le_seg (live y)), Es, Forall_map. exact F0. }
    assert (HS1 : scanok s1) by (split; [cbn; rewrite Hy; exact N|]; split; cbn; rewrite Hy; assumption).
    assert (HA1 : all_on y l).
    { unfold all_on. rewrite <- (Forall_map le_seg (fun i => act y i = true)), Es, Forall_map. exact HA. }
    pose proof (remove_each_safe a eps cmp ccmp min_x max_x SP CO tr TR_flip (rev tm) s1 HS1 (rev_gt _ TS)) as RS. rewrite E2 in RS.
    specialize (RS ltac:(apply Forall_rev; eapply Forall_impl; [|exact TF]; cbn; intros k Hk; lia)). unfold SweepProofs2.safe in RS.
    destruct RS as [Erm (evs & Es2 & HQ2)]. cbn [s1 with_line with_need sw_line sw_y] in Erm, Es2, HQ2. rewrite Hy in HQ2.
    assert (IR : INVS y ([ev] ++ sw_int s2) (map le_seg (sw_line s2))).
    { pose proof (remove_each_order [ev] (rev tm) s1 rm s2 HS1) as RO. cbn [s1 with_line with_need sw_line sw_y sw_int] in RO. rewrite Hy in RO. apply RO; [exact HA1|exact E2|].
      rewrite Es. exact HI. }
    assert (PP : Permutation l (sw_line s2 ++ rm)).
    { rewrite Es2, Erm. cbn [with_int with_line sw_line]. eapply perm_trans; [apply (pick_perm (memb (rev tm)) 0)|].
      apply Permutation_app; [reflexivity|apply Permutation_rev]. }
    assert (LL2 : liveline y (sw_line s2 ++ rm)) by (eapply liveline_sub; [exact LLl|]; exists []; rewrite app_nil_r; exact PP).
    assert (HAr : all_on y rm).
    { unfold all_on in *. eapply (Permutation_Forall PP) in HA1. apply Forall_app in HA1. apply HA1. }
    assert (INL : In left (map le_seg rm)).
    { assert (Hn : exists e', nth_error l li = Some e' /\ le_seg e' = left).
      { pose proof (map_nth_error le_seg li (sw_line s) NL) as Q1. rewrite <- Es, nth_error_map in Q1. destruct (nth_error l li) as [e'|]; [|discriminate]. cbn in Q1. injection Q1 as Q1. exists e'. split; [reflexivity|congruence]. }
      destruct Hn as (e' & Hn & <-). apply in_map. rewrite Erm. apply -> in_rev. apply (pick_in _ _ _ li); [exact Hn|]. rewrite memb_rev. apply memb_in. left. reflexivity. }
    assert (NIL : ~ In left (map le_seg (sw_line s2))).
    { intros K. destruct LL2 as [_ ND2]. rewrite map_app in ND2. revert K INL ND2. clear. induction (map le_seg (sw_line s2)) as [|z l IH]; cbn [app In]; [tauto|].
      intros [->|K] INL ND2; inversion ND2; subst; [|auto]. apply H1. apply in_or_app. right. exact INL. }
    assert (Y2 : sw_y s2 = y) by (rewrite Es2; cbn; exact Hy).
    pose proof (INVS_drop _ ev _ _ NIL IR) as ID. rewrite <- Y2 in *.
    eapply (insert_each_order rm s2); [exact N|exact LL2|exact HAr| |exact HE|exact ID]. rewrite Es2 at 2. exact HQ2.
  - apply Nat.ltb_ge in E. assert (NE : ri <> li). { intros ->. rewrite NL in NR. injection NR as <-. apply D. congruence. }
    set (s1 := with_need s (sw_need s ++ range ri (S li))) in *.
    destruct (SweepModel.scan_right a eps cmp ccmp min_x max_x s1 ri) as [s2|] eqn:E1; [|discriminate]. cbn [rbind] in HE.
    destruct HS as (_ & LLs & HQ). rewrite Hy in LLs, HQ.
    destruct (scan_right_post a eps cmp ccmp min_x max_x X t SP CO CC SE tr TR_flip s1 ri eR s2) as (ev1 & -> & Q1 & G1 & R1);
      [cbn; rewrite Hy; exact N|cbn; rewrite Hy; exact LLs|cbn; rewrite Hy; exact HQ|exact NR|exact E1|].
    destruct (scan_left_post a eps cmp ccmp min_x max_x X t SP CO CC SE tr TR_flip (with_int s1 ev1) li eL s') as (ev2 & -> & Q2 & G2 & R2);
      [cbn; rewrite Hy; exact N|cbn; rewrite Hy; exact LLs|exact Q1|exact NL|exact HE|].
    cbn [s1 with_int with_need sw_line sw_y sw_int] in *. rewrite Hy, SR in R1. rewrite Hy, SL in R2.
    pose proof (nth_cut _ _ _ NR) as CR.
    assert (NL' : nth_error (skipn (S ri) (sw_line s)) (li - S ri) = Some eL) by (rewrite nth_skipn; replace (S ri + (li - S ri)) with li by lia; exact NL).
    pose proof (nth_cut _ _ _ NL') as CL. set (A1 := firstn ri (sw_line s)) in *. set (B := skipn (S ri) (sw_line s)) in *.
    set (A2 := firstn (li - S ri) B) in *. set (A3 := skipn (S (li - S ri)) B) in *.
    assert (EA : map le_seg (sw_line s) = map le_seg A1 ++ right :: map le_seg A2 ++ left :: map le_seg A3).
    { rewrite CR, CL. rewrite !map_app. cbn [map]. rewrite !map_app. cbn [map]. rewrite SL, SR. reflexivity. }
    assert (EF : map le_seg (firstn li (sw_line s)) = map le_seg A1 ++ right :: map le_seg A2).
    { apply (nodup_cut' _ (map le_seg (skipn (S li) (sw_line s))) _ (map le_seg A3) left).
      - rewrite <- SL. change (le_seg eL :: map le_seg (skipn (S li) (sw_line s))) with (map le_seg (eL :: skipn (S li) (sw_line s))). rewrite <- map_app, <- (nth_cut _ _ _ NL). apply LLs.
      - rewrite <- app_assoc. cbn [app]. rewrite <- EA. rewrite (nth_cut _ _ _ NL) at 3. rewrite map_app. cbn [map]. rewrite SL. reflexivity. }
    assert (EB : map le_seg B = map le_seg A2 ++ left :: map le_seg A3) by (rewrite CL, map_app; cbn [map]; rewrite SL; reflexivity).
    assert (AL : act y left = true) by (apply act_key; [exact SP|exact N|exact LL|apply HT]).
    assert (AR : act y right = true) by (apply act_key; [exact SP|exact N|exact LR|apply HT]).
    assert (FLs : Forall (live y) (map le_seg (sw_line s))) by (apply Forall_map, LLs).
    rewrite EA. intros z Nz Lz.
    apply (inv_settled _ _ _ (edone_dec a z) (evset z (ev :: sw_int s))).
    + rewrite <- EA. apply LLs.
    + rewrite <- EA. apply HI; assumption.
    + intros i x (e' & [<-|K] & K1 & K2); [right; fold left right in K2; destruct K2 as [[<- <-]|[<- <-]]; auto|]. left. exists e'. split; [apply G2, G1, K|]. auto.
    + rewrite <- EB. refine (scanned_r_all a X t SP y ev2 right (map le_seg B) N _ _ z Nz Lz).
      * rewrite EA in FLs. apply Forall_app in FLs. destruct FLs as [_ FLs]. inversion FLs; subst. rewrite EB. assumption.
      * eapply scanned_r_grows; [exact G2|]. apply R1, AR.
    + rewrite <- EF. refine (scanned_l_all a X t SP y ev2 left (map le_seg (firstn li (sw_line s))) N _ _ z Nz Lz).
      * apply Forall_map, Forall_firstn, LLs.
      * apply R2, AL.
Qed.

Lemma all_on_perm y L0 h s s' : INT y L0 h s -> INT y L0 h s' -> all_on y (sw_line s) -> all_on y (sw_line s').
Proof.
  intros H H' HA. unfold all_on in *. rewrite Forall_forall in *. intros e He.
  apply In_nth_error in He. destruct He as [k Hk]. pose proof (in_orig _ _ _ _ _ _ _ H' _ _ Hk) as O.
  assert (HI : In (origin k e) (mapi origin 0 (sw_line s))).
  { eapply Permutation_in; [symmetry; apply (in_perm _ _ _ _ _ _ _ H)|]. apply in_seq. split; [lia|]. apply nth_error_Some. congruence. }
  apply In_nth_error in HI. destruct HI as [n Hn]. apply mapi_nth in Hn. destruct Hn as (e0 & Hn & EO). cbn in EO.
  pose proof (in_orig _ _ _ _ _ _ _ H _ _ Hn) as O2. rewrite <- EO, O in O2. assert (O3 : unidx e = unidx e0) by congruence. clear O2. rename O3 into O2.
  apply (f_equal le_seg) in O2. rewrite !unidx_seg in O2. rewrite O2. apply HA. eapply nth_error_In, Hn.
Qed.

Lemma intersect_all_order y L0 h fuel : forall s s', INT y L0 h s -> all_on y (sw_line s) -> intersect_all fuel s = Ok s' ->
  INVS y (sw_int s) (map le_seg (sw_line s)) -> INVS y (sw_int s') (map le_seg (sw_line s')) /\ all_on y (sw_line s').
Proof.
  induction fuel as [|f IH]; intros s s' H HA HE HI; cbn [SweepModel.intersect_all] in HE; destruct (sw_int s) as [|ev evs] eqn:Ei.
  - injection HE as <-. rewrite Ei. auto.
  - destruct (feq (ie_y ev) (sw_y s)); [discriminate|]. injection HE as <-. rewrite Ei. auto.
  - injection HE as <-. rewrite Ei. auto.
  - destruct (feq (ie_y ev) (sw_y s)) eqn:Ef; [|injection HE as <-; rewrite Ei; auto].
    pose proof (in_q _ _ _ _ _ _ _ H) as HQ. rewrite Ei in HQ. destruct (qok_tail _ _ _ HQ) as (HQ' & (E1 & E2 & E3 & E4 & E5 & E6) & Ne).
    pose proof (in_nan _ _ _ _ _ _ _ H) as N. rewrite (in_y _ _ _ _ _ _ _ H) in Ef.
    assert (Ke : key (ie_y ev) = key y) by (fk; zb; lia).
    destruct (handle_intersection (with_int s evs) (ie_left ev) (ie_right ev)) as [s1|] eqn:EH; [|discriminate]. cbn [rbind] in HE.
    assert (HT : (key y < key (end_y (ie_left ev)))%Z /\ (key y < key (end_y (ie_right ev)))%Z /\ eorder (cmp (ie_left ev) (ie_right ev)) y <> Some Left).
    { destruct (E6 TR) as (X1 & X2 & X3). split; [lia|]. split; [lia|].
      rewrite <- (eorder_key _ (ie_y ev) y); auto. apply (live_table _ SP _ _ _ _ CO E2 E3 E1). }
    pose proof (INT_queue _ _ _ _ _ _ _ _ H HQ') as H0.
    pose proof (handle_intersection_safe a eps cmp ccmp min_x max_x SP CO tr TR_flip TR_trans y L0 h (with_int s evs) _ _ H0 E2 E3 E1 (fun _ => HT)) as SF.
    rewrite EH in SF. cbn in SF. destruct SF as [H1 _].
    apply (IH s1 s' H1); [eapply all_on_perm; [exact H|exact H1|exact HA]|exact HE|].
    exact (handle_intersection_order y L0 h (with_int s evs) ev s1 H0 E2 E3 E1 HT HA EH HI).
Qed.
End S.
