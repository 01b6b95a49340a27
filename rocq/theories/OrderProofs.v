(** The order of the line, part 2: entering and leaving segments. *)
From Coq Require Import List Bool ZArith Arith Lia Reals Lra Permutation Sorted.
From Verif Require Import F64 F64Arith TreeVecModel TreeVecSpec GeomModel SegmentsModel SegmentsSpec
  SegmentsProofs CurveOrderModel CurveOrderSpec CurveOrderProofs CurveOrderProofs2 CurveOrderProofs3
  SweepModel SweepSpec SweepProofs SweepProofs2 SweepProofs3 SweepProofs4 OrderSpec OrderAbs OrderScan.
Import ListNotations.

Lemma line_upd_inv l k f l' : line_upd l k f = Ok l' -> exists e, nth_error l k = Some e /\ l' = firstn k l ++ f e :: skipn (S k) l.
Proof.
  intros H. destruct (nth_error l k) as [e|] eqn:E; [|unfold line_upd, line_get in H; rewrite E in H; discriminate].
  exists e. split; [reflexivity|]. rewrite (line_upd_spec _ _ _ f E) in H. congruence.
Qed.
Lemma line_insert_inv l k e l' : line_insert l k e = Ok l' -> k <= length l /\ l' = firstn k l ++ e :: skipn k l.
Proof. unfold line_insert. destruct (k <=? length l) eqn:Q; [|discriminate]. apply Nat.leb_le in Q. intros [= <-]. auto. Qed.
Lemma nth_cut {A} (l : list A) k x : nth_error l k = Some x -> l = firstn k l ++ x :: skipn (S k) l.
Proof.
  intros H. destruct (nth_error_split _ _ H) as (l1 & l2 & E & <-). rewrite E.
  rewrite firstn_app, firstn_all, Nat.sub_diag, skipn_app, skipn_all2 by lia. replace (S (length l1) - length l1) with 1 by lia.
  cbn [firstn skipn app]. rewrite app_nil_r. reflexivity.
Qed.
Lemma firstn_len_app {A} (u v : list A) : firstn (length u) (u ++ v) = u.
Proof. rewrite firstn_app, firstn_all, Nat.sub_diag. cbn [firstn]. apply app_nil_r. Qed.
Lemma skipn_len_app {A} (u v : list A) : skipn (length u) (u ++ v) = v.
Proof. rewrite skipn_app, skipn_all2, Nat.sub_diag by lia. reflexivity. Qed.
Lemma old_not_seg l p e i : NoDup (members l) -> nth_error l p = Some e -> le_old_seg e = Some i -> forall z, In z l -> le_seg z <> i.
Proof.
  intros ND Hp Ho z Hz Ez. apply In_nth_error in Hz. destruct Hz as [q Hq].
  assert (q = p) as ->.
  { eapply (members_unique _ ND _ _ _ _ i); [exact Hq|exact Hp| |]; unfold has_seg; [rewrite Ez|rewrite Ho]; rewrite Nat.eqb_refl; auto using orb_true_r. }
  rewrite Hp in Hq. injection Hq as <-. rewrite (nth_cut _ _ _ Hp), members_app, members_cons, Ho, Ez in ND.
  apply NoDup_app_r in ND. cbn [app] in ND. inversion ND as [|? ? H1]; subst. apply H1. left. reflexivity.
Qed.

Section S.
Variable a : arena.
Variable eps : f64.
Variables cmp ccmp : nat -> nat -> curve_order.
Variables min_x max_x : segment -> f64.
Variable pp : (lentry -> bool) -> list lentry -> nat.
Variable X : nat -> f64 -> R.
Variable t : R.

Notation scan_both := (scan_both a eps cmp ccmp min_x max_x).
Notation handle_enter := (handle_enter a eps cmp ccmp min_x max_x pp).
Notation enter_all := (enter_all a eps cmp ccmp min_x max_x pp).
Notation handle_exit := (handle_exit a eps cmp ccmp min_x max_x).
Notation exit_all := (exit_all a eps cmp ccmp min_x max_x).
Notation start_y := (start_y a).
Notation end_y := (end_y a).
Notation live := (SweepSpec.live a).
Notation registered := (SweepSpec.registered a).

Hypothesis SP : sweepable a.
Hypothesis CO : comparer_ok a cmp.
Hypothesis CC : comparer_ok a ccmp.
Hypothesis SO : search_ok pp.
Hypothesis SE : sees a eps cmp ccmp min_x max_x X t.
Variable tr : Prop.
Hypothesis TR_flip : tr -> forall i j, i <> j -> cmp j i = co_flip (cmp i j).
Notation Q := (fun y => qok (evP a cmp tr y)).
Notation ENT := (ENT a cmp tr).
Notation EXT := (EXT a cmp tr).
Notation INVS := (INVS a X t).
Notation scanned_r := (scanned_r a X t).
Notation scanned_l := (scanned_l a X t).
Notation act := (act a).

(** ** Entering segments *)
Lemma handle_enter_cases s i s' : registered i -> handle_enter s i = Ok s' ->
  (sw_line s' = sw_line s /\ sw_int s' = sw_int s) \/
  exists k k' e s1, slanted a i = true /\ (k' = k \/ k' = S k) /\ k <= length (sw_line s) /\ le_seg e = i /\
    scan_both (with_line s (firstn k (sw_line s) ++ e :: skipn k' (sw_line s))) k = Ok s1 /\
    sw_line s' = sw_line s1 /\ sw_int s' = sw_int s1.
Proof.
  intros Ri. pose proof (registered_lt _ SP _ Ri) as Hlt. unfold SweepModel.handle_enter. rewrite (seg_at_lt _ _ Hlt). cbn [rbind].
  destruct (sp_down _ SP _ Hlt) as [_ ->]. cbn [orerr rbind].
  destruct (slanted a i) eqn:Si; cbn [negb]; [|intros [= <-]; left; split; reflexivity].
  destruct (insertion_idx a cmp pp (sw_y s) (sw_line s) i) as [pos|]; [|discriminate]. cbn [rbind].
  destruct (sweep_prev a i) as [cp|]; [|discriminate]. cbn [rbind].
  match goal with |- rbind ?x _ = _ -> _ => destruct x as [o|]; [|discriminate] end. cbn [rbind].
  destruct o as [k|].
  - unfold handle_contour_continuation. cbv zeta. set (f := fun e => mkLE i true true _ _ (le_changed e) (le_old_idx e) (Some (le_seg e))).
    destruct (line_upd (sw_line s) k f) as [l'|] eqn:EL; [|discriminate]. cbn [rbind].
    destruct (scan_both (with_line s l') k) as [s1|] eqn:E1; [|discriminate]. cbn [rbind].
    destruct (add_need (sw_need s1) k false) as [n|]; [|discriminate]. cbn [rbind]. intros [= <-].
    destruct (line_upd_inv _ _ _ _ EL) as (e & He & ->). right. exists k, (S k), (f e), s1.
    split; [reflexivity|]. split; [right; reflexivity|]. split; [apply Nat.lt_le_incl, nth_error_Some; congruence|]. split; [reflexivity|]. split; [exact E1|]. split; reflexivity.
  - unfold insert_entry. set (e := mkLE _ false true _ _ _ _ _).
    destruct (line_insert (sw_line s) pos e) as [l'|] eqn:EL; [|discriminate]. cbn [rbind].
    destruct (scan_both (with_line s l') pos) as [s1|] eqn:E1; [|discriminate]. cbn [rbind].
    destruct (add_need (sw_need s1) pos true) as [n|]; [|discriminate]. cbn [rbind]. intros [= <-].
    destruct (line_insert_inv _ _ _ _ EL) as [Hl ->]. right. exists pos, pos, e, s1.
    split; [reflexivity|]. split; [left; reflexivity|]. split; [exact Hl|]. split; [reflexivity|]. split; [exact E1|]. split; reflexivity.
Qed.

Lemma INVS_sub y E l k k' : (k' = k \/ k' = S k) -> INVS y E (map le_seg l) -> INVS y E (map le_seg (firstn k l)) /\ INVS y E (map le_seg (skipn k' l)).
Proof.
  intros Hk H. split.
  - rewrite <- (firstn_skipn k l), map_app in H. eapply INVS_left, H.
  - rewrite <- (firstn_skipn k' l), map_app in H. eapply INVS_right, H.
Qed.

Lemma scan_both_line s k s' : scan_both s k = Ok s' -> sw_line s' = sw_line s.
Proof.
  intros HS. unfold SweepModel.scan_both in HS. destruct (SweepModel.scan_right _ _ _ _ _ _ _ _) as [u|] eqn:Q1; [|discriminate]. cbn [rbind] in HS.
  assert (RL : forall u v k, SweepModel.scan_right a eps cmp ccmp min_x max_x u k = Ok v -> sw_line v = sw_line u).
  { clear. intros u v k. unfold SweepModel.scan_right. destruct (line_seg (sw_line u) k) as [x|]; [|discriminate]. cbn [rbind].
    destruct (seg_at a x) as [g|]; [|discriminate]. cbn [rbind]. destruct (feq _ _); [intros [= <-]; reflexivity|].
    destruct (SweepModel.scan_right_loop _ _ _ _ _ _ _ _ _ _ _ _); [|discriminate]. cbn [rbind]. intros [= <-]. reflexivity. }
  assert (LL : forall u v k, SweepModel.scan_left a eps cmp ccmp min_x max_x u k = Ok v -> sw_line v = sw_line u).
  { clear. intros u v k. unfold SweepModel.scan_left. destruct (line_seg (sw_line u) k) as [x|]; [|discriminate]. cbn [rbind].
    destruct (seg_at a x) as [g|]; [|discriminate]. cbn [rbind]. destruct (feq _ _); [intros [= <-]; reflexivity|].
    destruct (SweepModel.scan_left_loop _ _ _ _ _ _ _ _ _ _ _ _); [|discriminate]. cbn [rbind]. intros [= <-]. reflexivity. }
  rewrite (LL _ _ _ HS), (RL _ _ _ Q1). reflexivity.
Qed.
(** A fresh entry between two parts of a line ([V]: events taken from the queue that count as queued). *)
Lemma grows_app V E E' : grows E E' -> grows (V ++ E) (V ++ E').
Proof. intros G x Hx. apply in_app_iff in Hx. apply in_or_app. destruct Hx as [Hx|Hx]; [left; exact Hx|right; apply G, Hx]. Qed.
Lemma grows_r V E : grows E (V ++ E).
Proof. apply incl_appr, incl_refl. Qed.
Lemma join_scanned V s A1 e A2 s' : nan (sw_y s) = false -> liveline a (sw_y s) (A1 ++ e :: A2) -> Q (sw_y s) (sw_int s) ->
  scan_both (with_line s (A1 ++ e :: A2)) (length A1) = Ok s' -> act (sw_y s) (le_seg e) = true ->
  INVS (sw_y s) (V ++ sw_int s) (map le_seg A1) -> INVS (sw_y s) (V ++ sw_int s) (map le_seg A2) ->
  exists evs, s' = with_int (with_line s (A1 ++ e :: A2)) evs /\ Q (sw_y s) evs /\ grows (sw_int s) evs /\ INVS (sw_y s) (V ++ evs) (map le_seg (A1 ++ e :: A2)).
Proof.
  intros N L HQ H HA H1 H2.
  assert (He : nth_error (A1 ++ e :: A2) (length A1) = Some e) by (rewrite nth_error_app2, Nat.sub_diag by lia; reflexivity).
  destruct (scan_both_post a eps cmp ccmp min_x max_x X t SP CO CC SE tr TR_flip (with_line s (A1 ++ e :: A2)) (length A1) e s' N L HQ He H) as (evs & -> & HQ' & G & P).
  cbn [with_int with_line sw_line sw_int sw_y] in *. exists evs. split; [reflexivity|]. split; [exact HQ'|]. split; [exact G|].
  destruct (P HA) as [PR PL]. rewrite map_app. cbn [map].
  assert (E1 : skipn (S (length A1)) (A1 ++ e :: A2) = A2).
  { change (A1 ++ e :: A2) with (A1 ++ [e] ++ A2). rewrite app_assoc. rewrite skipn_app, skipn_all2, app_length by (rewrite app_length; cbn; lia).
    cbn [length app]. replace (S (length A1) - (length A1 + 1)) with 0 by lia. reflexivity. }
  rewrite E1 in PR. rewrite firstn_len_app in PL.
  destruct L as [F _]. apply Forall_app in F. destruct F as [F1 F2]. inversion F2 as [|? ? Fe F2']; subst.
  apply (INVS_join a eps cmp ccmp min_x max_x X t SE); [eapply INVS_grows; [apply grows_app, G|assumption]|eapply INVS_grows; [apply grows_app, G|assumption]| |].
  - eapply scanned_r_grows; [apply grows_r|]. apply scanned_r_all; [exact SP|exact N| |exact PR]. apply Forall_map, F2'.
  - eapply scanned_l_grows; [apply grows_r|]. apply scanned_l_all; [exact SP|exact N| |exact PL]. apply Forall_map, F1.
Qed.

Lemma handle_enter_order y base done s i s' : ENT y base done s -> registered i -> key (start_y i) = key y ->
  ~ In i (members (sw_line s)) -> handle_enter s i = Ok s' ->
  INVS y (sw_int s) (map le_seg (sw_line s)) -> INVS y (sw_int s') (map le_seg (sw_line s')).
Proof.
  intros H Ri Hi NI HE HI.
  pose proof (handle_enter_safe a eps cmp ccmp min_x max_x pp SP CO SO tr TR_flip y base done s i H Ri Hi NI) as SF. rewrite HE in SF. cbn in SF.
  destruct (handle_enter_cases _ _ _ Ri HE) as [[-> ->]|(k & k' & e & s1 & Si & Hk & Hl & Ee & HS & E1 & E2)]; [exact HI|].
  destruct H. subst y.
  assert (E3 : sw_line s1 = firstn k (sw_line s) ++ e :: skipn k' (sw_line s)) by (rewrite (scan_both_line _ _ _ HS); reflexivity).
  assert (Lk : length (firstn k (sw_line s)) = k) by (apply firstn_length_le, Hl).
  rewrite <- Lk in HS at 2.
  destruct (INVS_sub _ _ _ k k' Hk HI) as [I1 I2].
  assert (OK' := SweepProofs3.en_ok _ _ _ _ _ _ _ SF). assert (ND' := SweepProofs3.en_nodup _ _ _ _ _ _ _ SF). rewrite E1, E3 in OK', ND'.
  assert (LL : liveline a (sw_y s) (firstn k (sw_line s) ++ e :: skipn k' (sw_line s))).
  { split; [apply live_of_ent, OK'|apply members_nodup, ND']. }
  assert (AE : act (sw_y s) (le_seg e) = true).
  { rewrite Ee. assert (Le : live (sw_y s) i).
    { destruct LL as [F _]. rewrite Forall_forall in F. rewrite <- Ee. apply F. apply in_or_app. right. left. reflexivity. }
    apply act_key; [exact SP|exact en_nan|exact Le|]. apply (slanted_key _ SP _ Ri) in Si. lia. }
  destruct (join_scanned [] s (firstn k (sw_line s)) e (skipn k' (sw_line s)) s1 en_nan LL en_q HS AE I1 I2) as (evs & E4 & _ & _ & R).
  rewrite E1, E2, E4. exact R.
Qed.

Lemma enter_all_order y base l : forall done s s', ENT y base done s -> NoDup (map snd l) ->
  Forall (fun p => feq (fst p) y = true /\ registered (snd p) /\ key (start_y (snd p)) = key y /\ ~ In (snd p) base /\ ~ In (snd p) done) l ->
  enter_all s l = Ok s' ->
  INVS y (sw_int s) (map le_seg (sw_line s)) -> INVS y (sw_int s') (map le_seg (sw_line s')).
Proof.
  induction l as [|[ey i] l IH]; intros done s s' H ND F HE HI; cbn [SweepModel.enter_all] in HE.
  - injection HE as <-. exact HI.
  - inversion F as [|? ? (F1 & F2 & F3 & F4 & F5) F']; subst. cbn [fst snd map] in *. inversion ND as [|? ? ND1 ND2]; subst.
    rewrite (en_y _ _ _ _ _ _ _ H), F1 in HE. cbn [negb] in HE. destruct (handle_enter s i) as [s1|] eqn:E1; [|discriminate]. cbn [rbind] in HE.
    assert (NI : ~ In i (members (sw_line s))).
    { intros K. eapply Permutation_in in K; [|apply (en_mem _ _ _ _ _ _ _ H)]. apply in_app_iff in K. destruct K as [K|K]; [auto|]. apply filter_In in K. tauto. }
    pose proof (handle_enter_safe a eps cmp ccmp min_x max_x pp SP CO SO tr TR_flip y base done s i H F2 F3 NI) as SF. rewrite E1 in SF. cbn in SF.
    refine (IH (done ++ [i]) s1 s' SF ND2 _ HE (handle_enter_order y base done s i s1 H F2 F3 NI E1 HI)).
    apply Forall_forall. intros [ey' j] Hj. rewrite Forall_forall in F'. specialize (F' _ Hj). cbn [fst snd] in *.
    destruct F' as (G1 & G2 & G3 & G4 & G5). repeat (split; [assumption|]). rewrite in_app_iff. intros [K|[->|[]]]; [auto|].
    apply ND1. change j with (snd (ey', j)). apply in_map. exact Hj.
Qed.

(** ** Leaving segments *)
(** Each segment on the list that leaves has had its left neighbour scanned. *)
Definition SCN (y : f64) (E : list ievent) (F done : list nat) : Prop :=
  forall U m d V, F = U ++ m :: d :: V -> act y m = true -> act y d = false -> In d done ->
    scanned_r y E m (filter (act y) V) /\ scanned_l y E (filter (act y) U) m.
Lemma SCN_grows y E E' F done : grows E E' -> SCN y E F done -> SCN y E' F done.
Proof.
  intros G H U m d V EF H1 H2 H3. destruct (H U m d V EF H1 H2 H3) as [R L].
  split; [eapply scanned_r_grows; eassumption|eapply scanned_l_grows; eassumption].
Qed.
Lemma handle_exit_order y L1 h done s i s' : NoDup (members L1) -> Forall (fun e => live y (le_seg e)) L1 ->
  EXT y L1 h done s -> In i (members L1) -> handle_exit s i = Ok s' ->
  SCN y (sw_int s) (map le_seg L1) done -> grows (sw_int s) (sw_int s') /\ SCN y (sw_int s') (map le_seg L1) (done ++ [i]).
Proof.
  intros ND F H HI HE HS. destruct H.
  assert (HM : map le_seg (sw_line s) = map le_seg L1).
  { rewrite ex_line, map_map. apply map_ext. intros z. apply xm_seg. }
  assert (NDs : NoDup (members (sw_line s))) by (rewrite ex_line, xm_members; exact ND).
  assert (Fs : Forall (fun e => live y (le_seg e)) (sw_line s)).
  { rewrite ex_line. apply Forall_map. eapply Forall_impl; [|exact F]. cbn. intros z Hz. rewrite xm_seg. exact Hz. }
  unfold SweepModel.handle_exit in HE. destruct (position_of i (sw_line s)) as [p|] eqn:Ep; [|discriminate]. cbn [orerr rbind] in HE.
  destruct (position_of_some _ _ _ Ep) as (e & Hp & He). unfold line_get in HE. rewrite Hp in HE. cbn [orerr rbind] in HE.
  destruct (match le_old_seg e with Some o => o =? i | None => false end) eqn:Eo.
  - injection HE as <-. split; [apply grows_refl|]. intros U m d V EF H1 H2 H3. apply in_app_iff in H3. destruct H3 as [H3|[<-|[]]]; [eapply HS; eassumption|].
    exfalso. destruct (le_old_seg e) as [o|] eqn:Eo'; [|discriminate]. apply Nat.eqb_eq in Eo. subst o.
    assert (K : In i (map le_seg (sw_line s))) by (rewrite HM, EF; apply in_or_app; right; right; left; reflexivity).
    apply in_map_iff in K. destruct K as (z & Ez & Hz). revert Ez. eapply old_not_seg; eassumption.
  - assert (Es : le_seg e = i).
    { unfold has_seg in He. rewrite Eo, orb_false_r in He. apply Nat.eqb_eq, He. }
    rewrite (line_upd_spec _ _ _ _ Hp) in HE. cbn [rbind] in HE. set (l' := firstn p (sw_line s) ++ with_exit e :: skipn (S p) (sw_line s)) in *.
    assert (ML : map le_seg l' = map le_seg L1).
    { rewrite <- HM. unfold l'. rewrite (nth_cut _ _ _ Hp) at 3. rewrite !map_app. reflexivity. }
    assert (LL : liveline a (sw_y s) l').
    { split; [|rewrite ML, <- HM; apply members_nodup, NDs]. rewrite <- (Forall_map le_seg (live (sw_y s))), ML, <- HM, Forall_map, ex_y. exact Fs. }
    destruct (scan_for_removal a eps cmp ccmp min_x max_x (with_line s l') p) as [s1|] eqn:ER; [|discriminate]. cbn [rbind] in HE. injection HE as <-.
    cbn [with_need sw_int]. unfold scan_for_removal in ER. subst y. destruct (0 <? p) eqn:B.
    + apply Nat.ltb_lt in B. assert (Lp : p < length (sw_line s)) by (apply nth_error_Some; congruence).
      assert (Ll : length l' = length (sw_line s)) by (rewrite <- (map_length le_seg l'), ML, <- HM, map_length; reflexivity).
      destruct (nth_error l' (p - 1)) as [e0|] eqn:E0; [|apply nth_error_None in E0; lia].
      destruct (scan_both_post a eps cmp ccmp min_x max_x X t SP CO CC SE tr TR_flip (with_line s l') (p - 1) e0 s1 ex_nan LL ex_q E0 ER) as (evs & -> & HQ' & G & P).
      cbn [with_int with_line sw_line sw_int sw_y] in *. split; [exact G|].
      intros U m d V EF H1 H2 H3. apply in_app_iff in H3. destruct H3 as [H3|[<-|[]]]; [eapply (SCN_grows _ _ _ _ _ G); eassumption|].
      assert (NDL : NoDup (map le_seg l')) by apply LL.
      assert (ES : map le_seg (firstn p l') ++ i :: map le_seg (skipn (S p) l') = (U ++ [m]) ++ i :: V).
      { rewrite <- app_assoc. cbn [app]. rewrite <- EF, <- ML.
        assert (Hp' : nth_error l' p = Some (with_exit e)) by (apply nth_replace; [exact Lp|left; auto]).
        rewrite (nth_cut _ _ _ Hp') at 3. rewrite map_app. cbn [map]. f_equal. f_equal. cbn. symmetry. exact Es. }
      assert (NDE : NoDup (map le_seg (firstn p l') ++ i :: map le_seg (skipn (S p) l'))).
      { rewrite ES, <- app_assoc. cbn [app]. rewrite <- EF, <- ML. exact NDL. }
      pose proof (nodup_cut _ _ _ _ _ NDE ES) as EV. pose proof (nodup_cut' _ _ _ _ _ NDE ES) as EU.
      assert (EU2 : map le_seg (firstn (p - 1) l') ++ [le_seg e0] = U ++ [m]).
      { rewrite <- EU. pose proof (nth_cut _ _ _ E0) as C. replace (S (p - 1)) with p in C by lia. 
        assert (L1' : length (firstn (p - 1) l') = p - 1) by (apply firstn_length_le; lia).
        assert (C2 : firstn p l' = firstn (p - 1) l' ++ [e0]).
        { rewrite C at 1. rewrite firstn_app, L1'. replace (p - (p - 1)) with 1 by lia. cbn [firstn]. rewrite firstn_all2 by lia. reflexivity. }
        rewrite C2, map_app. reflexivity. }
      apply app_inj_tail in EU2. destruct EU2 as [EU1 EM]. subst m. destruct (P H1) as [PR PL].
      replace (S (p - 1)) with p in PR by lia.
      assert (EK : map le_seg (skipn p l') = i :: V).
      { rewrite <- EV. rewrite (nth_cut l' p (with_exit e)) at 1 by (apply nth_replace; [exact Lp|left; auto]).
        assert (L1' : length (firstn p l') = p) by (apply firstn_length_le; lia).
        rewrite <- L1' at 1. rewrite skipn_len_app. cbn [map]. f_equal. exact Es. }
      rewrite EK in PR. cbn [filter] in PR. rewrite H2 in PR. rewrite EU1 in PL. split; assumption.
    + injection ER as <-. cbn [with_line sw_int]. split; [apply grows_refl|].
      intros U m d V EF H1 H2 H3. apply in_app_iff in H3. destruct H3 as [H3|[<-|[]]]; [eapply HS; eassumption|]. exfalso.
      apply Nat.ltb_ge in B. assert (p = 0) as -> by lia. rewrite <- HM in EF.
      apply members_nodup in NDs. destruct (sw_line s) as [|e1 r]; [discriminate|]. cbn in Hp. injection Hp as ->. cbn [map] in EF, NDs.
      destruct U as [|u U]; cbn [app] in EF; injection EF as EF1 EF2; inversion NDs as [|? ? K]; subst.
      * apply K. rewrite EF2. left. reflexivity.
      * apply K. rewrite EF2. apply in_or_app. right. right. left. reflexivity.
Qed.
Lemma exit_all_order y L1 h l : NoDup (members L1) -> Forall (fun e => live y (le_seg e)) L1 ->
  forall done s s', EXT y L1 h done s -> Forall (fun p => feq (fst p) y = true /\ In (snd p) (members L1)) l ->
  exit_all s l = Ok s' -> SCN y (sw_int s) (map le_seg L1) done ->
  grows (sw_int s) (sw_int s') /\ SCN y (sw_int s') (map le_seg L1) (done ++ map snd l).
Proof.
  intros ND FL. induction l as [|[ey i] l IH]; intros done s s' H F HE HS; cbn [SweepModel.exit_all] in HE.
  - injection HE as <-. cbn [map]. rewrite app_nil_r. split; [apply grows_refl|exact HS].
  - inversion F as [|? ? [F1 F2] F']; subst. cbn [fst snd map] in *. rewrite (ex_y _ _ _ _ _ _ _ _ H), F1 in HE. cbn [negb] in HE.
    destruct (handle_exit s i) as [s1|] eqn:E1; [|discriminate]. cbn [rbind] in HE.
    pose proof (handle_exit_safe a eps cmp ccmp min_x max_x SP CO tr TR_flip y L1 h done s i ND FL H F2) as SF. rewrite E1 in SF. cbn in SF.
    destruct (handle_exit_order _ _ _ _ _ _ _ ND FL H F2 E1 HS) as [G HS'].
    destruct (IH _ _ _ SF F' HE HS') as [G' HS'']. split; [eapply grows_trans; eassumption|]. rewrite <- app_assoc in HS''. exact HS''.
Qed.
Lemma SCN_nil y E F : SCN y E F [].
Proof. intros U m d V _ _ _ []. Qed.
Lemma INVS_gaps y E F done : INVS y E F -> SCN y E F done -> (forall d, In d F -> act y d = false -> In d done) -> INVS y E (filter (act y) F).
Proof.
  intros H HS HD z Nz Lz. apply (inv_gaps _ _ (se_t _ _ _ _ _ _ _ _ SE) _ (edone_dec a z)); [apply H; assumption|].
  intros U m d V EF H1 H2. assert (K : In d F) by (rewrite EF; apply in_or_app; right; right; left; reflexivity).
  destruct (HS U m d V EF H1 H2 (HD d K H2)) as [R L]. split; [apply R|apply L]; assumption.
Qed.
End S.
