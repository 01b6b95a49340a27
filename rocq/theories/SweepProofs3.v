(** Proofs about the sweep, part 3: entering segments. *)
From Coq Require Import List Bool ZArith Arith Lia Permutation Sorted.
From Verif Require Import F64 F64Arith TreeVecModel TreeVecSpec GeomModel SegmentsModel SegmentsSpec
  SegmentsProofs CurveOrderModel CurveOrderSpec CurveOrderProofs CurveOrderProofs2 CurveOrderProofs3
  SweepModel SweepSpec SweepProofs SweepProofs2.
Import ListNotations.

(** ** [add_seg_needing_position] *)
Lemma is_sorted_true l : StronglySorted le l -> is_sorted l = true.
Proof.
  induction 1 as [|x l S IH F]; [reflexivity|]. destruct l as [|y l]; [reflexivity|]. cbn [is_sorted] in *.
  inversion F; subst. rewrite IH, (proj2 (Nat.leb_le x y)) by assumption. reflexivity.
Qed.
Definition bumped (pos k : nat) : nat := if pos <=? k then S k else k.
Lemma bump_map pos rl : StronglySorted ge rl -> bump pos rl = map (bumped pos) rl.
Proof.
  induction 1 as [|x l S IH F]; [reflexivity|]. cbn [bump map]. unfold bumped at 1. destruct (pos <=? x) eqn:E.
  - f_equal. exact IH.
  - apply Nat.leb_gt in E. f_equal. symmetry. clear IH. induction F as [|z l Hz F IHF]; [reflexivity|].
    cbn [map]. unfold bumped at 1. rewrite (proj2 (Nat.leb_gt pos z)) by lia. f_equal. apply IHF. inversion S; assumption.
Qed.
Lemma SSorted_app {A} (R : A -> A -> Prop) l1 l2 : StronglySorted R (l1 ++ l2) <->
  StronglySorted R l1 /\ StronglySorted R l2 /\ (forall x y, In x l1 -> In y l2 -> R x y).
Proof.
  induction l1 as [|x l1 IH]; cbn [app].
  - split; [intros H; split; [constructor|]; split; [exact H|intros x y []]|tauto].
  - split.
    + intros H. inversion H; subst. apply IH in H2. destruct H2 as (A1 & A2 & A3). rewrite Forall_app in H3. destruct H3 as [B1 B2].
      split; [constructor; assumption|]. split; [assumption|]. intros u v [<-|Hu] Hv; [|auto]. rewrite Forall_forall in B2. auto.
    + intros (A1 & A2 & A3). inversion A1; subst. constructor.
      * apply IH. split; [assumption|]. split; [assumption|]. intros u v Hu Hv. apply A3; [right|]; assumption.
      * apply Forall_app. split; [assumption|]. apply Forall_forall. intros v Hv. apply A3; [left; reflexivity|assumption].
Qed.
Lemma sorted_rev l : StronglySorted le l -> StronglySorted ge (rev l).
Proof.
  induction 1 as [|x l S IH F]; cbn [rev]; [constructor|]. apply SSorted_app. split; [exact IH|]. split; [repeat constructor|].
  intros u v Hu [<-|[]]. apply in_rev in Hu. rewrite Forall_forall in F. specialize (F _ Hu). lia.
Qed.
Lemma insert_pos_spec pos l : StronglySorted le l -> forall i,
  exists k, k <= length l /\ insert_pos pos l i = (if k =? 0 then 0 else i + k) /\
    Forall (fun p => p < pos) (firstn k l) /\ Forall (fun p => pos <= p) (skipn k l).
Proof.
  induction 1 as [|x l S IH F]; intros i; cbn [insert_pos].
  - exists 0. repeat split; auto; constructor.
  - destruct (IH (Datatypes.S i)) as (k & Hk & E & F1 & F2). rewrite E. destruct k as [|k]; cbn [Nat.eqb].
    + cbn [skipn] in F2. destruct (x <? pos) eqn:Ex.
      * apply Nat.ltb_lt in Ex. exists 1. cbn. repeat split; auto; lia.
      * apply Nat.ltb_ge in Ex. exists 0. cbn. repeat split; auto; lia.
    + replace (Datatypes.S i + Datatypes.S k) with (Datatypes.S (i + Datatypes.S k)) by lia.
      exists (Datatypes.S (Datatypes.S k)). cbn [Nat.eqb firstn skipn length] in *. split; [lia|]. split; [lia|]. split; [|exact F2].
      constructor; [|exact F1]. destruct l as [|y l]; [cbn in Hk; lia|]. inversion F1; subst. inversion F; subst. lia.
Qed.
Lemma insert_sorted pos l k : StronglySorted le l -> Forall (fun p => p < pos) (firstn k l) -> Forall (fun p => pos <= p) (skipn k l) ->
  StronglySorted le (firstn k l ++ pos :: skipn k l).
Proof.
  intros S F1 F2. rewrite <- (firstn_skipn k l) in S. apply SSorted_app in S. destruct S as (A1 & A2 & A3).
  apply SSorted_app. split; [assumption|]. split; [constructor; assumption|]. rewrite Forall_forall in F1.
  intros u v Hu [<-|Hv]; [specialize (F1 _ Hu); lia|auto].
Qed.
Lemma in_insert {A} (x pos : A) l k : In x (firstn k l ++ pos :: skipn k l) <-> x = pos \/ In x l.
Proof.
  rewrite <- (firstn_skipn k l) at 3. rewrite !in_app_iff. cbn [In]. intuition congruence.
Qed.
Lemma add_need_spec need pos b : StronglySorted le need -> exists need', add_need need pos b = Ok need' /\
  StronglySorted le need' /\ forall k, In k need' <-> k = pos \/ In k (if b : bool then map (bumped pos) need else need).
Proof.
  intros S. unfold add_need. set (n1 := if b then rev (bump pos (rev need)) else need).
  assert (E1 : n1 = (if b then map (bumped pos) need else need)).
  { unfold n1. destruct b; [|reflexivity]. rewrite bump_map by (apply sorted_rev, S). rewrite <- map_rev, rev_involutive. reflexivity. }
  assert (S1 : StronglySorted le n1).
  { rewrite E1. destruct b; [|exact S]. clear -S. induction S as [|x l S IH F]; cbn; [constructor|]. constructor; [exact IH|].
    apply Forall_map. eapply Forall_impl; [|exact F]. cbn. unfold bumped. intros z Hz.
    destruct (pos <=? x) eqn:A1, (pos <=? z) eqn:A2; try lia. apply Nat.leb_le in A1. apply Nat.leb_gt in A2. lia. }
  rewrite <- E1. clearbody n1. clear E1. destruct (insert_pos_spec pos n1 S1 0) as (k & Hk & E & F1 & F2).
  assert (E' : insert_pos pos n1 0 = k) by (rewrite E; destruct k; reflexivity). cbv zeta. rewrite E'.
  pose proof (insert_sorted _ _ _ S1 F1 F2) as S2. rewrite is_sorted_true by exact S2.
  eexists. split; [reflexivity|]. split; [exact S2|]. intros z. apply in_insert.
Qed.

(** ** Members *)
Lemma members_app l1 l2 : members (l1 ++ l2) = members l1 ++ members l2.
Proof. unfold members. apply flat_map_app. Qed.
Lemma members_cons e l : members (e :: l) = (le_seg e :: match le_old_seg e with Some p => [p] | None => [] end) ++ members l.
Proof. reflexivity. Qed.
Lemma seg_in_members l i : In i (map le_seg l) -> In i (members l).
Proof.
  intros H. apply in_map_iff in H. destruct H as (e & <- & H). unfold members. apply in_flat_map. exists e. split; [exact H|left; reflexivity].
Qed.
Lemma NoDup_app_l {A} (l1 l2 : list A) : NoDup (l1 ++ l2) -> NoDup l1.
Proof. induction l1; cbn; [constructor|]. intros H. inversion H; subst. constructor; [|auto]. intros HI. apply H2, in_or_app. auto. Qed.
Lemma NoDup_app_r {A} (l1 l2 : list A) : NoDup (l1 ++ l2) -> NoDup l2.
Proof. induction l1; cbn; auto. intros H. inversion H; auto. Qed.
Lemma members_nodup l : NoDup (members l) -> NoDup (map le_seg l).
Proof.
  induction l as [|e l IH]; [constructor|]. rewrite members_cons. intros H. cbn [map]. constructor.
  - cbn [app] in H. inversion H; subst. intros HI. apply H2, in_or_app. right. apply seg_in_members, HI.
  - apply IH. eapply NoDup_app_r; exact H.
Qed.
Lemma has_seg_members e i : has_seg i e = true <-> In i (le_seg e :: match le_old_seg e with Some p => [p] | None => [] end).
Proof.
  unfold has_seg. rewrite orb_true_iff, Nat.eqb_eq. cbn [In]. destruct (le_old_seg e); [rewrite Nat.eqb_eq; cbn; tauto|]. cbn. split; [intros [H|H]; [auto|discriminate H]|intros [H|[]]; auto].
Qed.
Lemma position_of_in i l : In i (members l) -> exists p e, position_of i l = Some p /\ nth_error l p = Some e /\ has_seg i e = true.
Proof.
  induction l as [|e l IH]; [intros []|]. rewrite members_cons, in_app_iff, <- has_seg_members. cbn [position_of]. intros H.
  destruct (has_seg i e) eqn:E; [exists 0, e; auto|]. destruct H as [H|H]; [discriminate|].
  destruct (IH H) as (p & e' & -> & H1 & H2). exists (S p), e'. auto.
Qed.
Lemma position_of_some i l p : position_of i l = Some p -> exists e, nth_error l p = Some e /\ has_seg i e = true.
Proof.
  revert p. induction l as [|e l IH]; intros p; cbn [position_of]; [discriminate|]. destruct (has_seg i e) eqn:E.
  - intros [= <-]. exists e. auto.
  - destruct (position_of i l); [|discriminate]. intros [= <-]. apply IH. reflexivity.
Qed.
Lemma members_at l k e i : nth_error l k = Some e -> has_seg i e = true -> In i (members l).
Proof. intros H E. unfold members. apply in_flat_map. exists e. split; [eapply nth_error_In; eassumption|]. apply has_seg_members, E. Qed.
Lemma in_members_nth l i : In i (members l) -> exists k e, nth_error l k = Some e /\ has_seg i e = true.
Proof. intros H. destruct (position_of_in _ _ H) as (p & e & _ & A & B). eauto. Qed.
(** A segment belongs to only one entry. *)
Lemma members_unique l : NoDup (members l) -> forall i j e f x, nth_error l i = Some e -> nth_error l j = Some f ->
  has_seg x e = true -> has_seg x f = true -> i = j.
Proof.
  induction l as [|e0 l IH]; intros ND i j e f x Hi Hj Ei Ej; [destruct i; discriminate|].
  rewrite members_cons in ND.
  assert (X : forall k g, nth_error l k = Some g -> has_seg x g = true -> has_seg x e0 = true -> False).
  { intros k g H1 H2 H3. apply has_seg_members in H3. pose proof (members_at _ _ _ _ H1 H2) as H4. clear -ND H3 H4.
    revert ND H3. generalize (le_seg e0 :: match le_old_seg e0 with Some p => [p] | None => [] end). intros l0.
    induction l0 as [|z l0 IH0]; cbn; [tauto|]. intros ND [->|H]; inversion ND; subst; [|auto]. apply H1, in_or_app. auto. }
  destruct i as [|i], j as [|j]; cbn [nth_error] in Hi, Hj; auto.
  - injection Hi as ->. exfalso. eauto.
  - injection Hj as ->. exfalso. eauto.
  - f_equal. eapply IH; eauto. eapply NoDup_app_r; exact ND.
Qed.

(** ** Line updates *)
Lemma line_upd_spec l k e f : nth_error l k = Some e ->
  line_upd l k f = Ok (firstn k l ++ f e :: skipn (S k) l).
Proof.
  intros H. unfold line_upd, line_get. rewrite H. cbn [orerr rbind].
  destruct (nth_error_split _ _ H) as (l1 & l2 & -> & <-). rewrite upd_app. cbn [orerr].
  rewrite firstn_app, firstn_all, Nat.sub_diag, skipn_app, skipn_all2 by lia. replace (S (length l1) - length l1) with 1 by lia.
  cbn. rewrite app_nil_r. reflexivity.
Qed.
Lemma line_insert_spec l k e : k <= length l -> line_insert l k e = Ok (firstn k l ++ e :: skipn k l).
Proof. intros H. unfold line_insert. rewrite (proj2 (Nat.leb_le _ _) H). reflexivity. Qed.
Lemma line_remove_spec l k e : nth_error l k = Some e -> line_remove l k = Ok (e, firstn k l ++ skipn (S k) l).
Proof. intros H. unfold line_remove, line_get. rewrite H. reflexivity. Qed.

Lemma nth_firstn {A} (l : list A) k n : n < k -> nth_error (firstn k l) n = nth_error l n.
Proof. revert k n. induction l as [|x l IH]; intros [|k] [|n] H; cbn; try reflexivity; try lia. apply IH. lia. Qed.
Lemma nth_skipn {A} (l : list A) k n : nth_error (skipn k l) n = nth_error l (k + n).
Proof. revert k. induction l as [|x l IH]; intros [|k]; cbn; try reflexivity; [destruct n; reflexivity|]. apply IH. Qed.
Lemma nth_insert {A} (l : list A) k e n x : k <= length l ->
  nth_error (firstn k l ++ e :: skipn k l) n = Some x <->
  (n < k /\ nth_error l n = Some x) \/ (n = k /\ x = e) \/ (k < n /\ nth_error l (n - 1) = Some x).
Proof.
  intros Hk. assert (L : length (firstn k l) = k) by (apply firstn_length_le, Hk).
  destruct (lt_eq_lt_dec n k) as [[H|H]|H].
  - rewrite nth_error_app1 by lia. rewrite nth_firstn by lia. split; [auto|]. intros [[_ H1]|[[H1 _]|[H1 _]]]; [assumption|lia|lia].
  - subst n. rewrite nth_error_app2 by lia. rewrite L, Nat.sub_diag. cbn. split; [intros [= ->]; auto|]. intros [[H1 _]|[[_ ->]|[H1 _]]]; [lia|reflexivity|lia].
  - rewrite nth_error_app2 by lia. rewrite L. destruct (n - k) as [|m] eqn:E; [lia|]. cbn [nth_error]. rewrite nth_skipn.
    replace (n - 1) with (k + m) by lia. split; [auto|]. intros [[H1 _]|[[H1 _]|[_ H1]]]; [lia|lia|assumption].
Qed.
Lemma nth_replace {A} (l : list A) k e n x : k < length l ->
  nth_error (firstn k l ++ e :: skipn (S k) l) n = Some x <-> (n = k /\ x = e) \/ (n <> k /\ nth_error l n = Some x).
Proof.
  intros Hk. assert (L : length (firstn k l) = k) by (apply firstn_length_le; lia).
  destruct (lt_eq_lt_dec n k) as [[H|H]|H].
  - rewrite nth_error_app1 by lia. rewrite nth_firstn by lia. split; [intros; right; split; [lia|assumption]|]. intros [[H1 _]|[_ H1]]; [lia|assumption].
  - subst n. rewrite nth_error_app2 by lia. rewrite L, Nat.sub_diag. cbn [nth_error]. split; [intros [= ->]; auto|]. intros [[_ ->]|[H1 _]]; [reflexivity|lia].
  - rewrite nth_error_app2 by lia. rewrite L. destruct (n - k) as [|m] eqn:E; [lia|]. cbn [nth_error]. rewrite nth_skipn.
    replace (S k + m) with n by lia. split; [intros; right; split; [lia|assumption]|]. intros [[H1 _]|[_ H1]]; [lia|assumption].
Qed.

Lemma Forall_insert {A} (P : A -> Prop) l k e : Forall P l -> P e -> Forall P (firstn k l ++ e :: skipn k l).
Proof. intros F H. apply Forall_app. split; [apply Forall_firstn, F|]. constructor; [exact H|apply Forall_skipn, F]. Qed.
Lemma Forall_replace {A} (P : A -> Prop) l k e : Forall P l -> P e -> Forall P (firstn k l ++ e :: skipn (S k) l).
Proof. intros F H. apply Forall_app. split; [apply Forall_firstn, F|]. constructor; [exact H|apply Forall_skipn, F]. Qed.

Section S.
Variable a : arena.
Variable eps : f64.
Variables cmp ccmp : nat -> nat -> curve_order.
Variables min_x max_x : segment -> f64.
Variable pp : (lentry -> bool) -> list lentry -> nat.

Notation scan_both := (scan_both a eps cmp ccmp min_x max_x).
Notation insert_entry := (insert_entry a eps cmp ccmp min_x max_x).
Notation handle_contour_continuation := (handle_contour_continuation a eps cmp ccmp min_x max_x).
Notation handle_enter := (handle_enter a eps cmp ccmp min_x max_x pp).
Notation enter_all := (enter_all a eps cmp ccmp min_x max_x pp).
Notation start_y := (start_y a).
Notation end_y := (end_y a).
Notation slanted := (slanted a).
Notation registered := (SweepSpec.registered a).

Hypothesis SP : sweepable a.
Hypothesis CO : comparer_ok a cmp.
Hypothesis CC : comparer_ok a ccmp.
Hypothesis SO : search_ok pp.
Variable tr : Prop.
Hypothesis TR_flip : tr -> forall i j, i <> j -> cmp j i = co_flip (cmp i j).

Notation live := (SweepSpec.live a).
Notation evP := (evP a cmp tr).
Notation safe := (safe tr).
Notation scanok := (scanok a cmp tr).
Notation onlyq := (onlyq a cmp tr).

Definition ent_ok (y : f64) (e : lentry) : Prop :=
  le_changed e = false /\ le_old_idx e = None /\ live y (le_seg e) /\
  match le_old_seg e with
  | Some p => le_enter e = true /\ le_exit e = true /\ key (start_y (le_seg e)) = key y /\
              live y p /\ (key (start_y p) < key y)%Z /\ key (end_y p) = key y /\ sweep_prev a (le_seg e) = Ok (Some p)
  | None => le_exit e = false /\ (le_enter e = true <-> key (start_y (le_seg e)) = key y)
  end.

Record ENT (y : f64) (base done : list nat) (s : sweeper) : Prop := {
  en_y : sw_y s = y;
  en_nan : nan y = false;
  en_mem : Permutation (members (sw_line s)) (base ++ filter slanted done);
  en_nodup : NoDup (members (sw_line s));
  en_old : old_segs (sw_line s) = base;
  en_ok : Forall (ent_ok y) (sw_line s);
  en_q : qok (evP y) (sw_int s);
  en_sorted : StronglySorted le (sw_need s);
  en_need : forall k e, nth_error (sw_line s) k = Some e -> le_enter e = true -> In k (sw_need s);
  en_bound : Forall (fun k => k < length (sw_line s)) (sw_need s);
  en_hor : sw_horiz s = filter (fun i => negb (slanted i)) done;
  en_changed : sw_changed s = [] }.

Lemma ENT_scanok y base done s : ENT y base done s -> scanok s.
Proof.
  intros H. destruct H. subst y. split; [assumption|]. split; [|assumption]. split; [|apply members_nodup; assumption].
  eapply Forall_impl; [|eassumption]. intros e (_ & _ & L & _). exact L.
Qed.

(** Scanning in a state whose line has been updated. *)
Lemma ins_scanok y s l : sw_y s = y -> nan y = false -> NoDup (members l) -> Forall (fun e => live y (le_seg e)) l ->
  qok (evP y) (sw_int s) -> scanok (with_line s l).
Proof.
  intros <- N ND F Q. split; [exact N|]. split; [|exact Q]. split; [exact F|apply members_nodup, ND].
Qed.

Lemma live_of_ent y l : Forall (ent_ok y) l -> Forall (fun e => live y (le_seg e)) l.
Proof. intros F. eapply Forall_impl; [|exact F]. intros e (_ & _ & L & _). exact L. Qed.

Lemma members_insert l k e : Permutation (members (firstn k l ++ e :: skipn k l))
  ((le_seg e :: match le_old_seg e with Some p => [p] | None => [] end) ++ members l).
Proof.
  rewrite <- (firstn_skipn k l) at 3. rewrite !members_app, members_cons. rewrite !app_assoc. apply Permutation_app_tail, Permutation_app_comm.
Qed.

Lemma continuation_safe y base done s i k e : ENT y base done s -> registered i -> slanted i = true ->
  key (start_y i) = key y -> ~ In i (members (sw_line s)) ->
  nth_error (sw_line s) k = Some e -> (key (start_y (le_seg e)) < key y)%Z -> key (end_y (le_seg e)) = key y ->
  sweep_prev a i = Ok (Some (le_seg e)) ->
  safe (handle_contour_continuation s i (seg_def a i) k) (ENT y base (done ++ [i])).
Proof.
  intros H Ri Si Hi NI Hk Hs He Hsp. pose proof (ENT_scanok _ _ _ _ H) as HS. destruct H.
  assert (Li : live y i). { split; [assumption|]. split; [assumption|]. apply (slanted_key _ SP _ Ri) in Si. lia. }
  assert (Hlt : k < length (sw_line s)) by (apply nth_error_Some; congruence).
  assert (Ee : ent_ok y e) by (rewrite Forall_forall in en_ok0; apply en_ok0; eapply nth_error_In; eassumption).
  assert (Eo : le_old_seg e = None /\ le_enter e = false).
  { destruct Ee as (_ & _ & _ & Ee). destruct (le_old_seg e) as [p|]; [destruct Ee as (_ & _ & Ee & _); lia|]. split; [reflexivity|].
    destruct Ee as [_ [Ee _]]. destruct (le_enter e); [|reflexivity]. specialize (Ee eq_refl). lia. }
  destruct Eo as [Eo Een]. destruct Ee as (E1 & E2 & E3 & _).
  unfold SweepModel.handle_contour_continuation. cbv zeta. rewrite (line_upd_spec _ _ _ _ Hk). cbn [rbind].
  set (e' := mkLE i true true _ _ _ _ _). set (l' := firstn k (sw_line s) ++ e' :: skipn (S k) (sw_line s)).
  assert (Ll : length l' = length (sw_line s)).
  { unfold l'. rewrite app_length. cbn [length]. rewrite firstn_length_le, skipn_length by lia. lia. }
  assert (Pm : Permutation (members l') (i :: members (sw_line s))).
  { unfold l'. rewrite members_app, members_cons. cbn [e' le_seg le_old_seg].
    destruct (nth_error_split _ _ Hk) as (l1 & l2 & El & Ek). rewrite El, <- Ek.
    rewrite firstn_app, firstn_all, Nat.sub_diag, skipn_app, skipn_all2 by lia. replace (S (length l1) - length l1) with 1 by lia.
    cbn [firstn skipn app]. rewrite app_nil_r, members_app, members_cons, Eo. cbn [app].
    symmetry. apply (Permutation_middle (members l1) (le_seg e :: members l2) i). }
  assert (OS' : old_segs l' = base).
  { rewrite <- en_old0. unfold l', old_segs. destruct (nth_error_split _ _ Hk) as (l1 & l2 & El & Ek). rewrite El, <- Ek.
    rewrite firstn_app, firstn_all, Nat.sub_diag, skipn_app, skipn_all2 by lia. replace (S (length l1) - length l1) with 1 by lia.
    cbn [firstn skipn app]. rewrite app_nil_r, !flat_map_app. cbn [flat_map]. unfold old_of at 2 5. rewrite Eo, Een. reflexivity. }
  assert (ND' : NoDup (members l')).
  { eapply Permutation_NoDup; [symmetry; exact Pm|]. constructor; assumption. }
  assert (OK' : Forall (ent_ok y) l').
  { apply Forall_replace; [assumption|]. unfold ent_ok. cbn [e' le_changed le_old_idx le_seg le_old_seg le_enter le_exit].
    repeat (split; [first [assumption|reflexivity]|]). exact Hsp. }
  eapply safe_bind.
  - apply (scan_both_safe a eps cmp ccmp min_x max_x SP CO tr TR_flip);
      [eapply ins_scanok; try eassumption; apply live_of_ent; assumption|]. cbn [with_line sw_line]. lia.
  - intros s1 _ (evs & -> & HQ). cbn [with_int with_line sw_need sw_y] in *.
    destruct (add_need_spec (sw_need s) k false en_sorted0) as (need' & -> & S' & I'). cbn [rbind].
    apply safe_ok. split; cbn [with_need with_int with_line sw_y sw_line sw_int sw_need sw_horiz sw_changed]; try assumption.
    + rewrite filter_app. cbn [filter]. rewrite Si. rewrite Pm, en_mem0, app_assoc. apply Permutation_cons_append.
    + rewrite en_y0 in HQ. exact HQ.
    + intros k' x Hx Hx'. apply I'. unfold l' in Hx. apply nth_replace in Hx; [|exact Hlt].
      destruct Hx as [[-> ->]|[_ Hx]]; [left; reflexivity|]. right. eapply en_need0; eassumption.
    + rewrite Ll. apply Forall_forall. intros k' Hk'. apply I' in Hk'. rewrite Forall_forall in en_bound0. destruct Hk' as [->|Hk']; [exact Hlt|auto].
    + rewrite filter_app. cbn [filter]. rewrite Si. cbn. rewrite app_nil_r. assumption.
Qed.

Lemma insert_safe y base done s i k e : ENT y base done s -> registered i -> slanted i = true ->
  key (start_y i) = key y -> ~ In i (members (sw_line s)) -> k <= length (sw_line s) ->
  le_seg e = i -> le_exit e = false -> le_enter e = true -> le_changed e = false -> le_old_idx e = None -> le_old_seg e = None ->
  safe (do! s1 := insert_entry s k e in do! need := add_need (sw_need s1) k true in Ok (with_need s1 need)) (ENT y base (done ++ [i])).
Proof.
  intros H Ri Si Hi NI Hk E1 E2 E3 E4 E5 E6. destruct H.
  assert (Li : live y i). { split; [assumption|]. split; [assumption|]. apply (slanted_key _ SP _ Ri) in Si. lia. }
  unfold SweepModel.insert_entry. rewrite (line_insert_spec _ _ _ Hk). cbn [rbind].
  set (l' := firstn k (sw_line s) ++ e :: skipn k (sw_line s)).
  assert (Ll : length l' = S (length (sw_line s))).
  { unfold l'. rewrite app_length. cbn [length]. rewrite firstn_length_le, skipn_length by lia. lia. }
  assert (Pm : Permutation (members l') (i :: members (sw_line s))).
  { unfold l'. rewrite members_insert, E6, E1. reflexivity. }
  assert (ND' : NoDup (members l')).
  { eapply Permutation_NoDup; [symmetry; exact Pm|]. constructor; assumption. }
  assert (OS' : old_segs l' = base).
  { rewrite <- en_old0. unfold l', old_segs. rewrite <- (firstn_skipn k (sw_line s)) at 3. rewrite !flat_map_app. cbn [flat_map].
    unfold old_of at 2. rewrite E6, E3. reflexivity. }
  assert (OK' : Forall (ent_ok y) l').
  { apply Forall_insert; [assumption|]. unfold ent_ok. rewrite E1, E2, E3, E4, E5, E6. split; [reflexivity|]. split; [reflexivity|]. split; [assumption|]. split; [reflexivity|]. tauto. }
  eapply safe_bind.
  - apply (scan_both_safe a eps cmp ccmp min_x max_x SP CO tr TR_flip);
      [eapply ins_scanok; try eassumption; apply live_of_ent; assumption|]. cbn [with_line sw_line]. lia.
  - intros s1 _ (evs & -> & HQ). cbn [with_int with_line sw_need sw_y] in *.
    destruct (add_need_spec (sw_need s) k true en_sorted0) as (need' & -> & S' & I'). cbn [rbind].
    apply safe_ok. split; cbn [with_need with_int with_line sw_y sw_line sw_int sw_need sw_horiz sw_changed]; try assumption.
    + rewrite filter_app. cbn [filter]. rewrite Si. rewrite Pm, en_mem0, app_assoc. apply Permutation_cons_append.
    + rewrite en_y0 in HQ. exact HQ.
    + intros k' x Hx Hx'. apply I'. unfold l' in Hx. apply nth_insert in Hx; [|exact Hk].
      destruct Hx as [[Hlt Hx]|[[-> ->]|[Hlt Hx]]]; [right|left; reflexivity|right]; apply in_map_iff.
      * exists k'. split; [unfold bumped; rewrite (proj2 (Nat.leb_gt k k')) by lia; reflexivity|eapply en_need0; eassumption].
      * exists (k' - 1). split; [unfold bumped; rewrite (proj2 (Nat.leb_le k (k' - 1))) by lia; lia|eapply en_need0; eassumption].
    + rewrite Ll. apply Forall_forall. intros k' Hk'. apply I' in Hk'. rewrite Forall_forall in en_bound0. destruct Hk' as [->|Hk']; [lia|].
      apply in_map_iff in Hk'. destruct Hk' as (z & <- & Hz). specialize (en_bound0 _ Hz). unfold bumped. destruct (k <=? z); lia.
    + rewrite filter_app. cbn [filter]. rewrite Si. cbn. rewrite app_nil_r. assumption.
Qed.

Lemma handle_enter_safe y base done s i : ENT y base done s -> registered i -> key (start_y i) = key y ->
  ~ In i (members (sw_line s)) -> safe (handle_enter s i) (ENT y base (done ++ [i])).
Proof.
  intros H Ri Hi NI. pose proof (registered_lt _ SP _ Ri) as Hlt. unfold SweepModel.handle_enter.
  rewrite (seg_at_lt _ _ Hlt). cbn [rbind]. destruct (sp_down _ SP _ Hlt) as [_ ->]. cbn [orerr rbind].
  destruct (slanted i) eqn:Si; cbn [negb].
  2:{ destruct H. apply safe_ok. split; cbn [with_horiz sw_y sw_line sw_int sw_need sw_horiz sw_changed]; try assumption.
      - rewrite filter_app. cbn [filter]. rewrite Si, app_nil_r. assumption.
      - rewrite filter_app. cbn [filter]. rewrite Si. cbn. congruence. }
  pose proof (ENT_scanok _ _ _ _ H) as (N & [F ND] & Q). rewrite (en_y _ _ _ _ H) in *.
  assert (Li : live y i). { split; [assumption|]. split; [assumption|]. apply (slanted_key _ SP _ Ri) in Si. lia. }
  destruct (insertion_idx_live a cmp pp SP CO SO y i (sw_line s) N Li F) as (pos & -> & Hpos).
  { intros HI. apply NI, seg_in_members, HI. }
  cbn [rbind]. destruct (sp_links _ SP _ Ri) as (cp & ECP & Hcp). rewrite ECP. cbn [rbind].
  set (e := le_new eps min_x max_x i (seg_def a i)).
  set (e2 := mkLE (le_seg e) false true (le_lower e) (le_upper e) (le_changed e) (le_old_idx e) (le_old_seg e)).
  assert (INS : safe (do! s1 := insert_entry s pos e2 in do! need := add_need (sw_need s1) pos true in Ok (with_need s1 need)) (ENT y base (done ++ [i]))).
  { apply insert_safe; auto. }
  destruct cp as [p|]; [|exact INS]. destruct (Hcp p eq_refl) as [Hp Hpe]. rewrite (seg_at_lt _ _ Hp). cbn [rbind].
  change (py (seg_start (seg_def a p))) with (start_y p).
  destruct (flt (start_y p) y) eqn:Lp; [|exact INS].
  destruct (seg_nonnan _ SP _ Hp) as [Nsp Nep]. destruct (reg_nonnan _ SP _ Ri) as [Nsi Nei].
  assert (Lp' : flt (start_y p) (start_y i) = true) by (fk; zb; lia). specialize (Hpe Lp').
  rewrite Hpe. cbn [negb].
  assert (Ep : key (end_y p) = key y).
  { unfold point_eq in Hpe. apply andb_true_iff in Hpe. destruct Hpe as [Hy _] || idtac.
    assert (Hy' : feq (end_y p) (start_y i) = true) by (unfold SweepSpec.end_y, SweepSpec.start_y; tauto). fk. zb. lia. }
  assert (Sp : (key (start_y p) < key y)%Z) by (fk; zb; lia).
  assert (CONT : forall k q, nth_error (sw_line s) k = Some q -> le_seg q = p ->
            safe (handle_contour_continuation s i (seg_def a i) k) (ENT y base (done ++ [i]))).
  { intros k q Hq <-. eapply continuation_safe; eauto. }
  assert (G : forall k, k < length (sw_line s) -> exists q, line_seg (sw_line s) k = Ok (le_seg q) /\ nth_error (sw_line s) k = Some q).
  { intros k Hk. unfold line_seg, line_get. destruct (nth_error (sw_line s) k) as [q|] eqn:E; [|apply nth_error_None in E; lia]. exists q. auto. }
  destruct (pos <? length (sw_line s)) eqn:B1.
  - apply Nat.ltb_lt in B1. destruct (G _ B1) as (q & -> & Hq). cbn [rbind]. destruct (le_seg q =? p) eqn:B2.
    + apply Nat.eqb_eq in B2. cbn [rbind]. eapply CONT; eassumption.
    + destruct (0 <? pos) eqn:B3; [|exact INS]. apply Nat.ltb_lt in B3. destruct (G (pos - 1) ltac:(lia)) as (q' & -> & Hq').
      cbn [rbind]. destruct (le_seg q' =? p) eqn:B4; [|exact INS]. apply Nat.eqb_eq in B4. eapply CONT; eassumption.
  - cbn [rbind]. destruct (0 <? pos) eqn:B3; [|exact INS]. apply Nat.ltb_lt in B3. destruct (G (pos - 1) ltac:(lia)) as (q' & -> & Hq').
    cbn [rbind]. destruct (le_seg q' =? p) eqn:B4; [|exact INS]. apply Nat.eqb_eq in B4. eapply CONT; eassumption.
Qed.

Lemma enter_all_safe y base l : forall done s, ENT y base done s -> NoDup (map snd l) ->
  Forall (fun p => feq (fst p) y = true /\ registered (snd p) /\ key (start_y (snd p)) = key y /\ ~ In (snd p) base /\ ~ In (snd p) done) l ->
  safe (enter_all s l) (ENT y base (done ++ map snd l)).
Proof.
  induction l as [|[ey i] l IH]; intros done s H ND F; cbn [SweepModel.enter_all].
  - rewrite app_nil_r. exact H.
  - inversion F as [|? ? (F1 & F2 & F3 & F4 & F5) F']; subst. cbn [fst snd map] in *. inversion ND; subst.
    rewrite (en_y _ _ _ _ H), F1. cbn [negb]. eapply safe_bind.
    + apply handle_enter_safe; try eassumption. intros HI. eapply Permutation_in in HI; [|apply (en_mem _ _ _ _ H)].
      apply in_app_iff in HI. destruct HI as [HI|HI]; [auto|]. apply filter_In in HI. tauto.
    + intros s1 _ H'. eapply safe_impl; [eapply IH; [exact H'|assumption|]|].
      * apply Forall_forall. intros [ey' j] Hj. rewrite Forall_forall in F'. specialize (F' _ Hj). cbn [fst snd] in *.
        destruct F' as (G1 & G2 & G3 & G4 & G5). repeat (split; [assumption|]). rewrite in_app_iff. intros [HI|[->|[]]]; [auto|].
        apply H2. change j with (snd (ey', j)). apply in_map. exact Hj.
      * intros v _ Hv. rewrite <- app_assoc in Hv. exact Hv.
Qed.
End S.
