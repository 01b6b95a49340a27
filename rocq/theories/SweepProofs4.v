(** Proofs about the sweep, part 4: exiting segments and crossings. *)
From Coq Require Import List Bool ZArith Arith Lia Permutation Sorted.
From Verif Require Import F64 F64Arith TreeVecModel TreeVecSpec GeomModel SegmentsModel SegmentsSpec
  SegmentsProofs CurveOrderModel CurveOrderSpec CurveOrderProofs CurveOrderProofs2 CurveOrderProofs3
  SweepModel SweepSpec SweepProofs SweepProofs2 SweepProofs3.
Import ListNotations.

(** ** Selecting by index *)
Fixpoint pick {A} (f : nat -> bool) (k : nat) (l : list A) : list A :=
  match l with
  | [] => []
  | x :: l' => if f k then x :: pick f (S k) l' else pick f (S k) l'
  end.
Definition memb (js : list nat) (k : nat) : bool := existsb (Nat.eqb k) js.
Definition notb (js : list nat) (k : nat) : bool := negb (memb js k).
Lemma memb_in js k : memb js k = true <-> In k js.
Proof.
  unfold memb. rewrite existsb_exists. split.
  - intros (x & H & E). apply Nat.eqb_eq in E. subst. exact H.
  - intros H. exists k. split; [exact H|apply Nat.eqb_refl].
Qed.
Lemma memb_notin js k : memb js k = false <-> ~ In k js.
Proof. rewrite <- memb_in. destruct (memb js k); intuition congruence. Qed.

Lemma pick_app {A} f k (l1 l2 : list A) : pick f k (l1 ++ l2) = pick f k l1 ++ pick f (k + length l1) l2.
Proof.
  revert k. induction l1 as [|x l1 IH]; intros k; cbn [app pick length]; [now rewrite Nat.add_0_r|].
  rewrite IH. replace (S k + length l1) with (k + S (length l1)) by lia. destruct (f k); reflexivity.
Qed.
Lemma pick_ext {A} f g k (l : list A) : (forall i, k <= i < k + length l -> f i = g i) -> pick f k l = pick g k l.
Proof.
  revert k. induction l as [|x l IH]; intros k H; cbn [pick]; [reflexivity|]. cbn [length] in H.
  rewrite (H k) by lia. rewrite (IH (S k)) by (intros; apply H; lia). reflexivity.
Qed.
Lemma pick_true {A} f k (l : list A) : (forall i, k <= i < k + length l -> f i = true) -> pick f k l = l.
Proof.
  revert k. induction l as [|x l IH]; intros k H; cbn [pick]; [reflexivity|]. cbn [length] in H.
  rewrite (H k) by lia. f_equal. apply IH. intros; apply H; lia.
Qed.
Lemma pick_false {A} f k (l : list A) : (forall i, k <= i < k + length l -> f i = false) -> pick f k l = [].
Proof.
  revert k. induction l as [|x l IH]; intros k H; cbn [pick]; [reflexivity|]. cbn [length] in H.
  rewrite (H k) by lia. apply IH. intros; apply H; lia.
Qed.
Lemma pick_perm {A} f k (l : list A) : Permutation l (pick (fun i => negb (f i)) k l ++ pick f k l).
Proof.
  revert k. induction l as [|x l IH]; intros k; cbn [pick]; [constructor|]. destruct (f k); cbn [negb].
  - eapply perm_trans; [apply perm_skip, (IH (S k))|]. apply Permutation_middle.
  - cbn [app]. apply perm_skip, IH.
Qed.
Lemma pick_length {A} f k (l : list A) : length (pick f k l) = length (filter f (seq k (length l))).
Proof.
  revert k. induction l as [|x l IH]; intros k; cbn [pick length seq filter]; [reflexivity|]. destruct (f k); cbn [length]; rewrite IH; reflexivity.
Qed.
Lemma pick_memb_length {A} js k (l : list A) : NoDup js -> Forall (fun j => k <= j < k + length l) js ->
  length (pick (memb js) k l) = length js.
Proof.
  intros ND F. rewrite pick_length. apply Permutation_length, NoDup_Permutation; [apply NoDup_filter, seq_NoDup|exact ND|].
  intros x. rewrite filter_In, in_seq, memb_in. rewrite Forall_forall in F. split; [tauto|]. intros H. split; [|exact H]. specialize (F _ H). lia.
Qed.
Lemma pick_incl {A} f k (l : list A) : incl (pick f k l) l.
Proof.
  revert k. induction l as [|x l IH]; intros k; cbn [pick]; [intros ? []|]. destruct (f k); intros z Hz; [destruct Hz as [<-|Hz]|]; [left; reflexivity| |]; right; eapply IH; exact Hz.
Qed.

(** ** Maps with indices *)
Fixpoint mapi {A R} (f : nat -> A -> R) (k : nat) (l : list A) : list R :=
  match l with [] => [] | x :: l' => f k x :: mapi f (S k) l' end.
Lemma mapi_app {A R} (f : nat -> A -> R) k l1 l2 : mapi f k (l1 ++ l2) = mapi f k l1 ++ mapi f (k + length l1) l2.
Proof.
  revert k. induction l1 as [|x l1 IH]; intros k; cbn [app mapi length]; [now rewrite Nat.add_0_r|].
  rewrite IH. replace (S k + length l1) with (k + S (length l1)) by lia. reflexivity.
Qed.
Lemma mapi_length {A R} (f : nat -> A -> R) k l : length (mapi f k l) = length l.
Proof. revert k. induction l; intros k; cbn; auto. Qed.
Lemma mapi_nth {A R} (f : nat -> A -> R) k l n x : nth_error (mapi f k l) n = Some x <->
  exists e, nth_error l n = Some e /\ x = f (k + n) e.
Proof.
  revert k n. induction l as [|y l IH]; intros k [|n]; cbn [mapi nth_error].
  - split; [discriminate|intros (e & H & _); discriminate].
  - split; [discriminate|intros (e & H & _); discriminate].
  - rewrite Nat.add_0_r. split; [intros [= <-]; eauto|intros (e & [= <-] & ->); reflexivity].
  - rewrite IH. replace (S k + n) with (k + S n) by lia. reflexivity.
Qed.
Lemma mapi_ext {A R} (f g : nat -> A -> R) k l : (forall n e, nth_error l n = Some e -> f (k + n) e = g (k + n) e) -> mapi f k l = mapi g k l.
Proof.
  revert k. induction l as [|y l IH]; intros k H; cbn [mapi]; [reflexivity|]. f_equal.
  - specialize (H 0 y eq_refl). rewrite Nat.add_0_r in H. exact H.
  - apply IH. intros n e E. specialize (H (S n) e E). replace (k + S n) with (S k + n) in H by lia. exact H.
Qed.
Lemma mapi_mapi {A R T} (g : nat -> R -> T) (f : nat -> A -> R) k l : mapi g k (mapi f k l) = mapi (fun i x => g i (f i x)) k l.
Proof. revert k. induction l; intros k; cbn; f_equal; auto. Qed.
Lemma mapi_const {A R} (f : A -> R) k l : mapi (fun _ x => f x) k l = map f l.
Proof. revert k. induction l; intros k; cbn; f_equal; auto. Qed.
Lemma map_mapi {A R T} (g : R -> T) (f : nat -> A -> R) k l : map g (mapi f k l) = mapi (fun i x => g (f i x)) k l.
Proof. revert k. induction l; intros k; cbn; f_equal; auto. Qed.

Lemma map_range_mapi f x y l : map_range f x y l = mapi (fun i e => if (x <=? i) && (i <? y) then f i e else e) 0 l.
Proof.
  unfold map_range. generalize 0. induction l as [|e l IH]; intros k; cbn [length seq combine map mapi]; [reflexivity|]. f_equal. apply IH.
Qed.
Lemma map_range_split f A M B : map_range f (length A) (length A + length M) (A ++ M ++ B) = A ++ mapi f (length A) M ++ B.
Proof.
  rewrite map_range_mapi, !mapi_app. cbn [Nat.add]. f_equal; [|f_equal].
  - rewrite <- (map_id A) at 2. rewrite <- (mapi_const (fun x => x) 0 A). apply mapi_ext. intros n e H. cbv beta.
    assert (n < length A) by (apply nth_error_Some; congruence). rewrite (proj2 (Nat.leb_gt _ _)) by assumption. reflexivity.
  - apply mapi_ext. intros n e H. cbv beta. assert (n < length M) by (apply nth_error_Some; congruence).
    rewrite (proj2 (Nat.leb_le _ _)), (proj2 (Nat.ltb_lt _ _)) by lia. reflexivity.
  - rewrite <- (map_id B) at 2. rewrite <- (mapi_const (fun x => x) (length A + length M) B). apply mapi_ext. intros n e H. cbv beta.
    rewrite (proj2 (Nat.ltb_ge _ _)) by lia. rewrite andb_false_r. reflexivity.
Qed.

Definition unidx (e : lentry) : lentry :=
  mkLE (le_seg e) (le_exit e) (le_enter e) (le_lower e) (le_upper e) (le_changed e) None (le_old_seg e).
Lemma set_old_idx_unidx i e : unidx (set_old_idx i e) = unidx e.
Proof. unfold set_old_idx. destruct (le_old_idx e); reflexivity. Qed.
Lemma set_old_idx_origin i e : origin i (set_old_idx i e) = origin i e.
Proof. unfold set_old_idx, origin. destruct (le_old_idx e) eqn:E; [rewrite E|]; reflexivity. Qed.
Lemma set_old_idx_some i e : exists k, le_old_idx (set_old_idx i e) = Some k /\ k = origin i e.
Proof. unfold set_old_idx, origin. destruct (le_old_idx e) eqn:E; [rewrite E|]; cbn; eauto. Qed.
Lemma unidx_seg e : le_seg (unidx e) = le_seg e.
Proof. reflexivity. Qed.
Lemma members_unidx l : members (map unidx l) = members l.
Proof. unfold members. rewrite flat_map_concat_map, map_map, <- flat_map_concat_map. reflexivity. Qed.

Lemma nth_ext_error {A} (l1 l2 : list A) : (forall n, nth_error l1 n = nth_error l2 n) -> l1 = l2.
Proof.
  revert l2. induction l1 as [|x l1 IH]; intros [|y l2] H; [reflexivity|specialize (H 0); discriminate|specialize (H 0); discriminate|].
  f_equal; [specialize (H 0); injection H; auto|]. apply IH. intros n. apply (H (S n)).
Qed.

(** A segment's entry, whatever the flags. *)
Lemma members_perm l1 l2 : Permutation l1 l2 -> Permutation (members l1) (members l2).
Proof.
  unfold members. intros P. induction P; cbn [flat_map].
  - constructor.
  - apply Permutation_app_head. assumption.
  - rewrite !app_assoc. apply Permutation_app_tail, Permutation_app_comm.
  - eapply perm_trans; eassumption.
Qed.

Section S.
Variable a : arena.
Variable eps : f64.
Variables cmp ccmp : nat -> nat -> curve_order.
Variables min_x max_x : segment -> f64.

Notation scan_right := (scan_right a eps cmp ccmp min_x max_x).
Notation scan_left := (scan_left a eps cmp ccmp min_x max_x).
Notation scan_both := (scan_both a eps cmp ccmp min_x max_x).
Notation scan_for_removal := (scan_for_removal a eps cmp ccmp min_x max_x).
Notation insert_entry := (insert_entry a eps cmp ccmp min_x max_x).
Notation remove_each := (remove_each a eps cmp ccmp min_x max_x).
Notation insert_each := (insert_each a eps cmp ccmp min_x max_x).
Notation handle_exit := (handle_exit a eps cmp ccmp min_x max_x).
Notation handle_intersection := (handle_intersection a eps cmp ccmp min_x max_x).
Notation exit_all := (exit_all a eps cmp ccmp min_x max_x).
Notation intersect_all := (intersect_all a eps cmp ccmp min_x max_x).
Notation start_y := (start_y a).
Notation end_y := (end_y a).
Notation slanted := (slanted a).
Notation registered := (SweepSpec.registered a).

Hypothesis SP : sweepable a.
Hypothesis CO : comparer_ok a cmp.
Variable tr : Prop.
Hypothesis TR_flip : tr -> forall i j, i <> j -> cmp j i = co_flip (cmp i j).
Notation live := (SweepSpec.live a).
Hypothesis TR_trans : tr -> forall y i j k, nan y = false -> live y i -> live y j -> live y k ->
  eorder (cmp i j) y = Some Left -> eorder (cmp j k) y = Some Left -> eorder (cmp i k) y = Some Left.

Notation evP := (evP a cmp tr).
Notation safe := (safe tr).
Notation scanok := (scanok a cmp tr).
Notation onlyq := (onlyq a cmp tr).
Notation ent_ok := (ent_ok a).
Notation liveline := (liveline a).

(** ** Exits *)
Definition xm (done : list nat) (e : lentry) : lentry := if memb done (le_seg e) then with_exit e else e.
Lemma xm_seg done e : le_seg (xm done e) = le_seg e.
Proof. unfold xm. destruct (memb _ _); reflexivity. Qed.
Lemma xm_old done e : le_old_seg (xm done e) = le_old_seg e.
Proof. unfold xm. destruct (memb _ _); reflexivity. Qed.
Lemma xm_members done l : members (map (xm done) l) = members l.
Proof.
  unfold members. rewrite flat_map_concat_map, map_map, <- flat_map_concat_map. apply flat_map_ext. intros e. rewrite xm_seg, xm_old. reflexivity.
Qed.

Record EXT (y : f64) (L1 : list lentry) (h : list nat) (done : list nat) (s : sweeper) : Prop := {
  ex_y : sw_y s = y;
  ex_nan : nan y = false;
  ex_line : sw_line s = map (xm done) L1;
  ex_q : qok (evP y) (sw_int s);
  ex_need : forall k e, nth_error (sw_line s) k = Some e -> le_enter e || le_exit e = true -> In k (sw_need s);
  ex_bound : Forall (fun k => k < length L1) (sw_need s);
  ex_hor : sw_horiz s = h;
  ex_changed : sw_changed s = [] }.

Lemma handle_exit_safe y L1 h done s i : NoDup (members L1) -> Forall (fun e => live y (le_seg e)) L1 ->
  EXT y L1 h done s -> In i (members L1) -> safe (handle_exit s i) (EXT y L1 h (done ++ [i])).
Proof.
  intros ND F H HI. destruct H.
  assert (HI' : In i (members (sw_line s))) by (rewrite ex_line0, xm_members; exact HI).
  unfold SweepModel.handle_exit. destruct (position_of_in _ _ HI') as (p & e & -> & Hp & He). cbn [orerr rbind].
  unfold line_get. rewrite Hp. cbn [orerr rbind].
  assert (NDs : NoDup (members (sw_line s))) by (rewrite ex_line0, xm_members; exact ND).
  assert (Fs : Forall (fun e => live y (le_seg e)) (sw_line s)).
  { rewrite ex_line0. apply Forall_map. eapply Forall_impl; [|exact F]. cbn. intros z Hz. rewrite xm_seg. exact Hz. }
  assert (Hlt : p < length (sw_line s)) by (apply nth_error_Some; congruence).
  assert (Ll : length (sw_line s) = length L1) by (rewrite ex_line0; apply map_length).
  destruct (match le_old_seg e with Some o => o =? i | None => false end) eqn:Eo.
  - (* the slot was taken over by the contour successor *)
    assert (NS : forall z, In z L1 -> le_seg z <> i).
    { intros z Hz Ez. destruct (le_old_seg e) as [o|] eqn:Eo'; [|discriminate]. apply Nat.eqb_eq in Eo. subst o.
      apply In_nth_error in Hz. destruct Hz as [q Hq].
      assert (Hq' : nth_error (sw_line s) q = Some (xm done z)) by (rewrite ex_line0, nth_error_map, Hq; reflexivity).
      assert (q = p) as ->.
      { eapply (members_unique _ NDs); [exact Hq'|exact Hp| |exact He]. unfold has_seg. rewrite xm_seg, Ez, Nat.eqb_refl. reflexivity. }
      rewrite Hp in Hq'. injection Hq' as E. rewrite E in Eo'. rewrite xm_old in Eo'.
      (* one entry would hold [i] twice *)
      destruct (nth_error_split _ _ Hq) as (l1 & l2 & El & _). rewrite El, members_app, members_cons, Eo' in ND.
      apply NoDup_app_r in ND. cbn [app] in ND. inversion ND; subst. apply H1. left. reflexivity. }
    apply safe_ok. split; try assumption.
    rewrite ex_line0. apply map_ext_in. intros z Hz. unfold xm, memb. rewrite existsb_app. cbn [existsb].
    rewrite (proj2 (Nat.eqb_neq (le_seg z) i)) by (apply NS, Hz). rewrite !orb_false_r. reflexivity.
  - assert (Es : le_seg e = i).
    { unfold has_seg in He. rewrite Eo, orb_false_r in He. apply Nat.eqb_eq, He. }
    rewrite (line_upd_spec _ _ _ _ Hp). cbn [rbind]. set (l' := firstn p (sw_line s) ++ with_exit e :: skipn (S p) (sw_line s)).
    assert (El' : l' = map (xm (done ++ [i])) L1).
    { apply nth_ext_error. intros q. destruct (nth_error l' q) as [z|] eqn:Eq.
      - apply (nth_replace _ _ _ _ _ Hlt) in Eq. rewrite nth_error_map. symmetry. destruct Eq as [[-> ->]|[Nq Eq]].
        + rewrite ex_line0, nth_error_map in Hp. destruct (nth_error L1 p) as [e0|]; [|discriminate]. cbn in Hp. injection Hp as <-. cbn. f_equal.
          rewrite xm_seg in Es. unfold xm, memb. rewrite existsb_app. cbn [existsb]. rewrite Es, Nat.eqb_refl, orb_true_r.
          destruct (existsb _ done); reflexivity.
        + pose proof Eq as Eq0. rewrite ex_line0, nth_error_map in Eq. destruct (nth_error L1 q) as [e0|]; [|discriminate]. cbn in Eq. injection Eq as <-. cbn. f_equal.
          assert (le_seg e0 <> i).
          { intros Ei. apply Nq. eapply (members_unique _ NDs); [exact Eq0|exact Hp| |exact He]. unfold has_seg. rewrite xm_seg, Ei, Nat.eqb_refl. reflexivity. }
          unfold xm, memb. rewrite existsb_app. cbn [existsb]. rewrite (proj2 (Nat.eqb_neq (le_seg e0) i)) by assumption. rewrite !orb_false_r. reflexivity.
      - symmetry. apply nth_error_None. apply nth_error_None in Eq. rewrite map_length. unfold l' in Eq. rewrite app_length in Eq. cbn [length] in Eq.
        rewrite firstn_length_le, skipn_length in Eq by lia. lia. }
    assert (Fl' : Forall (fun e => live y (le_seg e)) l').
    { rewrite El'. apply Forall_map. eapply Forall_impl; [|exact F]. cbn. intros z Hz. rewrite xm_seg. exact Hz. }
    assert (NDl' : NoDup (members l')) by (rewrite El', xm_members; exact ND).
    assert (Ll' : length l' = length L1) by (rewrite El'; apply map_length).
    eapply safe_bind.
    + apply (scan_removal_safe a eps cmp ccmp min_x max_x SP CO tr TR_flip); [|cbn [with_line sw_line]; lia].
      eapply ins_scanok; eassumption.
    + intros s1 _ (evs & -> & HQ). apply safe_ok. split; cbn [with_need with_int with_line sw_y sw_line sw_int sw_need sw_horiz sw_changed]; try assumption.
      * cbn in HQ. rewrite ex_y0 in HQ. exact HQ.
      * intros k z Hz Fz. apply in_or_app. apply (nth_replace _ _ _ _ _ Hlt) in Hz. destruct Hz as [[-> ->]|[_ Hz]]; [right; left; reflexivity|].
        left. eapply ex_need0; eassumption.
      * apply Forall_app. split; [assumption|]. repeat constructor. lia.
Qed.

Lemma exit_all_safe y L1 h l : NoDup (members L1) -> Forall (fun e => live y (le_seg e)) L1 ->
  forall done s, EXT y L1 h done s -> Forall (fun p => feq (fst p) y = true /\ In (snd p) (members L1)) l ->
  safe (exit_all s l) (EXT y L1 h (done ++ map snd l)).
Proof.
  intros ND FL. induction l as [|[ey i] l IH]; intros done s H F; cbn [SweepModel.exit_all].
  - rewrite app_nil_r. exact H.
  - inversion F as [|? ? [F1 F2] F']; subst. cbn [fst snd map] in *. rewrite (ex_y _ _ _ _ _ H), F1. cbn [negb]. eapply safe_bind.
    + apply handle_exit_safe; eassumption.
    + intros s1 _ H'. eapply safe_impl; [eapply IH; [exact H'|assumption]|]. intros v _ Hv. rewrite <- app_assoc in Hv. exact Hv.
Qed.

(** ** Crossings *)
Definition int_ok (y : f64) (e : lentry) : Prop :=
  le_changed e = false /\ live y (le_seg e) /\
  match le_old_seg e with
  | Some p => le_enter e = true /\ le_exit e = true /\ key (start_y (le_seg e)) = key y /\
              live y p /\ (key (start_y p) < key y)%Z /\ key (end_y p) = key y /\ sweep_prev a (le_seg e) = Ok (Some p)
  | None => (le_exit e = true <-> key (end_y (le_seg e)) = key y) /\ (le_enter e = true <-> key (start_y (le_seg e)) = key y)
  end.
Lemma int_ok_unidx y e f : unidx e = unidx f -> int_ok y e -> int_ok y f.
Proof.
  unfold unidx, int_ok. intros [= E1 E2 E3 E4 E5 E6 E7]. rewrite E1, E2, E3, E6, E7. auto.
Qed.

(** [j] lies between [k] and [o]. *)
Definition between (k o j : nat) : Prop := k <= j <= o \/ o <= j <= k.

Record INT (y : f64) (L0 : list lentry) (h : list nat) (s : sweeper) : Prop := {
  in_y : sw_y s = y;
  in_nan : nan y = false;
  in_clean : Forall (fun e => le_old_idx e = None) L0;
  in_ok : Forall (int_ok y) (sw_line s);
  in_nodup : NoDup (members (sw_line s));
  in_len : length (sw_line s) = length L0;
  in_orig : forall k e, nth_error (sw_line s) k = Some e -> nth_error L0 (origin k e) = Some (unidx e);
  in_perm : Permutation (mapi origin 0 (sw_line s)) (seq 0 (length L0));
  in_live : forall i, live y i -> In i (members (sw_line s));
  in_q : qok (evP y) (sw_int s);
  in_need : forall k e, nth_error (sw_line s) k = Some e -> le_enter e || le_exit e = true -> In k (sw_need s);
  in_path : forall k e j, nth_error (sw_line s) k = Some e -> le_old_idx e <> None -> between k (origin k e) j -> In j (sw_need s);
  in_bound : Forall (fun k => k < length L0) (sw_need s);
  in_hor : sw_horiz s = h;
  in_changed : sw_changed s = [] }.

Lemma INT_scanok y L0 h s : INT y L0 h s -> scanok s.
Proof.
  intros H. destruct H. subst y. split; [assumption|]. split; [|assumption]. split; [|apply members_nodup; assumption].
  eapply Forall_impl; [|eassumption]. intros e (_ & L & _). exact L.
Qed.

(** Rearranging a range of entries, all of which get their old index set. *)
Lemma INT_rearrange y L0 h s A M B M2 need' evs : INT y L0 h s -> sw_line s = A ++ M ++ B ->
  Permutation (mapi set_old_idx (length A) M) M2 -> qok (evP y) evs ->
  (forall k, In k need' <-> In k (sw_need s) \/ length A <= k < length A + length M) ->
  INT y L0 h (mkSW (sw_y s) (A ++ M2 ++ B) (sw_next_enter s) (sw_next_exit s) evs (sw_horiz s) need' (sw_changed s)).
Proof.
  intros H El P HQ HN. destruct H. rewrite El in *.
  set (M1 := mapi set_old_idx (length A) M) in *.
  assert (LM1 : length M1 = length M) by apply mapi_length.
  assert (LM2 : length M2 = length M) by (rewrite <- LM1; symmetry; apply Permutation_length, P).
  assert (U1 : map unidx M1 = map unidx M).
  { unfold M1. rewrite map_mapi. rewrite <- (mapi_const unidx (length A) M). apply mapi_ext. intros. apply set_old_idx_unidx. }
  assert (UM : Permutation (map unidx M2) (map unidx M)) by (rewrite <- U1; symmetry; apply Permutation_map, P).
  assert (PM : Permutation (members (A ++ M2 ++ B)) (members (A ++ M ++ B))).
  { rewrite !members_app. apply Permutation_app_head, Permutation_app_tail. rewrite <- (members_unidx M2), <- (members_unidx M). apply members_perm, UM. }
  (* every element of M2 comes from an index of the range *)
  assert (SRC : forall n e2, nth_error M2 n = Some e2 -> exists m e, m < length M /\ nth_error (A ++ M ++ B) (length A + m) = Some e /\
      e2 = set_old_idx (length A + m) e).
  { intros n e2 H2. assert (In e2 M1) by (eapply Permutation_in; [symmetry; exact P|eapply nth_error_In; exact H2]).
    apply In_nth_error in H. destruct H as [m Hm]. unfold M1 in Hm. apply mapi_nth in Hm. destruct Hm as (e & He & ->).
    exists m, e. assert (m < length M) by (apply nth_error_Some; congruence). split; [assumption|]. split; [|reflexivity].
    rewrite nth_error_app2 by lia. replace (length A + m - length A) with m by lia. rewrite nth_error_app1 by lia. exact He. }
  assert (CASES : forall k e, nth_error (A ++ M2 ++ B) k = Some e ->
     (length A <= k < length A + length M /\ nth_error M2 (k - length A) = Some e) \/
     (~ (length A <= k < length A + length M) /\ nth_error (A ++ M ++ B) k = Some e)).
  { intros k e Hk. destruct (Nat.lt_ge_cases k (length A)).
    - right. split; [lia|]. rewrite nth_error_app1 in Hk |- * by lia. exact Hk.
    - rewrite nth_error_app2 in Hk by lia. destruct (Nat.lt_ge_cases (k - length A) (length M)).
      + left. split; [lia|]. rewrite nth_error_app1 in Hk by lia. exact Hk.
      + right. split; [lia|]. rewrite nth_error_app2 in Hk by lia. rewrite nth_error_app2 by lia. rewrite nth_error_app2 by lia. rewrite <- LM2. exact Hk. }
  assert (OFS : forall k k' m e, origin k (set_old_idx m e) = origin k' (set_old_idx m e)).
  { intros. destruct (set_old_idx_some m e) as (z & Hz & _). unfold origin. rewrite Hz. reflexivity. }
  split; cbn [sw_y sw_line sw_int sw_horiz sw_need sw_changed]; try assumption.
  - rewrite !Forall_app in *. destruct in_ok0 as (F1 & F2 & F3). split; [assumption|]. split; [|assumption].
    apply Forall_forall. intros e2 He2. apply In_nth_error in He2. destruct He2 as [n Hn]. destruct (SRC _ _ Hn) as (m & e & Hm & He & ->).
    rewrite nth_error_app2 in He by lia. replace (length A + m - length A) with m in He by lia. rewrite nth_error_app1 in He by lia.
    eapply int_ok_unidx; [symmetry; apply set_old_idx_unidx|]. rewrite Forall_forall in F2. apply F2. eapply nth_error_In; exact He.
  - eapply Permutation_NoDup; [symmetry; exact PM|assumption].
  - rewrite !app_length in *. lia.
  - intros k e2 Hk. destruct (CASES _ _ Hk) as [[Hr Hn]|[Hr Hn]]; [|auto].
    destruct (SRC _ _ Hn) as (m & e & Hm & He & ->). rewrite set_old_idx_unidx.
    rewrite (OFS k (length A + m)), set_old_idx_origin. auto.
  - rewrite <- in_perm0. rewrite !mapi_app. apply Permutation_app_head, Permutation_app; [|rewrite LM2; reflexivity].
    cbn [Nat.add]. set (g := fun e => match le_old_idx e with Some k => k | None => 0 end).
    assert (E2 : mapi origin (length A) M2 = map g M2).
    { rewrite <- (mapi_const g (length A)). apply mapi_ext. intros n e Hn. destruct (SRC _ _ Hn) as (m & e0 & _ & _ & ->).
      destruct (set_old_idx_some (length A + m) e0) as (z & Hz & _). unfold origin, g. rewrite Hz. reflexivity. }
    assert (E1 : mapi origin (length A) M = map g M1).
    { unfold M1. rewrite map_mapi. apply mapi_ext. intros n e Hn. destruct (set_old_idx_some (length A + n) e) as (z & Hz & Hz').
      unfold g. rewrite Hz. symmetry. exact Hz'. }
    rewrite E1, E2. symmetry. apply Permutation_map, P.
  - intros i Li. eapply Permutation_in; [symmetry; exact PM|]. auto.
  - intros k e Hk Fk. apply HN. destruct (CASES _ _ Hk) as [[Hr Hn]|[Hr Hn]]; [right; exact Hr|left; eauto].
  - intros k e2 j Hk Ok Bj. apply HN. destruct (CASES _ _ Hk) as [[Hr Hn]|[Hr Hn]]; [|left; eauto].
    destruct (SRC _ _ Hn) as (m & e & Hm & He & ->). rewrite (OFS k (length A + m)), set_old_idx_origin in Bj.
    destruct (le_old_idx e) as [o|] eqn:Eo.
    + assert (Eor : origin (length A + m) e = o) by (unfold origin; rewrite Eo; reflexivity). rewrite Eor in Bj.
      destruct (Nat.lt_ge_cases j (length A)), (Nat.lt_ge_cases j (length A + length M)); try (right; lia).
      * left. eapply in_path0; [exact He|congruence|]. rewrite Eor. unfold between in *. lia.
      * left. eapply in_path0; [exact He|congruence|]. rewrite Eor. unfold between in *. lia.
    + assert (Eor : origin (length A + m) e = length A + m) by (unfold origin; rewrite Eo; reflexivity). rewrite Eor in Bj.
      right. unfold between in Bj. lia.
  - apply Forall_forall. intros k Hk. apply HN in Hk. rewrite Forall_forall in in_bound0. destruct Hk as [Hk|Hk]; [auto|].
    rewrite !app_length in in_len0. lia.
Qed.

(** ** Removing and reinserting *)
Lemma liveline_sub y l l' : liveline y l -> (exists r, Permutation l (l' ++ r)) -> liveline y l'.
Proof.
  intros [F ND] [r P]. split.
  - eapply (Permutation_Forall P) in F. rewrite Forall_app in F. apply F.
  - eapply (Permutation_NoDup (Permutation_map le_seg P)) in ND. rewrite map_app in ND. eapply NoDup_app_l; exact ND.
Qed.

Lemma remove_each_safe js : forall s, scanok s -> StronglySorted gt js -> Forall (fun j => j < length (sw_line s)) js ->
  safe (remove_each s js) (fun '(rm, s') => rm = rev (pick (memb js) 0 (sw_line s)) /\
     exists evs, s' = with_int (with_line s (pick (notb js) 0 (sw_line s))) evs /\ qok (evP (sw_y s)) evs).
Proof.
  induction js as [|j js IH]; intros s HS SS F; cbn [SweepModel.remove_each].
  - apply safe_ok. rewrite pick_false by reflexivity. split; [reflexivity|]. exists (sw_int s).
    rewrite pick_true by reflexivity. split; [destruct s; reflexivity|apply HS].
  - inversion SS; subst. inversion F as [|? ? Hj F']; subst.
    destruct (nth_error (sw_line s) j) as [e|] eqn:E; [|apply nth_error_None in E; lia].
    rewrite (line_remove_spec _ _ _ E). cbn [rbind]. set (l1 := firstn j (sw_line s) ++ skipn (S j) (sw_line s)).
    destruct (nth_error_split _ _ E) as (p1 & p2 & El & Ej).
    assert (El1 : l1 = p1 ++ p2).
    { unfold l1. rewrite El, <- Ej. rewrite firstn_app, firstn_all, Nat.sub_diag, skipn_app, skipn_all2 by lia.
      replace (S (length p1) - length p1) with 1 by lia. cbn. rewrite app_nil_r. reflexivity. }
    destruct HS as (N & LL & HQ).
    assert (LL1 : liveline (sw_y s) l1).
    { eapply liveline_sub; [exact LL|]. exists [e]. rewrite El, El1. rewrite <- app_assoc. apply Permutation_app_head. apply Permutation_cons_append. }
    assert (HS1 : scanok (with_line s l1)) by (split; [exact N|]; split; [exact LL1|exact HQ]).
    eapply safe_bind; [apply (scan_removal_safe a eps cmp ccmp min_x max_x SP CO tr TR_flip); [exact HS1|]|].
    { cbn [with_line sw_line]. rewrite El1, app_length. lia. }
    intros s1 _ O. pose proof (onlyq_scanok _ _ _ _ _ HS1 O) as HS2. destruct O as (evs & -> & HQ1).
    eapply safe_bind; [apply IH; [exact HS2|assumption|]|].
    { cbn [with_int with_line sw_line]. rewrite El1, app_length. apply Forall_forall. intros z Hz. rewrite Forall_forall in H2. specialize (H2 _ Hz). lia. }
    cbn [with_int with_line sw_line sw_y]. intros [rm s2] _ [Erm (evs2 & Es2 & HQ2)]. apply safe_ok.
    assert (HB : forall z, In z js -> z < j) by (intros z Hz; rewrite Forall_forall in H2; specialize (H2 _ Hz); lia).
    assert (Me : forall i, i < j -> memb (j :: js) i = memb js i).
    { intros i Hi. unfold memb. cbn [existsb]. rewrite (proj2 (Nat.eqb_neq i j)) by lia. reflexivity. }
    assert (Mj : memb (j :: js) j = true) by (apply memb_in; left; reflexivity).
    assert (Mg : forall i, j < i -> memb (j :: js) i = false) by (intros i Hi; apply memb_notin; intros [->|HI]; [lia|apply HB in HI; lia]).
    assert (Mg' : forall i, j <= i -> memb js i = false) by (intros i Hi; apply memb_notin; intros HI; apply HB in HI; lia).
    assert (P1 : pick (memb (j :: js)) 0 (sw_line s) = pick (memb js) 0 p1 ++ [e]).
    { rewrite El, pick_app. cbn [pick Nat.add]. rewrite Ej, Mj. rewrite (pick_false _ (S j)) by (intros; apply Mg; lia).
      f_equal. apply pick_ext. intros; apply Me; lia. }
    assert (P2 : pick (memb js) 0 l1 = pick (memb js) 0 p1).
    { rewrite El1, pick_app. rewrite (pick_false _ (0 + length p1)) by (intros; apply Mg'; lia). apply app_nil_r. }
    assert (P3 : pick (notb (j :: js)) 0 (sw_line s) = pick (notb js) 0 l1).
    { rewrite El, El1, !pick_app. cbn [pick Nat.add]. rewrite Ej. unfold notb at 2. rewrite Mj. cbn [negb]. f_equal.
      - apply pick_ext. intros i Hi. unfold notb. rewrite Me by lia. reflexivity.
      - rewrite !pick_true; [reflexivity| |]; intros i Hi; unfold notb; [rewrite Mg' by lia|rewrite Mg by lia]; reflexivity. }
    split.
    + rewrite P1, rev_app_distr. cbn. f_equal. rewrite Erm, P2. reflexivity.
    + exists evs2. rewrite P3. split; [exact Es2|exact HQ2].
Qed.

Lemma insert_each_safe es : forall s p, nan (sw_y s) = false -> liveline (sw_y s) (sw_line s ++ es) -> qok (evP (sw_y s)) (sw_int s) ->
  p <= length (sw_line s) ->
  safe (insert_each s p es) (fun s' => exists evs,
     s' = with_int (with_line s (firstn p (sw_line s) ++ rev es ++ skipn p (sw_line s))) evs /\ qok (evP (sw_y s)) evs).
Proof.
  induction es as [|e es IH]; intros s p N LL HQ Hp; cbn [SweepModel.insert_each].
  - apply safe_ok. exists (sw_int s). cbn [rev app]. rewrite firstn_skipn. split; [destruct s; reflexivity|exact HQ].
  - unfold SweepModel.insert_entry. rewrite (line_insert_spec _ _ _ Hp). cbn [rbind].
    set (l1 := firstn p (sw_line s) ++ e :: skipn p (sw_line s)).
    assert (P1 : Permutation (sw_line s ++ e :: es) (l1 ++ es)).
    { unfold l1. rewrite <- app_assoc. cbn [app]. eapply perm_trans; [symmetry; apply Permutation_middle|].
      rewrite <- Permutation_middle. apply perm_skip. rewrite app_assoc, firstn_skipn. reflexivity. }
    assert (LL1 : liveline (sw_y s) (l1 ++ es)) by (eapply liveline_sub; [exact LL|]; exists []; rewrite app_nil_r; exact P1).
    assert (Ll1 : length l1 = S (length (sw_line s))).
    { unfold l1. rewrite app_length. cbn [length]. rewrite firstn_length_le, skipn_length by lia. lia. }
    assert (HS1 : scanok (with_line s l1)).
    { split; [exact N|]. split; [|exact HQ]. eapply liveline_sub; [exact LL1|]. exists es. reflexivity. }
    eapply safe_bind; [apply (scan_both_safe a eps cmp ccmp min_x max_x SP CO tr TR_flip); [exact HS1|cbn [with_line sw_line]; lia]|].
    intros s1 _ (evs & -> & HQ1). cbn [with_line sw_y] in HQ1.
    eapply safe_impl; [apply IH|]; cbn [with_int with_line sw_line sw_y sw_int]; try assumption; [lia|].
    intros v _ (evs2 & -> & HQ2). exists evs2. split; [|exact HQ2].
    assert (Lf : length (firstn p (sw_line s)) = p) by (apply firstn_length_le; lia).
    assert (F1 : firstn p l1 = firstn p (sw_line s)).
    { unfold l1. rewrite firstn_app, Lf, Nat.sub_diag. cbn [firstn]. rewrite app_nil_r. rewrite firstn_firstn, Nat.min_id. reflexivity. }
    assert (F2 : skipn p l1 = e :: skipn p (sw_line s)).
    { unfold l1. rewrite skipn_app, Lf, Nat.sub_diag. rewrite skipn_all2 by lia. reflexivity. }
    unfold with_int, with_line. cbn [sw_y sw_line sw_next_enter sw_next_exit sw_int sw_horiz sw_need sw_changed].
    rewrite F1, F2. cbn [rev]. rewrite <- !app_assoc. reflexivity.
Qed.

(** ** Which entries are pushed along *)
Lemma eorder_key c y y' : table_wf c -> nan y = false -> nan y' = false -> key y = key y' -> eorder c y = eorder c y'.
Proof.
  intros W N N' K. unfold eorder, co_entry_at. f_equal.
  assert (HN : forall x, In x (co_iter c) -> nan (snd (fst x)) = false).
  { intros [[s e] o] Hx. apply In_nth_error in Hx. destruct Hx as [i Hi]. apply iter_interval in Hi. apply (wf_iter_nonnan _ _ _ _ _ W Hi). }
  induction (co_iter c) as [|[[s e] o] l IH]; [reflexivity|]. cbn [find].
  assert (nan e = false) by (apply (HN (s, e, o)); left; reflexivity).
  replace (fgt e y') with (fgt e y) by (fk; rewrite K; reflexivity). destruct (fgt e y); [reflexivity|]. apply IH. intros x Hx. apply HN. right. exact Hx.
Qed.

Lemma entry_at_live y i j : nan y = false -> live y i -> live y j -> i <> j ->
  safe (entry_at (cmp i j) y) (fun '(s, e, o) => (key y < key e)%Z /\ nan e = false /\
     (key e <= key (end_y i))%Z /\ (key e <= key (end_y j))%Z /\ eorder (cmp i j) y = Some o) \/
  (entry_at (cmp i j) y = Err EEntryAt /\ ((key (end_y i) <= key y)%Z \/ (key (end_y j) <= key y)%Z)).
Proof.
  intros N Li Lj D. pose proof (live_table _ SP _ _ _ _ CO Li Lj D) as T.
  destruct (table_end_key _ SP i j _ (proj1 Li) (proj1 Lj) T) as [K Ne]. destruct T as (W & _).
  unfold entry_at, eorder. destruct (co_entry_at (cmp i j) y) as [[[s e] o]|] eqn:E.
  - left. cbn. unfold co_entry_at in E. pose proof (find_some _ _ E) as [HI G].
    apply In_nth_error in HI. destruct HI as [k Hk]. apply iter_interval in Hk. destruct (wf_iter_nonnan _ _ _ _ _ W Hk) as [Ns Nee].
    pose proof (interval_end_le _ _ _ _ _ W Hk). fk. zb. repeat split; auto; lia.
  - right. split; [reflexivity|]. apply (entry_at_none _ _ W N) in E. fk. zb. lia.
Qed.

Lemma pushed_along_safe y L R rest : nan y = false -> live y L -> live y R -> L <> R ->
  (tr -> (key y < key (end_y L))%Z /\ (key y < key (end_y R))%Z /\ eorder (cmp L R) y <> Some Left) ->
  Forall (int_ok y) rest -> ~ In L (map le_seg rest) -> ~ In R (map le_seg rest) -> forall j,
  safe (pushed_along cmp y L R rest j) (fun r => match r with
    | inl h => ~ tr /\ (key y < key h)%Z /\ nan h = false /\ (key h <= key (end_y L))%Z /\ (key h <= key (end_y R))%Z
    | inr js => StronglySorted lt js /\ Forall (fun k => j <= k < j + length rest) js
    end).
Proof.
  intros N LL LR D HT. induction rest as [|e rest IH]; intros F NL NR j; cbn [pushed_along].
  - apply safe_ok. split; constructor.
  - inversion F as [|? ? (E1 & E2 & E3) F']; subst. cbn [map In] in NL, NR.
    specialize (IH F' ltac:(tauto) ltac:(tauto) (S j)).
    assert (IH' : safe (pushed_along cmp y L R rest (S j)) (fun r => match r with
      | inl h => ~ tr /\ (key y < key h)%Z /\ nan h = false /\ (key h <= key (end_y L))%Z /\ (key h <= key (end_y R))%Z
      | inr js => StronglySorted lt js /\ Forall (fun k => j <= k < j + length (e :: rest)) js end)).
    { eapply safe_impl; [exact IH|]. cbn [length]. intros [h|js] _ H; [exact H|]. split; [apply H|]. eapply Forall_impl; [|apply H]. cbn. intros; lia. }
    destruct (really_exits e) eqn:RE; [exact IH'|].
    assert (Ee : (key y < key (end_y (le_seg e)))%Z).
    { unfold really_exits in RE. destruct E2 as (R2 & S2 & L2). destruct (le_old_seg e) as [p|].
      - destruct E3 as (_ & _ & E3 & _). apply (slanted_key _ SP _ R2) in S2. lia.
      - rewrite andb_true_r in RE. destruct E3 as [[_ E3] _]. destruct (Z.eq_dec (key (end_y (le_seg e))) (key y)) as [Q|]; [|lia].
        rewrite (E3 Q) in RE. discriminate. }
    assert (D1 : L <> le_seg e) by (intros Q; apply NL; left; congruence).
    assert (D2 : le_seg e <> R) by (intros Q; apply NR; left; congruence).
    destruct (entry_at_live y L (le_seg e) N LL E2 D1) as [S1|[-> B1]].
    2:{ cbn. right. split; [reflexivity|]. intros Ht. destruct (HT Ht). lia. }
    eapply safe_bind; [exact S1|]. intros [[s1 y1] o1] _ (K1 & N1 & K1L & K1e & O1). destruct (order_eqb o1 Left) eqn:Q1; [|exact IH'].
    assert (o1 = Left) as -> by (destruct o1; [discriminate|discriminate|reflexivity]).
    destruct (entry_at_live y (le_seg e) R N E2 LR D2) as [S2|[-> B2]].
    2:{ cbn. right. split; [reflexivity|]. intros Ht. destruct (HT Ht). lia. }
    eapply safe_bind; [exact S2|]. intros [[s2 y2] o2] _ (K2 & N2 & K2e & K2R & O2). destruct (order_eqb o2 Left) eqn:Q2.
    + assert (o2 = Left) as -> by (destruct o2; [discriminate|discriminate|reflexivity]).
      apply safe_ok. destruct (fmin_nonnan y1 y2 N1 N2) as [Nm Km]. split.
      * intros Ht. destruct (HT Ht) as (_ & _ & HO). apply HO. eapply (TR_trans Ht y L (le_seg e) R); assumption.
      * rewrite Km. repeat split; try assumption; lia.
    + eapply safe_bind; [exact IH|]. intros [h|js] _ H; apply safe_ok; [exact H|]. destruct H as [H1 H2]. split.
      * constructor; [exact H1|]. eapply Forall_impl; [|exact H2]. cbn. intros; lia.
      * cbn [length]. constructor; [lia|]. eapply Forall_impl; [|exact H2]. cbn. intros; lia.
Qed.

(** ** Handling a crossing *)
(** The present order of two segments. *)
Definition precedes (l : list lentry) (i j : nat) : Prop :=
  exists p q e f, nth_error l p = Some e /\ nth_error l q = Some f /\ has_seg i e = true /\ has_seg j f = true /\ p < q.

(** What one call of [handle_intersection] does to the line and the marked indices. *)
Definition crossed (s : sweeper) (left right : nat) (s' : sweeper) : Prop :=
  exists li ri, position_of left (sw_line s) = Some li /\ position_of right (sw_line s) = Some ri /\
  ((* delayed *)
   (li < ri /\ sw_line s' = sw_line s /\ sw_need s' = sw_need s /\ exists ev, In ev (sw_int s') /\ ie_left ev = left /\ ie_right ev = right /\ (key (sw_y s) < key (ie_y ev))%Z) \/
   (* already in order *)
   (ri <= li /\ sw_line s' = sw_line s /\ sw_need s' = sw_need s ++ range ri (S li)) \/
   (* reordered *)
   (li < ri /\ sw_need s' = sw_need s ++ range li (S ri) /\
    exists A M B M2, sw_line s = A ++ M ++ B /\ length A = li /\ length M = S ri - li /\
      Permutation (mapi set_old_idx li M) M2 /\ sw_line s' = A ++ M2 ++ B /\ precedes (sw_line s') right left)).

Lemma split3 {A} (l : list A) x y : x <= y -> y <= length l -> exists P M R, l = P ++ M ++ R /\ length P = x /\ length M = y - x.
Proof.
  intros H1 H2. exists (firstn x l), (firstn (y - x) (skipn x l)), (skipn (y - x) (skipn x l)).
  rewrite firstn_skipn, firstn_skipn. split; [reflexivity|]. rewrite !firstn_length_le; rewrite ?skipn_length; lia.
Qed.

Lemma bt_insert_mem e l : (exists x, In x (bt_insert e l) /\ ie_cmp e x = Eq) /\ incl l (bt_insert e l).
Proof.
  induction l as [|y l [IH1 IH2]]; cbn [bt_insert].
  - split; [|intros ? []]. exists e. split; [left; reflexivity|]. unfold ie_cmp. destruct (cof_cmp (ie_y e) (ie_y e)) eqn:E.
    + rewrite !Nat.compare_refl. reflexivity.
    + exfalso. pose proof (cof_cmp_antisym (ie_y e) (ie_y e)) as X. rewrite E in X. discriminate.
    + exfalso. pose proof (cof_cmp_antisym (ie_y e) (ie_y e)) as X. rewrite E in X. discriminate.
  - destruct (ie_cmp e y) eqn:E.
    + split; [exists y; split; [left; reflexivity|exact E]|apply incl_refl].
    + split; [|intros z Hz; right; exact Hz]. exists e. split; [left; reflexivity|]. unfold ie_cmp. destruct (cof_cmp (ie_y e) (ie_y e)) eqn:E'.
      * rewrite !Nat.compare_refl. reflexivity.
      * exfalso. pose proof (cof_cmp_antisym (ie_y e) (ie_y e)) as X. rewrite E' in X. discriminate.
      * exfalso. pose proof (cof_cmp_antisym (ie_y e) (ie_y e)) as X. rewrite E' in X. discriminate.
    + destruct IH1 as (x & H1 & H2). split; [exists x; split; [right; exact H1|exact H2]|]. intros z [<-|Hz]; [left; reflexivity|right; auto].
Qed.
End S.
