(** Proofs about the sweep, part 1: the event queue, and heights strictly increase. *)
From Coq Require Import List Bool ZArith Arith Lia Permutation Sorted.
From Verif Require Import F64 F64Arith TreeVecModel TreeVecSpec GeomModel SegmentsModel SegmentsSpec
  SegmentsProofs CurveOrderModel CurveOrderSpec CurveOrderProofs CurveOrderProofs2 CurveOrderProofs3 SweepModel SweepSpec.
Import ListNotations.

(** ** Monad *)
Lemma rbind_ok {A R} (r : res A) (f : A -> res R) x : rbind r f = Ok x -> exists v, r = Ok v /\ f v = Ok x.
Proof. destruct r; [|discriminate]. eauto. Qed.
Lemma orerr_ok {A} e (o : option A) x : orerr e o = Ok x -> o = Some x.
Proof. destruct o; [|discriminate]. now intros [= ->]. Qed.

(** Invert [H : rbind .. = Ok _] repeatedly. *)
Ltac inv1 H :=
  let v := fresh "v" in let E := fresh "E" in
  apply rbind_ok in H; destruct H as (v & E & H); cbv beta in H.

(** ** The intersection queue *)
Definition kle (x y : ievent) : Prop := (key (ie_y x) <= key (ie_y y))%Z.
Definition qok (P : ievent -> Prop) (l : list ievent) : Prop :=
  StronglySorted kle l /\ Forall P l /\ Forall (fun e => nan (ie_y e) = false) l.

Lemma ie_cmp_kle x y : nan (ie_y x) = false -> nan (ie_y y) = false ->
  match ie_cmp x y with Lt => kle x y | Eq => kle x y /\ kle y x | Gt => kle y x end.
Proof.
  intros Nx Ny. unfold ie_cmp, kle. rewrite cof_cmp_key by assumption.
  destruct (Z.compare_spec (key (ie_y x)) (key (ie_y y))); try lia.
  destruct (Nat.compare _ _); try lia. destruct (Nat.compare _ _); lia.
Qed.

Lemma bt_insert_in e l x : In x (bt_insert e l) -> x = e \/ In x l.
Proof.
  induction l as [|y l IH]; cbn.
  - intros [<-|[]]; auto.
  - destruct (ie_cmp e y); cbn; intros H; intuition.
Qed.

Lemma bt_insert_q (P : ievent -> Prop) e l : P e -> nan (ie_y e) = false -> qok P l -> qok P (bt_insert e l).
Proof.
  intros He Ne (S & F & N). split; [|split].
  - induction S as [|y l S IH L]; cbn.
    + repeat constructor.
    + inversion F; inversion N; subst. pose proof (ie_cmp_kle e y ltac:(assumption) ltac:(assumption)) as C.
      destruct (ie_cmp e y).
      * constructor; assumption.
      * constructor; [constructor; assumption|]. constructor; [assumption|].
        eapply Forall_impl; [|exact L]. unfold kle in *. intros z Hz. lia.
      * constructor; [apply IH; assumption|]. apply Forall_forall. intros z Hz. apply bt_insert_in in Hz.
        destruct Hz as [->|Hz]; [assumption|]. rewrite Forall_forall in L. apply L, Hz.
  - apply Forall_forall. intros x Hx. apply bt_insert_in in Hx. destruct Hx as [->|Hx]; [assumption|].
    rewrite Forall_forall in F. auto.
  - apply Forall_forall. intros x Hx. apply bt_insert_in in Hx. destruct Hx as [->|Hx]; [assumption|].
    rewrite Forall_forall in N. auto.
Qed.

Lemma qok_impl (P Q : ievent -> Prop) l : (forall e, P e -> Q e) -> qok P l -> qok Q l.
Proof. intros I (S & F & N). split; [assumption|]. split; [|assumption]. eapply Forall_impl; eauto. Qed.

Lemma qok_tail (P : ievent -> Prop) e l : qok P (e :: l) -> qok P l /\ P e /\ nan (ie_y e) = false.
Proof.
  intros (S & F & N). inversion S; inversion F; inversion N; subst. repeat split; assumption.
Qed.

Section S.
Variable a : arena.
Variable eps : f64.
Variables cmp ccmp : nat -> nat -> curve_order.
Variables min_x max_x : segment -> f64.
Variables lower upper : segment -> f64 -> f64 -> f64.
Variables pp pph : (lentry -> bool) -> list lentry -> nat.
Variable sort_by : forall A : Type, (A -> A -> comparison) -> list A -> list A.

Notation scan_right_loop := (scan_right_loop a eps cmp ccmp min_x max_x).
Notation scan_left_loop := (scan_left_loop a eps cmp ccmp min_x max_x).
Notation scan_right := (scan_right a eps cmp ccmp min_x max_x).
Notation scan_left := (scan_left a eps cmp ccmp min_x max_x).
Notation scan_both := (scan_both a eps cmp ccmp min_x max_x).
Notation scan_for_removal := (scan_for_removal a eps cmp ccmp min_x max_x).
Notation insert_entry := (insert_entry a eps cmp ccmp min_x max_x).
Notation remove_each := (remove_each a eps cmp ccmp min_x max_x).
Notation insert_each := (insert_each a eps cmp ccmp min_x max_x).
Notation handle_enter := (handle_enter a eps cmp ccmp min_x max_x pp).
Notation handle_exit := (handle_exit a eps cmp ccmp min_x max_x).
Notation handle_contour_continuation := (handle_contour_continuation a eps cmp ccmp min_x max_x).
Notation handle_intersection := (handle_intersection a eps cmp ccmp min_x max_x).
Notation compute_horizontal := (compute_horizontal a eps lower upper pph sort_by).
Notation contour_adjacent := (contour_adjacent a eps lower upper).
Notation changed_loop := (changed_loop cmp ccmp).
Notation compute_changed := (compute_changed a eps cmp ccmp lower upper pph sort_by).
Notation enter_all := (enter_all a eps cmp ccmp min_x max_x pp).
Notation exit_all := (exit_all a eps cmp ccmp min_x max_x).
Notation intersect_all := (intersect_all a eps cmp ccmp min_x max_x).
Notation next_line := (next_line a eps cmp ccmp min_x max_x lower upper pp pph sort_by).
Notation next_y := (next_y a).
Notation sweeper_new := (sweeper_new a).

(** Events found while scanning at [y] for the pair [i], [j] (in line order) satisfy [P]. *)
Definition finds (P : ievent -> Prop) (y : f64) (i j : nat) : Prop :=
  forall t ev, touch (cmp i j) y = Ok t -> event_right y i j t = Some ev -> P ev /\ nan (ie_y ev) = false.

Lemma seg_at_ok i s : seg_at a i = Ok s -> i < arena_len a /\ s = seg_def a i.
Proof.
  unfold seg_at. intros H. apply orerr_ok in H. split.
  - apply nth_error_Some. congruence.
  - unfold seg_def. symmetry. apply nth_error_nth. exact H.
Qed.
Lemma seg_at_lt i : i < arena_len a -> seg_at a i = Ok (seg_def a i).
Proof. intros H. unfold seg_at, seg_def. rewrite nth_error_nth' with (d := SLine (mkPoint fzero fzero) (mkPoint fzero fzero)) by exact H. reflexivity. Qed.

Lemma scan_right_loop_q (P : ievent -> Prop) y i seg rest : forall hb evs evs',
  (forall oe, In oe rest -> feq (end_y a (le_seg oe)) y = false -> finds P y i (le_seg oe)) ->
  qok P evs -> scan_right_loop y i seg rest hb evs = Ok evs' -> qok P evs'.
Proof.
  induction rest as [|oe rest IH]; intros hb evs evs' HF Q H; cbn [SweepModel.scan_right_loop] in H.
  - injection H as <-. exact Q.
  - inv1 H. apply seg_at_ok in E. destruct E as [_ ->].
    assert (HF' : forall e, In e rest -> feq (end_y a (le_seg e)) y = false -> finds P y i (le_seg e)) by (intros; apply HF; [right|]; assumption).
    change (py (seg_end (seg_def a (le_seg oe)))) with (end_y a (le_seg oe)) in H.
    destruct (feq (end_y a (le_seg oe)) y) eqn:Ee; [eapply IH; eauto|].
    destruct (flt _ _); [injection H as <-; exact Q|].
    inv1 H. specialize (HF oe (or_introl eq_refl) Ee). unfold finds in HF.
    destruct (event_right y i (le_seg oe) v) as [ev|] eqn:Er.
    + destruct (HF _ _ E Er) as [Pe Ne].
      assert (Q' : qok P (bt_insert ev evs)) by (apply bt_insert_q; assumption).
      destruct (find _ _) as [[[? y1] o]|].
      * destruct (order_eqb o Left && _); [injection H as <-; exact Q'|eapply IH; [| |exact H]; eauto].
      * eapply IH; [| |exact H]; eauto.
    + destruct (find _ _) as [[[? y1] o]|].
      * destruct (order_eqb o Left && _); [injection H as <-; exact Q|eapply IH; [| |exact H]; eauto].
      * eapply IH; [| |exact H]; eauto.
Qed.

Lemma scan_left_loop_q (P : ievent -> Prop) y i seg rest : forall hb evs evs',
  (forall oe, In oe rest -> feq (end_y a (le_seg oe)) y = false -> finds P y (le_seg oe) i) ->
  qok P evs -> scan_left_loop y i seg rest hb evs = Ok evs' -> qok P evs'.
Proof.
  induction rest as [|oe rest IH]; intros hb evs evs' HF Q H; cbn [SweepModel.scan_left_loop] in H.
  - injection H as <-. exact Q.
  - inv1 H. apply seg_at_ok in E. destruct E as [_ ->].
    assert (HF' : forall e, In e rest -> feq (end_y a (le_seg e)) y = false -> finds P y (le_seg e) i) by (intros; apply HF; [right|]; assumption).
    change (py (seg_end (seg_def a (le_seg oe)))) with (end_y a (le_seg oe)) in H.
    destruct (feq (end_y a (le_seg oe)) y) eqn:Ee; [eapply IH; eauto|].
    destruct (fgt _ _); [injection H as <-; exact Q|].
    inv1 H. specialize (HF oe (or_introl eq_refl) Ee). unfold finds in HF.
    destruct (event_right y (le_seg oe) i v) as [ev|] eqn:Er.
    + destruct (HF _ _ E Er) as [Pe Ne].
      assert (Q' : qok P (bt_insert ev evs)) by (apply bt_insert_q; assumption).
      destruct (find _ _) as [[[? y1] o]|].
      * destruct (order_eqb o Left && _); [injection H as <-; exact Q'|eapply IH; [| |exact H]; eauto].
      * eapply IH; [| |exact H]; eauto.
    + destruct (find _ _) as [[[? y1] o]|].
      * destruct (order_eqb o Left && _); [injection H as <-; exact Q|eapply IH; [| |exact H]; eauto].
      * eapply IH; [| |exact H]; eauto.
Qed.

(** ** Scans change nothing but the queue *)
Lemma scan_right_frame s i s' : scan_right s i = Ok s' -> exists evs, s' = with_int s evs.
Proof.
  unfold SweepModel.scan_right. intros H. inv1 H. inv1 H.
  destruct (feq _ _); [injection H as <-; exists (sw_int s); destruct s; reflexivity|].
  inv1 H. injection H as <-. eauto.
Qed.
Lemma scan_left_frame s i s' : scan_left s i = Ok s' -> exists evs, s' = with_int s evs.
Proof.
  unfold SweepModel.scan_left. intros H. inv1 H. inv1 H.
  destruct (feq _ _); [injection H as <-; exists (sw_int s); destruct s; reflexivity|].
  inv1 H. injection H as <-. eauto.
Qed.
Lemma scan_both_frame s i s' : scan_both s i = Ok s' -> exists evs, s' = with_int s evs.
Proof.
  unfold SweepModel.scan_both. intros H. inv1 H.
  apply scan_right_frame in E. destruct E as [e1 ->]. apply scan_left_frame in H. destruct H as [e2 ->].
  exists e2. destruct s; reflexivity.
Qed.
Lemma scan_removal_frame s i s' : scan_for_removal s i = Ok s' -> exists evs, s' = with_int s evs.
Proof.
  unfold SweepModel.scan_for_removal. intros H. destruct (0 <? i); [eapply scan_both_frame; eassumption|].
  injection H as <-. exists (sw_int s). destruct s; reflexivity.
Qed.

(** ** Weak queue invariant: nothing queued lies above the sweep line, whatever the comparisons say *)
Definition notabove (y : f64) (ev : ievent) : Prop := (key y <= key (ie_y ev))%Z.

Lemma event_notabove y i j t ev : nan y = false -> event_right y i j t = Some ev ->
  notabove y ev /\ nan (ie_y ev) = false.
Proof.
  intros Ny. unfold event_right, notabove. destruct t as [[c|c]|]; [| |discriminate].
  - intros [= <-]. cbn [ie_y]. unfold fmax. rewrite Ny. destruct (nan c) eqn:Nc; [split; [lia|assumption]|].
    destruct (fle c y) eqn:L; [split; [lia|assumption]|]. fk. zb. split; [lia|assumption].
  - destruct (fgt c y) eqn:G; [|discriminate]. intros [= <-]. cbn [ie_y].
    assert (G' : flt y c = true) by exact G. destruct (flt_nonnan _ _ G') as [_ Nc]. fk. zb. split; [lia|assumption].
Qed.
Lemma finds_notabove y i j : nan y = false -> finds (notabove y) y i j.
Proof. intros Ny t ev _. apply event_notabove, Ny. Qed.

(** Same height and counters, and the queue is still fine. *)
Definition wk (s s' : sweeper) : Prop :=
  sw_y s' = sw_y s /\ sw_next_enter s' = sw_next_enter s /\ sw_next_exit s' = sw_next_exit s /\
  (nan (sw_y s) = false -> qok (notabove (sw_y s)) (sw_int s) -> qok (notabove (sw_y s)) (sw_int s')).
Lemma wk_refl s : wk s s.
Proof. unfold wk. auto. Qed.
Lemma wk_trans s1 s2 s3 : wk s1 s2 -> wk s2 s3 -> wk s1 s3.
Proof.
  intros (A1 & A2 & A3 & A4) (B1 & B2 & B3 & B4). unfold wk.
  split; [congruence|]. split; [congruence|]. split; [congruence|]. intros N Q. rewrite A1 in B4. auto.
Qed.
Lemma wk_line s l : wk s (with_line s l).
Proof. unfold wk. cbn. auto. Qed.
Lemma wk_need s l : wk s (with_need s l).
Proof. unfold wk. cbn. auto. Qed.
Lemma wk_horiz s l : wk s (with_horiz s l).
Proof. unfold wk. cbn. auto. Qed.
Lemma wk_civs s l : wk s (with_changed_ivs s l).
Proof. unfold wk. cbn. auto. Qed.

Lemma scan_right_wk s i s' : scan_right s i = Ok s' -> wk s s'.
Proof.
  unfold SweepModel.scan_right. intros H. inv1 H. inv1 H.
  destruct (feq _ _); [injection H as <-; apply wk_refl|]. inv1 H. injection H as <-.
  split; [reflexivity|]. split; [reflexivity|]. split; [reflexivity|]. cbn [with_int sw_int]. intros N Q.
  eapply scan_right_loop_q; [| |exact E1]; [|exact Q]. intros. apply finds_notabove, N.
Qed.
Lemma scan_left_wk s i s' : scan_left s i = Ok s' -> wk s s'.
Proof.
  unfold SweepModel.scan_left. intros H. inv1 H. inv1 H.
  destruct (feq _ _); [injection H as <-; apply wk_refl|]. inv1 H. injection H as <-.
  split; [reflexivity|]. split; [reflexivity|]. split; [reflexivity|]. cbn [with_int sw_int]. intros N Q.
  eapply scan_left_loop_q; [| |exact E1]; [|exact Q]. intros. apply finds_notabove, N.
Qed.
Lemma scan_both_wk s i s' : scan_both s i = Ok s' -> wk s s'.
Proof.
  unfold SweepModel.scan_both. intros H. inv1 H. eapply wk_trans; [eapply scan_right_wk|eapply scan_left_wk]; eassumption.
Qed.
Lemma scan_removal_wk s i s' : scan_for_removal s i = Ok s' -> wk s s'.
Proof.
  unfold SweepModel.scan_for_removal. intros H. destruct (0 <? i); [eapply scan_both_wk; eassumption|].
  injection H as <-. apply wk_refl.
Qed.
Lemma insert_entry_wk s p e s' : insert_entry s p e = Ok s' -> wk s s'.
Proof.
  unfold SweepModel.insert_entry. intros H. inv1 H. eapply wk_trans; [apply wk_line|eapply scan_both_wk; eassumption].
Qed.
Lemma continuation_wk s i g p s' : handle_contour_continuation s i g p = Ok s' -> wk s s'.
Proof.
  unfold SweepModel.handle_contour_continuation. intros H. inv1 H. inv1 H. inv1 H. injection H as <-.
  eapply wk_trans; [apply wk_line|]. eapply wk_trans; [eapply scan_both_wk; eassumption|apply wk_need].
Qed.
Lemma handle_enter_wk s i s' : handle_enter s i = Ok s' -> wk s s'.
Proof.
  unfold SweepModel.handle_enter. intros H. inv1 H. inv1 H. destruct v0.
  - injection H as <-. apply wk_horiz.
  - inv1 H. inv1 H. inv1 H. destruct v2.
    + eapply continuation_wk; eassumption.
    + inv1 H. inv1 H. injection H as <-. eapply wk_trans; [eapply insert_entry_wk; eassumption|apply wk_need].
Qed.
Lemma handle_exit_wk s i s' : handle_exit s i = Ok s' -> wk s s'.
Proof.
  unfold SweepModel.handle_exit. intros H. inv1 H. inv1 H. destruct (match le_old_seg v0 with Some _ => _ | None => _ end).
  - injection H as <-. apply wk_refl.
  - inv1 H. inv1 H. injection H as <-. eapply wk_trans; [apply wk_line|].
    eapply wk_trans; [eapply scan_removal_wk; eassumption|apply wk_need].
Qed.

Lemma entry_at_gt c y s e o : entry_at c y = Ok (s, e, o) -> fgt e y = true.
Proof.
  unfold entry_at, co_entry_at. intros H. apply orerr_ok in H. apply find_some in H. apply H.
Qed.

Lemma pushed_along_delay y l r rest : nan y = false -> forall j h, pushed_along cmp y l r rest j = Ok (inl h) ->
  (key y < key h)%Z /\ nan h = false.
Proof.
  intros Ny. induction rest as [|e rest IH]; intros j h H; cbn [pushed_along] in H; [discriminate|].
  destruct (really_exits e); [eauto|]. inv1 H. destruct v as [[? y1] o1]. destruct (order_eqb o1 Left); [|eauto].
  inv1 H. destruct v as [[? y2] o2]. destruct (order_eqb o2 Left).
  - injection H as <-. apply entry_at_gt in E, E0.
    assert (G1 : flt y y1 = true) by exact E. assert (G2 : flt y y2 = true) by exact E0.
    destruct (flt_nonnan _ _ G1) as [_ N1]. destruct (flt_nonnan _ _ G2) as [_ N2].
    destruct (fmin_nonnan y1 y2 N1 N2) as [Nm Km]. rewrite Km. fk. zb. split; [lia|assumption].
  - inv1 H. destruct v; [|discriminate]. injection H as <-. eauto.
Qed.

Lemma remove_each_wk js : forall s r s', remove_each s js = Ok (r, s') -> wk s s'.
Proof.
  induction js as [|j js IH]; intros s r s' H; cbn [SweepModel.remove_each] in H.
  - injection H as _ <-. apply wk_refl.
  - inv1 H. destruct v as [e l]. inv1 H. inv1 H. destruct v0 as [rm s2]. injection H as _ <-.
    eapply wk_trans; [apply wk_line|]. eapply wk_trans; [eapply scan_removal_wk; eassumption|]. eapply IH; eassumption.
Qed.
Lemma insert_each_wk es : forall s p s', insert_each s p es = Ok s' -> wk s s'.
Proof.
  induction es as [|e es IH]; intros s p s' H; cbn [SweepModel.insert_each] in H.
  - injection H as <-. apply wk_refl.
  - inv1 H. eapply wk_trans; [eapply insert_entry_wk; eassumption|]. eapply IH; eassumption.
Qed.

Lemma handle_intersection_wk s l r s' : handle_intersection s l r = Ok s' -> wk s s'.
Proof.
  unfold SweepModel.handle_intersection. intros H. inv1 H. inv1 H. destruct (v <? v0).
  - inv1 H. destruct v1 as [h|js].
    + injection H as <-. split; [reflexivity|]. split; [reflexivity|]. split; [reflexivity|].
      cbn [with_int sw_int]. intros N Q. destruct (pushed_along_delay _ _ _ _ N _ _ E1). apply bt_insert_q; [|assumption|assumption].
      unfold notabove. cbn. lia.
    + inv1 H. inv1 H. destruct v2 as [rm s2]. eapply wk_trans; [apply wk_need|].
      eapply wk_trans; [apply wk_line|]. eapply wk_trans; [eapply remove_each_wk; eassumption|]. eapply insert_each_wk; eassumption.
  - inv1 H. eapply wk_trans; [apply wk_need|]. eapply wk_trans; [eapply scan_right_wk; eassumption|]. eapply scan_left_wk; eassumption.
Qed.

Lemma enter_all_wk l : forall s s', enter_all s l = Ok s' -> wk s s'.
Proof.
  induction l as [|[y i] l IH]; intros s s' H; cbn [SweepModel.enter_all] in H; [injection H as <-; apply wk_refl|].
  destruct (negb _); [discriminate|]. inv1 H. eapply wk_trans; [eapply handle_enter_wk; eassumption|eauto].
Qed.
Lemma exit_all_wk l : forall s s', exit_all s l = Ok s' -> wk s s'.
Proof.
  induction l as [|[y i] l IH]; intros s s' H; cbn [SweepModel.exit_all] in H; [injection H as <-; apply wk_refl|].
  destruct (negb _); [discriminate|]. inv1 H. eapply wk_trans; [eapply handle_exit_wk; eassumption|eauto].
Qed.

(** After the loop nothing queued is at or above the sweep line. *)
Definition below (y : f64) (ev : ievent) : Prop := (key y < key (ie_y ev))%Z.
Lemma intersect_all_wk fuel : forall s s', intersect_all fuel s = Ok s' ->
  wk s s' /\ (nan (sw_y s) = false -> qok (notabove (sw_y s)) (sw_int s) -> qok (below (sw_y s)) (sw_int s')).
Proof.
  induction fuel as [|f IH]; intros s s' H; cbn [SweepModel.intersect_all] in H.
  - destruct (sw_int s) as [|ev evs] eqn:Ei.
    + injection H as <-. split; [apply wk_refl|]. rewrite Ei. intros _ (A & B & C). repeat split; auto; constructor.
    + destruct (feq (ie_y ev) (sw_y s)) eqn:Ef; [discriminate|]. injection H as <-. split; [apply wk_refl|].
      rewrite Ei. intros N Q. destruct (qok_tail _ _ _ Q) as (_ & Pe & Ne). destruct Q as (Q1 & Q2 & Q3). split; [assumption|]. split; [|assumption].
      inversion Q1; subst. fk. zb. unfold notabove in Pe. constructor; [unfold below; lia|].
      eapply Forall_impl; [|exact H2]. unfold below, kle. intros z Hz. lia.
  - destruct (sw_int s) as [|ev evs] eqn:Ei.
    + injection H as <-. split; [apply wk_refl|]. rewrite Ei. intros _ (A & B & C). repeat split; auto; constructor.
    + destruct (feq (ie_y ev) (sw_y s)) eqn:Ef.
      * inv1 H. apply handle_intersection_wk in E. apply IH in H. destruct H as [W1 W2].
        assert (W0 : wk s (with_int s evs)).
        { split; [reflexivity|]. split; [reflexivity|]. split; [reflexivity|]. cbn. rewrite Ei. intros _ Q. apply qok_tail in Q. apply Q. }
        assert (W3 : wk s v) by (eapply wk_trans; eassumption).
        split; [eapply wk_trans; eassumption|]. intros N Q. destruct W3 as (Y & _ & _ & K).
        rewrite Y in W2. apply W2; [assumption|]. apply K; [assumption|]. rewrite Ei. exact Q.
      * injection H as <-. split; [apply wk_refl|].
        rewrite Ei. intros N Q. destruct (qok_tail _ _ _ Q) as (_ & Pe & Ne). destruct Q as (Q1 & Q2 & Q3). split; [assumption|]. split; [|assumption].
        inversion Q1; subst. fk. zb. unfold notabove in Pe. constructor; [unfold below; lia|].
        eapply Forall_impl; [|exact H2]. unfold below, kle. intros z Hz. lia.
Qed.

(** ** Changed intervals leave height, counters, queue and marked indices alone *)
Definition same_queue (s s' : sweeper) : Prop :=
  sw_y s' = sw_y s /\ sw_next_enter s' = sw_next_enter s /\ sw_next_exit s' = sw_next_exit s /\
  sw_int s' = sw_int s /\ sw_need s' = sw_need s.
Lemma sq_refl s : same_queue s s.
Proof. repeat split. Qed.
Lemma sq_trans s1 s2 s3 : same_queue s1 s2 -> same_queue s2 s3 -> same_queue s1 s3.
Proof. intros (A & B & C & D & E) (F & G & H & I & J). repeat split; congruence. Qed.

Lemma horizontal_loop_sq y hs : forall idx le s s', horizontal_loop a eps lower upper pph y hs idx le s = Ok s' -> same_queue s s'.
Proof.
  induction hs as [|h hs IH]; intros idx le s s' H; cbn [horizontal_loop] in H; [injection H as <-; apply sq_refl|].
  inv1 H. inv1 H. destruct v0 as [e l]. inv1 H. apply IH in H. eapply sq_trans; [|exact H]. repeat split.
Qed.
Lemma contour_adjacent_sq need : forall s s', contour_adjacent need s = Ok s' -> same_queue s s'.
Proof.
  induction need as [|j need IH]; intros s s' H; cbn [SweepModel.contour_adjacent] in H; [injection H as <-; apply sq_refl|].
  inv1 H. destruct (_ || _); [eauto|]. inv1 H. inv1 H. destruct v1 as [si l1]. inv1 H. destruct v1 as [ei l2].
  apply IH in H. eapply sq_trans; [|exact H]. destruct (si <? ei); repeat split.
Qed.
Lemma changed_loop_sq need : forall s s', changed_loop need s = Ok s' -> same_queue s s'.
Proof.
  induction need as [|j need IH]; intros s s' H; cbn [SweepModel.changed_loop] in H; [injection H as <-; apply sq_refl|].
  inv1 H. destruct (le_changed v); [eauto|]. inv1 H. inv1 H. destruct v1 as [ei l1]. inv1 H. destruct v1 as [si l2].
  apply IH in H. eapply sq_trans; [|exact H]. repeat split.
Qed.
Lemma compute_changed_sq s s' : compute_changed s = Ok s' -> same_queue s s'.
Proof.
  unfold SweepModel.compute_changed. destruct (sw_changed s); [|discriminate]. intros H. inv1 H. inv1 H. inv1 H. injection H as <-.
  unfold SweepModel.compute_horizontal in E. apply horizontal_loop_sq in E. apply contour_adjacent_sq in E0. apply changed_loop_sq in E1.
  eapply sq_trans; [|eapply sq_trans; [exact E0|eapply sq_trans; [exact E1|]]]; [|repeat split].
  eapply sq_trans; [|exact E]. repeat split.
Qed.

(** ** Heights strictly increase *)
Definition sorted_nonnan (l : list (f64 * nat)) : Prop :=
  StronglySorted (fun p q => fle (fst p) (fst q) = true) l /\ Forall (fun p => nan (fst p) = false) l.

Lemma upto_y_spec y l : nan y = false -> sorted_nonnan l ->
  exists rest, l = upto_y y l ++ rest /\ Forall (fun p => (key (fst p) <= key y)%Z) (upto_y y l) /\
    Forall (fun p => (key y < key (fst p))%Z) rest.
Proof.
  intros Ny [S N]. induction l as [|p l IH]; cbn [upto_y].
  - exists []. repeat constructor.
  - inversion S; inversion N; subst. destruct (fgt (fst p) y) eqn:G.
    + exists (p :: l). split; [reflexivity|]. split; [constructor|]. fk. zb. constructor; [lia|].
      clear IH. rewrite Forall_forall in *. intros q Hq. specialize (H2 q Hq). destruct (fle_nonnan _ _ H2).
      fk. zb. lia.
    + destruct (IH H1 H6) as (rest & El & F1 & F2). exists rest. split; [|split; [|exact F2]].
      * cbn [app]. f_equal. exact El.
      * constructor; [|exact F1]. fk. zb. lia.
Qed.

(** Everything still to come is strictly below [b]. *)
Definition ahead (b : f64) (s : sweeper) : Prop :=
  nan b = false /\ Forall (fun p => (key b < key (fst p))%Z) (skipn (sw_next_enter s) (enter a)) /\
  Forall (fun p => (key b < key (fst p))%Z) (skipn (sw_next_exit s) (exit_ a)) /\
  qok (below b) (sw_int s).

Lemma sorted_skipn k l : sorted_nonnan l -> sorted_nonnan (skipn k l).
Proof.
  revert k. induction l as [|p l IH]; intros [|k] H; cbn; try assumption.
  apply IH. destruct H as [S N]. inversion S; inversion N; subst. split; assumption.
Qed.
Lemma hd_skipn {A} k (l : list A) : nth_error l k = hd_error (skipn k l).
Proof. revert k. induction l as [|x l IH]; intros [|k]; cbn; auto. Qed.

(** [next_y] is the smallest height still to come. *)
Lemma next_y_spec b s y : sorted_nonnan (enter a) -> sorted_nonnan (exit_ a) -> ahead b s -> next_y s = Some y ->
  nan y = false /\ (key b < key y)%Z /\
  Forall (fun p => (key y <= key (fst p))%Z) (skipn (sw_next_enter s) (enter a)) /\
  Forall (fun p => (key y <= key (fst p))%Z) (skipn (sw_next_exit s) (exit_ a)) /\
  qok (notabove y) (sw_int s).
Proof.
  intros SE SX (Nb & AE & AX & AI). unfold SweepModel.next_y. rewrite !hd_skipn.
  apply (sorted_skipn (sw_next_enter s)) in SE. apply (sorted_skipn (sw_next_exit s)) in SX.
  set (E := skipn (sw_next_enter s) (enter a)) in *. set (X := skipn (sw_next_exit s) (exit_ a)) in *.
  set (I := sw_int s) in *. clearbody E X I. clear s.
  assert (HL : forall (L : list (f64 * nat)), sorted_nonnan L -> Forall (fun p => (key b < key (fst p))%Z) L ->
     match option_map fst (hd_error L) with
     | None => L = []
     | Some h => nan h = false /\ (key b < key h)%Z /\ Forall (fun p => (key h <= key (fst p))%Z) L end).
  { intros [|p L] [SL NL] FL; cbn; [reflexivity|]. inversion SL; inversion NL; inversion FL; subst. split; [assumption|]. split; [assumption|].
    constructor; [lia|]. rewrite Forall_forall in *. intros q Hq. specialize (H2 q Hq). specialize (H6 q Hq). cbn in H6. fk. zb. lia. }
  assert (HI : match option_map ie_y (hd_error I) with
     | None => I = []
     | Some h => nan h = false /\ (key b < key h)%Z /\ Forall (notabove h) I end).
  { destruct I as [|e I]; cbn; [reflexivity|]. destruct AI as (A1 & A2 & A3). inversion A1; inversion A2; inversion A3; subst.
    split; [assumption|]. split; [assumption|]. constructor; [unfold notabove; lia|]. exact H2. }
  pose proof (HL E SE AE) as HE. pose proof (HL X SX AX) as HX. clear HL.
  assert (Tr : forall (L : list (f64 * nat)) h h', (key h' <= key h)%Z -> Forall (fun p => (key h <= key (fst p))%Z) L -> Forall (fun p => (key h' <= key (fst p))%Z) L).
  { intros L h h' Hh HF. eapply Forall_impl; [|exact HF]. cbn. intros; lia. }
  assert (TrI : forall h h', (key h' <= key h)%Z -> Forall (notabove h) I -> Forall (notabove h') I).
  { intros h h' Hh HF. eapply Forall_impl; [|exact HF]. unfold notabove. intros; lia. }
  assert (TQ : forall h, Forall (notabove h) I -> qok (notabove h) I).
  { intros h HF. destruct AI as (A1 & A2 & A3). split; auto. }
  destruct (option_map fst (hd_error E)) as [e|], (option_map fst (hd_error X)) as [x|], (option_map ie_y (hd_error I)) as [i|];
    cbn [min_opt]; try discriminate; intros H; injection H as <-;
    repeat match goal with H : _ /\ _ |- _ => destruct H end;
    repeat match goal with
    | |- context [cof_cmp ?u ?v] =>
        lazymatch u with context [cof_cmp] => fail | _ => idtac end;
        let C := fresh "C" in pose proof (cof_cmp_key u v ltac:(assumption) ltac:(assumption)) as C;
        destruct (cof_cmp u v); symmetry in C;
        first [apply Z.compare_eq in C | apply -> Z.compare_lt_iff in C | apply -> Z.compare_gt_iff in C]
    end;
    subst; (split; [assumption|]); (split; [assumption|]);
    (split; [first [exact (Forall_nil _) | eapply Tr; [|eassumption]; lia]|]);
    (split; [first [exact (Forall_nil _) | eapply Tr; [|eassumption]; lia]|]);
    apply TQ; first [exact (Forall_nil _) | eapply TrI; [|eassumption]; lia].
Qed.

Lemma next_y_none s : next_y s = None ->
  skipn (sw_next_enter s) (enter a) = [] /\ skipn (sw_next_exit s) (exit_ a) = [] /\ sw_int s = [].
Proof.
  unfold SweepModel.next_y. rewrite !hd_skipn. destruct (skipn _ (enter a)), (skipn _ (exit_ a)), (sw_int s); cbn; try discriminate; auto.
Qed.

Lemma advance_frame s y s' : advance s y = Ok s' ->
  sw_y s' = y /\ sw_next_enter s' = sw_next_enter s /\ sw_next_exit s' = sw_next_exit s /\
  sw_int s' = sw_int s /\ sw_horiz s' = [] /\ sw_need s' = [] /\ sw_changed s' = [].
Proof. unfold advance. intros H. inv1 H. inv1 H. inv1 H. injection H as <-. cbn. auto 10. Qed.

Lemma skipn_add {A} n m (l : list A) : skipn (n + m) l = skipn m (skipn n l).
Proof. revert l. induction n as [|n IH]; intros l; cbn; [reflexivity|]. destruct l; [now rewrite skipn_nil|apply IH]. Qed.

Lemma next_line_ahead fuel b s s' : sorted_nonnan (enter a) -> sorted_nonnan (exit_ a) -> ahead b s ->
  next_line fuel s = Ok (Some s') -> flt b (sw_y s') = true /\ ahead (sw_y s') s'.
Proof.
  intros SE SX HA H. unfold SweepModel.next_line in H. destruct (next_y s) as [y|] eqn:Ey; [|discriminate].
  destruct (next_y_spec _ _ _ SE SX HA Ey) as (Ny & By & FE & FX & QI).
  inv1 H. apply advance_frame in E. destruct E as (Y0 & NE0 & NX0 & I0 & _).
  inv1 H. apply enter_all_wk in E. destruct E as (Y1 & NE1 & NX1 & W1). cbn in Y1, NE1, NX1, W1.
  inv1 H. apply exit_all_wk in E. destruct E as (Y2 & NE2 & NX2 & W2). cbn in Y2, NE2, NX2, W2.
  inv1 H. apply intersect_all_wk in E. destruct E as ((Y3 & NE3 & NX3 & _) & W3).
  inv1 H. apply compute_changed_sq in E. destruct E as (Y4 & NE4 & NX4 & I4 & _). injection H as <-.
  assert (YY : sw_y v3 = y) by congruence. rewrite YY.
  destruct HA as (Nb & _). split; [fk; zb; lia|].
  split; [assumption|].
  destruct (upto_y_spec y _ Ny (sorted_skipn (sw_next_enter v) _ SE)) as (re & Ee & _ & Re).
  destruct (upto_y_spec y _ Ny (sorted_skipn (sw_next_exit v0) _ SX)) as (rx & Ex & _ & Rx).
  split; [|split].
  - rewrite NE4, NE3, NE2, NE1, skipn_add. rewrite Ee at 2. rewrite skipn_app, skipn_all, Nat.sub_diag. exact Re.
  - rewrite NX4, NX3, NX2, skipn_add. rewrite Ex at 2. rewrite skipn_app, skipn_all, Nat.sub_diag. exact Rx.
  - rewrite I4. assert (Y2' : sw_y v1 = y) by congruence. rewrite Y2' in W3. apply W3; [assumption|].
    rewrite Y1, Y0 in W2. apply W2; [assumption|]. rewrite Y0 in W1. apply W1; [assumption|]. rewrite I0. exact QI.
Qed.

End S.

Section R.
Variable a : arena.
Variable eps : f64.
Variables cmp ccmp : nat -> nat -> curve_order.
Variables min_x max_x : segment -> f64.
Variables lower upper : segment -> f64 -> f64 -> f64.
Variable pps : nat -> ((lentry -> bool) -> list lentry -> nat) * ((lentry -> bool) -> list lentry -> nat).
Variable sort_by : forall A : Type, (A -> A -> comparison) -> list A -> list A.
Lemma sweep_increasing fuel n : forall t b s l done, sorted_nonnan (enter a) -> sorted_nonnan (exit_ a) -> ahead a b s ->
  sweep a eps cmp ccmp min_x max_x lower upper pps sort_by fuel n t s = Ok (l, done) ->
  StronglySorted (fun x y => flt x y = true) (b :: map sw_y l).
Proof.
  induction n as [|n IH]; intros t b s l done SE SX HA H; cbn [SweepModel.sweep] in H.
  - injection H as <- _. repeat constructor.
  - inv1 H. destruct v as [s'|].
    + inv1 H. destruct v as [l' d']. injection H as <- _. destruct (next_line_ahead _ _ _ _ _ _ _ _ _ _ _ _ _ _ _ SE SX HA E) as [H1 H2].
      specialize (IH _ _ _ _ _ SE SX H2 E0). cbn [map]. constructor; [exact IH|]. constructor; [exact H1|].
      inversion IH; subst. eapply Forall_impl; [|eassumption]. intros z Hz. destruct (flt_nonnan _ _ H1), (flt_nonnan _ _ Hz).
      cbv beta in Hz |- *. fk. zb. lia.
    + injection H as <- _. repeat constructor.
Qed.
End R.
