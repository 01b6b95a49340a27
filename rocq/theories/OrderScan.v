(** The order of the line, part 1: what a scan guarantees. *)
From Coq Require Import List Bool ZArith Arith Lia Reals Lra Permutation Sorted.
From Verif Require Import F64 F64Arith TreeVecModel TreeVecSpec GeomModel SegmentsModel SegmentsSpec
  SegmentsProofs CurveOrderModel CurveOrderSpec CurveOrderProofs CurveOrderProofs2 CurveOrderProofs3
  SweepModel SweepSpec SweepProofs SweepProofs2 SweepProofs3 SweepProofs4 OrderSpec OrderAbs.
Import ListNotations.

(** An event about [i] and [x] is queued for [z] or above. *)
Definition evset (z : f64) (E : list ievent) (i x : nat) : Prop :=
  exists ev, In ev E /\ (key (ie_y ev) <= key z)%Z /\
    ((ie_left ev = i /\ ie_right ev = x) \/ (ie_left ev = x /\ ie_right ev = i)).
Definition edone (a : arena) (z : f64) (x : nat) : Prop := (key (end_y a x) <= key z)%Z.
Lemma edone_dec a z x : edone a z x \/ ~ edone a z x.
Proof. unfold edone. destruct (Z_le_dec (key (end_y a x)) (key z)); auto. Qed.

(** [E'] contains every event of [E]. *)
Definition grows (E E' : list ievent) : Prop := incl E E'.
Lemma evset_grows z E E' i x : grows E E' -> evset z E i x -> evset z E' i x.
Proof. intros G (ev & H & H'). exists ev. split; [apply G, H|exact H']. Qed.
Lemma grows_refl E : grows E E. Proof. apply incl_refl. Qed.
Lemma grows_trans E F G : grows E F -> grows F G -> grows E G. Proof. apply incl_tran. Qed.

Lemma eorder_interval c z o : table_wf c -> nan z = false -> eorder c z = Some o ->
  exists k s e, interval c k s e o /\ (key z < key e)%Z /\ (k = 0 \/ (key s <= key z)%Z).
Proof.
  intros W N E. unfold eorder in E. destruct (co_entry_at c z) as [[[s e] o']|] eqn:F; [|discriminate]. cbn in E. injection E as ->.
  pose proof (find_index (fun '(_, e, _) => fgt e z) (co_iter c)) as FI. fold (co_entry_at c z) in FI. rewrite F in FI.
  destruct FI as (i & Hi & P & M). apply iter_interval in Hi. destruct (wf_iter_nonnan _ _ _ _ _ W Hi) as [Ns Ne].
  exists i, s, e. split; [exact Hi|]. split; [fk; zb; lia|]. destruct i as [|i]; [left; reflexivity|right].
  assert (Hp : exists s0 o0, interval c i s0 s o0).
  { destruct Hi as (H1 & H2 & H3).
    assert (exists s0, nth_error (heights c) i = Some s0) as [s0 Hs0].
    { destruct (nth_error (heights c) i) eqn:Q; [eauto|]. apply nth_error_None in Q. assert (S i < length (heights c)) by (apply nth_error_Some; congruence). lia. }
    assert (exists o0, nth_error (orders c) i = Some o0) as [o0 Ho0].
    { destruct (nth_error (orders c) i) eqn:Q; [eauto|]. apply nth_error_None in Q. assert (S i < length (orders c)) by (apply nth_error_Some; congruence). lia. }
    exists s0, o0. split; [exact Hs0|]. split; assumption. }
  destruct Hp as (s0 & o0 & Hp). specialize (M i (s0, s, o0) ltac:(lia) ltac:(now apply iter_interval)). cbv beta iota in M. fk. zb. lia.
Qed.

Lemma filter_rev' {A} (f : A -> bool) l : filter f (rev l) = rev (filter f l).
Proof. induction l as [|x l IH]; [reflexivity|]. cbn [rev]. rewrite filter_app, IH. cbn [filter]. destruct (f x); cbn [rev]; [reflexivity|apply app_nil_r]. Qed.

Section S.
Variable a : arena.
Variable eps : f64.
Variables cmp ccmp : nat -> nat -> curve_order.
Variables min_x max_x : segment -> f64.
Variable X : nat -> f64 -> R.
Variable t : R.

Notation scan_right_loop := (scan_right_loop a eps cmp ccmp min_x max_x).
Notation scan_left_loop := (scan_left_loop a eps cmp ccmp min_x max_x).
Notation scan_right := (scan_right a eps cmp ccmp min_x max_x).
Notation scan_left := (scan_left a eps cmp ccmp min_x max_x).
Notation scan_both := (scan_both a eps cmp ccmp min_x max_x).
Notation start_y := (start_y a).
Notation end_y := (end_y a).
Notation live := (SweepSpec.live a).

Hypothesis SP : sweepable a.
Hypothesis CO : comparer_ok a cmp.
Hypothesis CC : comparer_ok a ccmp.
Hypothesis SE : sees a eps cmp ccmp min_x max_x X t.

Notation ap z := (ap (fun i => X i z) t).
Notation ast z := (ast (fun i => X i z) t).
Notation dead := (edone a).

Lemma goes_later y z i : live y i -> (key y <= key z)%Z -> ~ dead z i -> goes_on a z i.
Proof. intros (R & S & L) H D. unfold edone in D. split; [split; [exact R|]; split; [exact S|lia]|lia]. Qed.

(** A pair found out of order at [z] is reported by [next_touch_after] from [y] on, for [z] or above. *)
Lemma touch_reports y z i j r : nan y = false -> nan z = false -> live y i -> live y j -> i <> j -> (key y <= key z)%Z ->
  eorder (cmp i j) z = Some Right -> touch (cmp i j) y = Ok r ->
  exists ev, event_right y i j r = Some ev /\ (key (ie_y ev) <= key z)%Z /\
    ((ie_left ev = i /\ ie_right ev = j) \/ (ie_left ev = j /\ ie_right ev = i)).
Proof.
  intros N Nz Li Lj D Lz ER ET. pose proof (live_table _ SP _ _ _ _ CO Li Lj D) as (W & _ & Fi & Z).
  destruct (eorder_interval _ _ _ W Nz ER) as (k & s & e & I & Le & K).
  destruct (reg_nonnan _ SP _ (proj1 Li)) as [Nsi Nei], (reg_nonnan _ SP _ (proj1 Lj)) as [Nsj Nej].
  destruct (wf_iter_nonnan _ _ _ _ _ W I) as [Ns Ne].
  assert (RL : right_later (cmp i j) y k).
  { exists s, e. split; [exact I|]. split; [fk; zb; lia|]. intros ZH.
    specialize (Z _ _ _ _ I ltac:(discriminate) ZH). destruct (fmax_nonnan _ _ Nsi Nsj) as [Nm Km].
    destruct Li as (_ & _ & Li), Lj as (_ & _ & Lj). fk. zb. lia. }
  pose proof (co_next_touch_post _ y W N) as P. unfold touch in ET.
  destruct (co_next_touch_after (cmp i j) y) as [[[h|h]|]| |]; try discriminate; injection ET as <-.
  - (* Cross *)
    destruct P as (k0 & s0 & e0 & I0 & G0 & B0 & P). eexists. split; [reflexivity|]. cbn [ie_y ie_left ie_right]. split; [|left; auto].
    assert (K0 : k0 <= k) by (destruct (le_lt_dec k0 k) as [Q|Q]; [exact Q|exfalso; apply (B0 _ Q), RL]).
    assert (S0 : k0 <> 0 -> (key s0 <= key z)%Z).
    { intros Q. destruct K as [->|K]; [lia|]. destruct (Nat.eq_dec k0 k) as [->|Q2].
      - destruct (interval_fun _ _ _ _ _ _ _ _ I I0) as (<- & _). exact K.
      - pose proof (wf_interval_before _ _ _ _ _ _ _ _ _ W (ltac:(lia) : k0 < k) I0 I). pose proof (wf_interval_le _ _ _ _ _ W I0). lia. }
    assert (H : nan h = false /\ (key h <= key z)%Z).
    { destruct P as [[-> _]|[[Hh (k' & p & -> & _)]|(k' & y0 & -> & I' & _ & ->)]].
      - auto.
      - destruct (feq_nonnan _ _ Hh) as [Nh Nh']. split; [exact Nh|]. specialize (S0 ltac:(discriminate)). fk. zb. lia.
      - destruct (heights_interval _ _ _ _ _ I') as [H1 H2]. destruct (Fi _ _ H1 H2) as (F1 & F2 & F3).
        destruct (fmid_between y0 s0 F1 F2 (wf_interval_le _ _ _ _ _ W I') F3) as (F4 & F5). split; [apply fin_nonnan, F4|].
        specialize (S0 ltac:(discriminate)). lia. }
    destruct H as [Nh Kh]. destruct (fmax_nonnan y h N Nh) as [Nm Km]. lia.
  - (* Touch *)
    destruct P as (k0 & y0 & y1 & y2 & I1 & I2 & -> & L0 & B0).
    destruct (heights_interval _ _ _ _ _ I1) as [H1 H2]. destruct (Fi _ _ H1 H2) as (F1 & F2 & F3).
    destruct (fmid_between y0 y1 F1 F2 (wf_interval_le _ _ _ _ _ W I1) F3) as (F4 & F5). pose proof (fin_nonnan _ F4) as Nh.
    destruct (wf_iter_nonnan _ _ _ _ _ W I1) as [Ny0 Ny1].
    assert (G : fgt (fmid y0 y1) y = true) by (fk; zb; lia). cbn [event_right]. rewrite G. eexists. split; [reflexivity|]. cbn [ie_y ie_left ie_right].
    split; [|right; auto].
    assert (K0 : S k0 < k) by (destruct (le_lt_dec k (S k0)) as [Q|Q]; [exfalso; apply (B0 _ Q), RL|exact Q]).
    destruct K as [->|K]; [lia|]. pose proof (wf_interval_before _ _ _ _ _ _ _ _ _ W (ltac:(lia) : k0 < k) I1 I). lia.
  - exfalso. apply (P k), RL.
Qed.

(** The conservative comparison found at [y] is still the one at [z]. *)
Lemma find_entry c y z s1 y1 o : table_wf c -> nan y = false -> nan z = false -> (key y <= key z < key y1)%Z ->
  find (fun '(_, y1, _) => fgt y1 y) (co_iter c) = Some (s1, y1, o) -> eorder c z = Some o.
Proof.
  intros W N Nz L F. pose proof (find_index (fun '(_, e, _) => fgt e y) (co_iter c)) as FI. rewrite F in FI.
  destruct FI as (i & Hi & P & M). apply iter_interval in Hi.
  edestruct (eorder_index c z i W Nz) as [E _]; [|exact Hi|lia|exact E].
  intros j s e o' Hj I. apply iter_interval in I. specialize (M j _ Hj I). cbv beta iota in M. apply iter_interval in I.
  destruct (wf_iter_nonnan _ _ _ _ _ W I) as [_ Ne]. fk. zb. lia.
Qed.

Lemma bt_insert_ev e E z i x : nan (ie_y e) = false -> Forall (fun ev => nan (ie_y ev) = false) E -> (key (ie_y e) <= key z)%Z ->
  ((ie_left e = i /\ ie_right e = x) \/ (ie_left e = x /\ ie_right e = i)) -> evset z (bt_insert e E) i x.
Proof.
  intros Ne F K H. destruct (bt_insert_mem e E) as [(ev & H1 & H2) _]. exists ev. split; [exact H1|].
  assert (NE : nan (ie_y ev) = false).
  { assert (Q : In ev (bt_insert e E) -> ev = e \/ In ev E).
    { clear. induction E as [|y E IH]; cbn [bt_insert]; [intros [<-|[]]; auto|]. destruct (ie_cmp e y); cbn [In]; intuition. }
    destruct (Q H1) as [->|Q']; [exact Ne|]. rewrite Forall_forall in F. apply F, Q'. }
  unfold ie_cmp in H2. destruct (cof_cmp (ie_y e) (ie_y ev)) eqn:C; try discriminate.
  destruct (Nat.compare (ie_left e) (ie_left ev)) eqn:C1; try discriminate. apply Nat.compare_eq in C1. apply Nat.compare_eq in H2.
  rewrite cof_cmp_key in C by assumption. apply Z.compare_eq in C. split; [lia|]. rewrite <- C1, <- H2. exact H.
Qed.

Variable tr : Prop.
Hypothesis TR_flip : tr -> forall i j, i <> j -> cmp j i = co_flip (cmp i j).
Notation Q y := (qok (evP a cmp tr y)).

(** Segments that do not end at [y]. *)
Definition act (y : f64) (x : nat) : bool := negb (feq (end_y x) y).
Lemma act_key y x : nan y = false -> live y x -> act y x = true <-> (key y < key (end_y x))%Z.
Proof. intros N (R & _ & L). destruct (reg_nonnan _ SP _ R). unfold act. fk. rewrite negb_true_iff, Z.eqb_neq. lia. Qed.

Lemma scan_right_loop_post y i rest : nan y = false -> live y i -> (key y < key (end_y i))%Z ->
  Forall (fun e => live y (le_seg e)) rest -> ~ In i (map le_seg rest) ->
  forall hb evs evs', nan hb = false -> Q y evs -> scan_right_loop y i (seg_def a i) rest hb evs = Ok evs' ->
  grows evs evs' /\
  forall z done, nan z = false -> (key y <= key z)%Z -> ~ dead z i ->
    ((key hb <= key z)%Z -> (exists x, In x done /\ evset z evs i x) \/ (exists x, In x done /\ dead z x)) ->
    forall N k R2, filter (act y) (map le_seg rest) = N ++ k :: R2 -> ~ dead z k -> ap z i k ->
      (exists x, In x (done ++ N ++ [k]) /\ evset z evs' i x) \/ (exists x, In x (done ++ N) /\ dead z x) \/ (exists m, In m N /\ ast z m k).
Proof.
  intros Ny Li Ei. pose proof (se_t _ _ _ _ _ _ _ _ SE) as T0. induction rest as [|oe rest IH]; intros F NI hb evs evs' Nh HQ; cbn [SweepModel.scan_right_loop map filter].
  - intros [= <-]. split; [apply grows_refl|]. intros z done _ _ _ _ [|? N] k R2; discriminate.
  - inversion F as [|? ? Lo F']; subst. cbn [map In] in NI. specialize (IH F' ltac:(tauto)).
    set (o := le_seg oe) in *. clearbody o. assert (D : i <> o) by (intros HH; apply NI; left; congruence).
    rewrite (seg_at_lt _ _ (live_lt _ SP _ _ Lo)). cbn [rbind]. change (py (seg_end (seg_def a o))) with (end_y o).
    unfold act at 1. destruct (feq (end_y o) y) eqn:Ee; cbn [negb]; [intros E; exact (IH hb evs evs' Nh HQ E)|].
    pose proof (feq_end _ SP _ _ Ny Lo Ee) as Eo.
    (* a segment known to be [t] to the right at [z] *)
    assert (FAR : forall z N k R2, nan z = false -> (key y <= key z)%Z -> ~ dead z i -> o :: filter (act y) (map le_seg rest) = N ++ k :: R2 -> ap z i k ->
       ~ dead z k -> (~ dead z o -> (X i z + t <= X o z)%R) -> (exists x, In x N /\ dead z x) \/ (exists m, In m N /\ ast z m k)).
    { intros z N k R2 Nz Lz Di E AP Dk FR. destruct N as [|n N]; cbn [app] in E; injection E as <- E.
      - exfalso. specialize (FR Dk). unfold OrderAbs.ap in AP. cbv beta in AP. lra.
      - destruct (edone_dec a z o) as [Do|Do]; [left; exists o; split; [left; reflexivity|exact Do]|].
        right. exists o. split; [left; reflexivity|]. specialize (FR Do). unfold OrderAbs.ast, OrderAbs.ap in *. cbv beta in *. lra. }
    destruct (flt (fadd (max_x (seg_def a i)) (fmul ftwo eps)) (min_x (seg_def a o))) eqn:Eb.
    { intros [= <-]. split; [apply grows_refl|]. intros z done Nz Lz Di _ N k R2 E Dk AP. right.
      edestruct (FAR z N k R2 Nz Lz Di E AP Dk) as [(x & H1 & H2)|H]; [|left; exists x; split; [apply in_or_app; right; exact H1|exact H2]|right; exact H].
      intros Do. apply (se_box_right _ _ _ _ _ _ _ _ SE); auto; eapply goes_later; eassumption. }
    destruct (touch_live a cmp SP CO tr TR_flip y i o Ny Li Lo D Ei Eo) as (tt & ET & HT). rewrite ET. cbn [rbind].
    destruct (reg_nonnan _ SP _ (proj1 Lo)) as [_ Neo]. destruct (fmin_nonnan _ _ Nh Neo) as [Nh1 Kh1].
    set (p := match event_right y i o tt with Some ev => (bt_insert ev evs, fmin (fmin hb (end_y o)) (ie_y ev)) | None => (evs, fmin hb (end_y o)) end).
    assert (HP : nan (snd p) = false /\ Q y (fst p) /\ grows evs (fst p) /\
      (forall z, nan z = false -> (key y <= key z)%Z -> (key (snd p) <= key z)%Z -> (key hb <= key z)%Z \/ dead z o \/ evset z (fst p) i o) /\
      (forall z, nan z = false -> (key y <= key z)%Z -> eorder (cmp i o) z = Some Right -> evset z (fst p) i o)).
    { unfold p. destruct (event_right y i o tt) as [ev|] eqn:EV; cbn [fst snd].
      - destruct (HT _ eq_refl) as [P1 P2]. destruct (fmin_nonnan _ _ Nh1 P2) as [Nh2 Kh2]. pose proof (proj2 (proj2 HQ)) as NQ.
        assert (PAIR : (ie_left ev = i /\ ie_right ev = o) \/ (ie_left ev = o /\ ie_right ev = i)).
        { clear - EV. destruct tt as [[h|h]|]; cbn in EV; [injection EV as <-; left; auto| |discriminate]. destruct (fgt h y); [injection EV as <-; right; auto|discriminate]. }
        split; [exact Nh2|]. split; [apply bt_insert_q; assumption|]. split; [apply bt_insert_mem|]. split.
        + intros z Nz Lz K. destruct (Z_le_dec (key hb) (key z)); [left; assumption|]. destruct (Z_le_dec (key (end_y o)) (key z)); [right; left; assumption|].
          right. right. apply bt_insert_ev; auto; lia.
        + intros z Nz Lz ER. destruct (touch_reports y z i o tt Ny Nz Li Lo D Lz ER ET) as (ev' & E1 & E2 & E3). rewrite EV in E1. injection E1 as <-.
          apply bt_insert_ev; assumption.
      - split; [exact Nh1|]. split; [exact HQ|]. split; [apply grows_refl|]. split.
        + intros z Nz Lz K. destruct (Z_le_dec (key hb) (key z)); [left; assumption|]. right. left. unfold edone. lia.
        + intros z Nz Lz ER. destruct (touch_reports y z i o tt Ny Nz Li Lo D Lz ER ET) as (ev' & E1 & _). congruence. }
    clearbody p. destruct p as [evs1 hb1]. cbn [fst snd] in HP. destruct HP as (Nh2 & HQ1 & G1 & HB & HE).
    (* the three ways to go on *)
    assert (REC : scan_right_loop y i (seg_def a i) rest hb1 evs1 = Ok evs' -> grows evs evs' /\
      forall z done, nan z = false -> (key y <= key z)%Z -> ~ dead z i ->
        ((key hb <= key z)%Z -> (exists x, In x done /\ evset z evs i x) \/ (exists x, In x done /\ dead z x)) ->
        forall N k R2, o :: filter (act y) (map le_seg rest) = N ++ k :: R2 -> ~ dead z k -> ap z i k ->
          (exists x, In x (done ++ N ++ [k]) /\ evset z evs' i x) \/ (exists x, In x (done ++ N) /\ dead z x) \/ (exists m, In m N /\ ast z m k)).
    { intros E. destruct (IH hb1 evs1 evs' Nh2 HQ1 E) as [G2 IH']. split; [eapply grows_trans; eassumption|].
      intros z done Nz Lz Di HH N k R2 EN Dk AP. destruct N as [|n N]; cbn [app] in EN; injection EN as <- EN.
      - left. exists o. split; [apply in_or_app; right; left; reflexivity|]. eapply evset_grows; [exact G2|]. apply HE; auto.
        apply (se_cmp _ _ _ _ _ _ _ _ SE); auto; [eapply goes_later; eassumption|eapply goes_later; eassumption].
      - destruct (IH' z (done ++ [o]) Nz Lz Di) with (N := N) (k := k) (R2 := R2) as [(x & H1 & H2)|[(x & H1 & H2)|(m & H1 & H2)]]; auto.
        + intros K. destruct (HB z Nz Lz K) as [K'|[K'|K']].
          * destruct (HH K') as [(x & H1 & H2)|(x & H1 & H2)]; [left|right]; exists x; (split; [apply in_or_app; left; exact H1|]); [eapply evset_grows; eassumption|exact H2].
          * right. exists o. split; [apply in_or_app; right; left; reflexivity|exact K'].
          * left. exists o. split; [apply in_or_app; right; left; reflexivity|exact K'].
        + left. exists x. split; [|exact H2]. rewrite <- app_assoc in H1. exact H1.
        + right. left. exists x. split; [|exact H2]. rewrite <- app_assoc in H1. exact H1.
        + right. right. exists m. split; [right; exact H1|exact H2]. }
    destruct (find (fun '(_, y1, _) => fgt y1 y) (co_iter (ccmp i o))) as [[[s1 y1] oo]|] eqn:EF; [|exact REC].
    destruct (order_eqb oo Left && fge y1 hb1) eqn:EB; [|exact REC]. apply andb_true_iff in EB. destruct EB as [EB1 EB2].
    assert (oo = Left) as -> by (destruct oo; [discriminate|discriminate|reflexivity]).
    intros [= <-]. split; [exact G1|]. intros z done Nz Lz Di HH N k R2 EN Dk AP.
    destruct (Z_le_dec (key hb1) (key z)) as [K|K].
    + destruct N as [|n N]; cbn [app] in EN; injection EN as <- EN.
      * left. exists o. split; [apply in_or_app; right; left; reflexivity|]. apply HE; auto.
        apply (se_cmp _ _ _ _ _ _ _ _ SE); auto; [eapply goes_later; eassumption|eapply goes_later; eassumption].
      * destruct (HB z Nz Lz K) as [K'|[K'|K']].
        -- destruct (HH K') as [(x & H1 & H2)|(x & H1 & H2)]; [left|right; left]; exists x; (split; [apply in_or_app; left; exact H1|]); [eapply evset_grows; eassumption|exact H2].
        -- right. left. exists o. split; [apply in_or_app; right; left; reflexivity|exact K'].
        -- left. exists o. split; [apply in_or_app; right; left; reflexivity|exact K'].
    + right. pose proof (live_table _ SP _ _ _ _ CC Li Lo D) as (Wc & _).
      assert (Ny1 : nan y1 = false). { pose proof (find_some _ _ EF) as [HI _]. apply In_nth_error in HI. destruct HI as [n Hn]. apply iter_interval in Hn. apply (wf_iter_nonnan _ _ _ _ _ Wc Hn). }
      assert (KY : (key y <= key z < key y1)%Z) by (fk; zb; lia).
      edestruct (FAR z N k R2 Nz Lz Di EN AP Dk) as [(x & H1 & H2)|H]; [|left; exists x; split; [apply in_or_app; right; exact H1|exact H2]|right; exact H].
      intros Do. apply (se_ccmp _ _ _ _ _ _ _ _ SE); auto; [eapply goes_later; eassumption|eapply goes_later; eassumption|].
      exact (find_entry _ y z _ _ _ Wc Ny Nz KY EF).
Qed.
Lemma scan_left_loop_post y i rest : nan y = false -> live y i -> (key y < key (end_y i))%Z ->
  Forall (fun e => live y (le_seg e)) rest -> ~ In i (map le_seg rest) ->
  forall hb evs evs', nan hb = false -> Q y evs -> scan_left_loop y i (seg_def a i) rest hb evs = Ok evs' ->
  grows evs evs' /\
  forall z done, nan z = false -> (key y <= key z)%Z -> ~ dead z i ->
    ((key hb <= key z)%Z -> (exists x, In x done /\ evset z evs i x) \/ (exists x, In x done /\ dead z x)) ->
    forall N k R2, filter (act y) (map le_seg rest) = N ++ k :: R2 -> ~ dead z k -> ap z k i ->
      (exists x, In x (done ++ N ++ [k]) /\ evset z evs' i x) \/ (exists x, In x (done ++ N) /\ dead z x) \/ (exists m, In m N /\ ast z k m).
Proof.
  intros Ny Li Ei. pose proof (se_t _ _ _ _ _ _ _ _ SE) as T0. induction rest as [|oe rest IH]; intros F NI hb evs evs' Nh HQ; cbn [SweepModel.scan_left_loop map filter].
  - intros [= <-]. split; [apply grows_refl|]. intros z done _ _ _ _ [|? N] k R2; discriminate.
  - inversion F as [|? ? Lo F']; subst. cbn [map In] in NI. specialize (IH F' ltac:(tauto)).
    set (o := le_seg oe) in *. clearbody o. assert (D : o <> i) by (intros HH; apply NI; left; congruence).
    rewrite (seg_at_lt _ _ (live_lt _ SP _ _ Lo)). cbn [rbind]. change (py (seg_end (seg_def a o))) with (end_y o).
    unfold act at 1. destruct (feq (end_y o) y) eqn:Ee; cbn [negb]; [intros E; exact (IH hb evs evs' Nh HQ E)|].
    pose proof (feq_end _ SP _ _ Ny Lo Ee) as Eo.
    (* a segment known to be [t] to the right at [z] *)
    assert (FAR : forall z N k R2, nan z = false -> (key y <= key z)%Z -> ~ dead z i -> o :: filter (act y) (map le_seg rest) = N ++ k :: R2 -> ap z k i ->
       ~ dead z k -> (~ dead z o -> (X o z + t <= X i z)%R) -> (exists x, In x N /\ dead z x) \/ (exists m, In m N /\ ast z k m)).
    { intros z N k R2 Nz Lz Di E AP Dk FR. destruct N as [|n N]; cbn [app] in E; injection E as <- E.
      - exfalso. specialize (FR Dk). unfold OrderAbs.ap in AP. cbv beta in AP. lra.
      - destruct (edone_dec a z o) as [Do|Do]; [left; exists o; split; [left; reflexivity|exact Do]|].
        right. exists o. split; [left; reflexivity|]. specialize (FR Do). unfold OrderAbs.ast, OrderAbs.ap in *. cbv beta in *. lra. }
    destruct (fgt (fsub (min_x (seg_def a i)) (fmul ftwo eps)) (max_x (seg_def a o))) eqn:Eb.
    { intros [= <-]. split; [apply grows_refl|]. intros z done Nz Lz Di _ N k R2 E Dk AP. right.
      edestruct (FAR z N k R2 Nz Lz Di E AP Dk) as [(x & H1 & H2)|H]; [|left; exists x; split; [apply in_or_app; right; exact H1|exact H2]|right; exact H].
      intros Do. apply (se_box_left _ _ _ _ _ _ _ _ SE); auto; eapply goes_later; eassumption. }
    destruct (touch_live a cmp SP CO tr TR_flip y o i Ny Lo Li D Eo Ei) as (tt & ET & HT). rewrite ET. cbn [rbind].
    destruct (reg_nonnan _ SP _ (proj1 Lo)) as [_ Neo]. destruct (fmin_nonnan _ _ Nh Neo) as [Nh1 Kh1].
    set (p := match event_right y o i tt with Some ev => (bt_insert ev evs, fmin (fmin hb (end_y o)) (ie_y ev)) | None => (evs, fmin hb (end_y o)) end).
    assert (HP : nan (snd p) = false /\ Q y (fst p) /\ grows evs (fst p) /\
      (forall z, nan z = false -> (key y <= key z)%Z -> (key (snd p) <= key z)%Z -> (key hb <= key z)%Z \/ dead z o \/ evset z (fst p) i o) /\
      (forall z, nan z = false -> (key y <= key z)%Z -> eorder (cmp o i) z = Some Right -> evset z (fst p) i o)).
    { unfold p. destruct (event_right y o i tt) as [ev|] eqn:EV; cbn [fst snd].
      - destruct (HT _ eq_refl) as [P1 P2]. destruct (fmin_nonnan _ _ Nh1 P2) as [Nh2 Kh2]. pose proof (proj2 (proj2 HQ)) as NQ.
        assert (PAIR : (ie_left ev = i /\ ie_right ev = o) \/ (ie_left ev = o /\ ie_right ev = i)).
        { clear - EV. destruct tt as [[h|h]|]; cbn in EV; [injection EV as <-; right; auto| |discriminate]. destruct (fgt h y); [injection EV as <-; left; auto|discriminate]. }
        split; [exact Nh2|]. split; [apply bt_insert_q; assumption|]. split; [apply bt_insert_mem|]. split.
        + intros z Nz Lz K. destruct (Z_le_dec (key hb) (key z)); [left; assumption|]. destruct (Z_le_dec (key (end_y o)) (key z)); [right; left; assumption|].
          right. right. apply bt_insert_ev; auto; lia.
        + intros z Nz Lz ER. destruct (touch_reports y z o i tt Ny Nz Lo Li D Lz ER ET) as (ev' & E1 & E2 & E3). rewrite EV in E1. injection E1 as <-.
          apply bt_insert_ev; assumption.
      - split; [exact Nh1|]. split; [exact HQ|]. split; [apply grows_refl|]. split.
        + intros z Nz Lz K. destruct (Z_le_dec (key hb) (key z)); [left; assumption|]. right. left. unfold edone. lia.
        + intros z Nz Lz ER. destruct (touch_reports y z o i tt Ny Nz Lo Li D Lz ER ET) as (ev' & E1 & _). congruence. }
    clearbody p. destruct p as [evs1 hb1]. cbn [fst snd] in HP. destruct HP as (Nh2 & HQ1 & G1 & HB & HE).
    (* the three ways to go on *)
    assert (REC : scan_left_loop y i (seg_def a i) rest hb1 evs1 = Ok evs' -> grows evs evs' /\
      forall z done, nan z = false -> (key y <= key z)%Z -> ~ dead z i ->
        ((key hb <= key z)%Z -> (exists x, In x done /\ evset z evs i x) \/ (exists x, In x done /\ dead z x)) ->
        forall N k R2, o :: filter (act y) (map le_seg rest) = N ++ k :: R2 -> ~ dead z k -> ap z k i ->
          (exists x, In x (done ++ N ++ [k]) /\ evset z evs' i x) \/ (exists x, In x (done ++ N) /\ dead z x) \/ (exists m, In m N /\ ast z k m)).
    { intros E. destruct (IH hb1 evs1 evs' Nh2 HQ1 E) as [G2 IH']. split; [eapply grows_trans; eassumption|].
      intros z done Nz Lz Di HH N k R2 EN Dk AP. destruct N as [|n N]; cbn [app] in EN; injection EN as <- EN.
      - left. exists o. split; [apply in_or_app; right; left; reflexivity|]. eapply evset_grows; [exact G2|]. apply HE; auto.
        apply (se_cmp _ _ _ _ _ _ _ _ SE); auto; [eapply goes_later; eassumption|eapply goes_later; eassumption].
      - destruct (IH' z (done ++ [o]) Nz Lz Di) with (N := N) (k := k) (R2 := R2) as [(x & H1 & H2)|[(x & H1 & H2)|(m & H1 & H2)]]; auto.
        + intros K. destruct (HB z Nz Lz K) as [K'|[K'|K']].
          * destruct (HH K') as [(x & H1 & H2)|(x & H1 & H2)]; [left|right]; exists x; (split; [apply in_or_app; left; exact H1|]); [eapply evset_grows; eassumption|exact H2].
          * right. exists o. split; [apply in_or_app; right; left; reflexivity|exact K'].
          * left. exists o. split; [apply in_or_app; right; left; reflexivity|exact K'].
        + left. exists x. split; [|exact H2]. rewrite <- app_assoc in H1. exact H1.
        + right. left. exists x. split; [|exact H2]. rewrite <- app_assoc in H1. exact H1.
        + right. right. exists m. split; [right; exact H1|exact H2]. }
    destruct (find (fun '(_, y1, _) => fgt y1 y) (co_iter (ccmp o i))) as [[[s1 y1] oo]|] eqn:EF; [|exact REC].
    destruct (order_eqb oo Left && fge y1 hb1) eqn:EB; [|exact REC]. apply andb_true_iff in EB. destruct EB as [EB1 EB2].
    assert (oo = Left) as -> by (destruct oo; [discriminate|discriminate|reflexivity]).
    intros [= <-]. split; [exact G1|]. intros z done Nz Lz Di HH N k R2 EN Dk AP.
    destruct (Z_le_dec (key hb1) (key z)) as [K|K].
    + destruct N as [|n N]; cbn [app] in EN; injection EN as <- EN.
      * left. exists o. split; [apply in_or_app; right; left; reflexivity|]. apply HE; auto.
        apply (se_cmp _ _ _ _ _ _ _ _ SE); auto; [eapply goes_later; eassumption|eapply goes_later; eassumption].
      * destruct (HB z Nz Lz K) as [K'|[K'|K']].
        -- destruct (HH K') as [(x & H1 & H2)|(x & H1 & H2)]; [left|right; left]; exists x; (split; [apply in_or_app; left; exact H1|]); [eapply evset_grows; eassumption|exact H2].
        -- right. left. exists o. split; [apply in_or_app; right; left; reflexivity|exact K'].
        -- left. exists o. split; [apply in_or_app; right; left; reflexivity|exact K'].
    + right. pose proof (live_table _ SP _ _ _ _ CC Lo Li D) as (Wc & _).
      assert (Ny1 : nan y1 = false). { pose proof (find_some _ _ EF) as [HI _]. apply In_nth_error in HI. destruct HI as [n Hn]. apply iter_interval in Hn. apply (wf_iter_nonnan _ _ _ _ _ Wc Hn). }
      assert (KY : (key y <= key z < key y1)%Z) by (fk; zb; lia).
      edestruct (FAR z N k R2 Nz Lz Di EN AP Dk) as [(x & H1 & H2)|H]; [|left; exists x; split; [apply in_or_app; right; exact H1|exact H2]|right; exact H].
      intros Do. apply (se_ccmp _ _ _ _ _ _ _ _ SE); auto; [eapply goes_later; eassumption|eapply goes_later; eassumption|].
      exact (find_entry _ y z _ _ _ Wc Ny Nz KY EF).
Qed.

Lemma evset_sym z E i x : evset z E i x -> evset z E x i.
Proof. intros (ev & H & K & P). exists ev. split; [exact H|]. split; [exact K|]. tauto. Qed.

Notation rs z := (rs (fun i => X i z) t (edone a z)).
Notation ls z := (ls (fun i => X i z) t (edone a z)).
(** [b] has been scanned both ways, with [A1] to its left and [A2] to its right. *)
Definition scanned_r (y : f64) (E : list ievent) (b : nat) (A2 : list nat) : Prop :=
  forall z, nan z = false -> (key y <= key z)%Z -> rs z (evset z E) b A2.
Definition scanned_l (y : f64) (E : list ievent) (A1 : list nat) (b : nat) : Prop :=
  forall z, nan z = false -> (key y <= key z)%Z -> ls z (evset z E) A1 b.

Lemma scanned_r_grows y E E' b A2 : grows E E' -> scanned_r y E b A2 -> scanned_r y E' b A2.
Proof. intros G H z Nz Lz. eapply rs_events; [apply H; assumption|]. intros. eapply evset_grows; eassumption. Qed.
Lemma scanned_l_grows y E E' b A1 : grows E E' -> scanned_l y E A1 b -> scanned_l y E' A1 b.
Proof. intros G H z Nz Lz. eapply ls_events; [apply H; assumption|]. intros. eapply evset_grows; eassumption. Qed.

Lemma filter_app_inv {A} (f : A -> bool) N k R2 : f k = true -> filter f N = N -> filter f (N ++ k :: R2) = N ++ k :: filter f R2.
Proof. intros H E. rewrite filter_app, E. cbn [filter]. rewrite H. reflexivity. Qed.
Lemma in_filter_false {A} (f : A -> bool) l : filter f l = l \/ exists x, In x l /\ f x = false.
Proof. destruct (first_false f l) as [H|(u & x & v & -> & _ & H)]; [left; exact H|right; exists x; split; [apply in_or_app; right; left; reflexivity|exact H]]. Qed.

Lemma act_dead y z x : nan y = false -> live y x -> (key y <= key z)%Z -> act y x = false -> edone a z x.
Proof. intros N L Lz H. unfold edone. destruct (Z_le_dec (key (end_y x)) (key z)); [assumption|]. assert (act y x = true); [|congruence]. apply act_key; auto. lia. Qed.

(** Segments ending here do not matter. *)
Lemma scanned_r_all y E b A2 : nan y = false -> Forall (live y) A2 -> scanned_r y E b (filter (act y) A2) -> scanned_r y E b A2.
Proof.
  intros N F H z Nz Lz M k R2 EQ D1 D2 AP. rewrite Forall_forall in F.
  assert (Hk : act y k = true).
  { destruct (act y k) eqn:Q; [reflexivity|]. exfalso. apply D2. apply (act_dead y); auto. apply F. rewrite EQ. apply in_or_app. right. left. reflexivity. }
  destruct (in_filter_false (act y) M) as [HM|(x & Hx & Hx')].
  - apply (H z Nz Lz M k (filter (act y) R2)); auto. rewrite EQ. apply filter_app_inv; assumption.
  - right. left. exists x. split; [exact Hx|]. apply (act_dead y); auto. apply F. rewrite EQ. apply in_or_app. left. exact Hx.
Qed.
Lemma scanned_l_all y E b A1 : nan y = false -> Forall (live y) A1 -> scanned_l y E (filter (act y) A1) b -> scanned_l y E A1 b.
Proof.
  intros N F H z Nz Lz L1 i M EQ D1 D2 AP. rewrite Forall_forall in F.
  assert (Hk : act y i = true).
  { destruct (act y i) eqn:Q; [reflexivity|]. exfalso. apply D1. apply (act_dead y); auto. apply F. rewrite EQ. apply in_or_app. right. left. reflexivity. }
  destruct (in_filter_false (act y) M) as [HM|(x & Hx & Hx')].
  - apply (H z Nz Lz (filter (act y) L1) i M); auto. rewrite EQ, filter_app. cbn [filter]. rewrite Hk, HM. reflexivity.
  - right. left. exists x. split; [exact Hx|]. apply (act_dead y); auto. apply F. rewrite EQ. apply in_or_app. right. right. exact Hx.
Qed.

Notation liveline := (liveline a).
Definition segs_of (s : sweeper) : list nat := map le_seg (sw_line s).

Lemma act_feq y e : feq (end_y (le_seg e)) y = negb (act y (le_seg e)).
Proof. unfold act. rewrite negb_involutive. reflexivity. Qed.

Lemma scan_right_post s k e s' : nan (sw_y s) = false -> liveline (sw_y s) (sw_line s) -> Q (sw_y s) (sw_int s) ->
  nth_error (sw_line s) k = Some e -> scan_right s k = Ok s' ->
  exists evs, s' = with_int s evs /\ Q (sw_y s) evs /\ grows (sw_int s) evs /\
    (act (sw_y s) (le_seg e) = true -> scanned_r (sw_y s) evs (le_seg e) (filter (act (sw_y s)) (map le_seg (skipn (S k) (sw_line s))))).
Proof.
  intros N [F ND] HQ E H. assert (Hk : k < length (sw_line s)) by (apply nth_error_Some; congruence).
  pose proof (scan_right_safe a eps cmp ccmp min_x max_x SP CO tr TR_flip s k (conj N (conj (conj F ND) HQ)) Hk) as SF. rewrite H in SF.
  destruct SF as (evs & -> & HQ'). exists evs. split; [reflexivity|]. split; [exact HQ'|].
  unfold SweepModel.scan_right, line_seg, line_get in H. rewrite E in H. cbn [orerr rbind] in H.
  assert (L : live (sw_y s) (le_seg e)) by (rewrite Forall_forall in F; apply F; eapply nth_error_In; eassumption).
  rewrite (seg_at_lt _ _ (live_lt _ SP _ _ L)) in H. cbn [rbind] in H. change (py (seg_end (seg_def a (le_seg e)))) with (end_y (le_seg e)) in H.
  rewrite act_feq in H. destruct (act (sw_y s) (le_seg e)) eqn:A; cbn [negb] in H.
  2:{ assert (HH : s = with_int s evs) by congruence. apply (f_equal sw_int) in HH. cbn [sw_int with_int] in HH. split; [|discriminate]. rewrite <- HH. apply grows_refl. }
  destruct (SweepModel.scan_right_loop a eps cmp ccmp min_x max_x (sw_y s) (le_seg e) (seg_def a (le_seg e)) (skipn (S k) (sw_line s)) (end_y (le_seg e)) (sw_int s)) as [evs'|] eqn:EL; [|discriminate].
  cbn [rbind] in H. injection H as H. assert (evs' = evs) as -> by exact H.
  destruct (reg_nonnan _ SP _ (proj1 L)) as [_ Ne]. apply act_key in A; [|assumption|assumption].
  destruct (scan_right_loop_post (sw_y s) (le_seg e) (skipn (S k) (sw_line s)) N L A (Forall_skipn _ _ _ F) (proj1 (nodup_split le_seg _ _ _ ND E)) _ _ _ Ne HQ EL) as [G P].
  split; [exact G|]. intros _ z Nz Lz M m R2 EQ D1 D2 AP.
  destruct (P z [] Nz Lz D1 (fun K => False_ind _ (D1 K)) M m R2 EQ D2 AP) as [Y|Y]; [left; exact Y|right; exact Y].
Qed.
Lemma scan_left_post s k e s' : nan (sw_y s) = false -> liveline (sw_y s) (sw_line s) -> Q (sw_y s) (sw_int s) ->
  nth_error (sw_line s) k = Some e -> scan_left s k = Ok s' ->
  exists evs, s' = with_int s evs /\ Q (sw_y s) evs /\ grows (sw_int s) evs /\
    (act (sw_y s) (le_seg e) = true -> scanned_l (sw_y s) evs (filter (act (sw_y s)) (map le_seg (firstn k (sw_line s)))) (le_seg e)).
Proof.
  intros N [F ND] HQ E H. assert (Hk : k < length (sw_line s)) by (apply nth_error_Some; congruence).
  pose proof (scan_left_safe a eps cmp ccmp min_x max_x SP CO tr TR_flip s k (conj N (conj (conj F ND) HQ)) Hk) as SF. rewrite H in SF.
  destruct SF as (evs & -> & HQ'). exists evs. split; [reflexivity|]. split; [exact HQ'|].
  unfold SweepModel.scan_left, line_seg, line_get in H. rewrite E in H. cbn [orerr rbind] in H.
  assert (L : live (sw_y s) (le_seg e)) by (rewrite Forall_forall in F; apply F; eapply nth_error_In; eassumption).
  rewrite (seg_at_lt _ _ (live_lt _ SP _ _ L)) in H. cbn [rbind] in H. change (py (seg_end (seg_def a (le_seg e)))) with (end_y (le_seg e)) in H.
  rewrite act_feq in H. destruct (act (sw_y s) (le_seg e)) eqn:A; cbn [negb] in H.
  2:{ assert (HH : s = with_int s evs) by congruence. apply (f_equal sw_int) in HH. cbn [sw_int with_int] in HH. split; [|discriminate]. rewrite <- HH. apply grows_refl. }
  destruct (SweepModel.scan_left_loop a eps cmp ccmp min_x max_x (sw_y s) (le_seg e) (seg_def a (le_seg e)) (rev (firstn k (sw_line s))) (end_y (le_seg e)) (sw_int s)) as [evs'|] eqn:EL; [|discriminate].
  cbn [rbind] in H. injection H as H. assert (evs' = evs) as -> by exact H.
  destruct (reg_nonnan _ SP _ (proj1 L)) as [_ Ne]. apply act_key in A; [|assumption|assumption].
  destruct (scan_left_loop_post (sw_y s) (le_seg e) (rev (firstn k (sw_line s))) N L A (Forall_rev (Forall_firstn _ _ _ F))
     ltac:(rewrite map_rev, <- in_rev; apply (nodup_split le_seg _ _ _ ND E)) _ _ _ Ne HQ EL) as [G P].
  split; [exact G|]. intros _ z Nz Lz L1 i M EQ D1 D2 AP.
  assert (EQ' : filter (act (sw_y s)) (map le_seg (rev (firstn k (sw_line s)))) = rev M ++ i :: rev L1).
  { rewrite map_rev, filter_rev', EQ, rev_app_distr. cbn [rev]. rewrite <- app_assoc. reflexivity. }
  destruct (P z [] Nz Lz D2 (fun K => False_ind _ (D2 K)) (rev M) i (rev L1) EQ' D1 AP) as [(x & H1 & H2)|[(x & H1 & H2)|(x & H1 & H2)]]; cbn [app] in H1.
  - left. exists x. split; [|apply evset_sym, H2]. rewrite in_app_iff, <- in_rev in H1. cbn [In] in *. tauto.
  - right. left. exists x. split; [apply in_rev, H1|exact H2].
  - right. right. exists x. split; [apply in_rev, H1|exact H2].
Qed.
Lemma scan_both_post s k e s' : nan (sw_y s) = false -> liveline (sw_y s) (sw_line s) -> Q (sw_y s) (sw_int s) ->
  nth_error (sw_line s) k = Some e -> scan_both s k = Ok s' ->
  exists evs, s' = with_int s evs /\ Q (sw_y s) evs /\ grows (sw_int s) evs /\
    (act (sw_y s) (le_seg e) = true ->
       scanned_r (sw_y s) evs (le_seg e) (filter (act (sw_y s)) (map le_seg (skipn (S k) (sw_line s)))) /\
       scanned_l (sw_y s) evs (filter (act (sw_y s)) (map le_seg (firstn k (sw_line s)))) (le_seg e)).
Proof.
  intros N L HQ E H. unfold SweepModel.scan_both in H. destruct (scan_right s k) as [s1|] eqn:E1; [|discriminate]. cbn [rbind] in H.
  destruct (scan_right_post _ _ _ _ N L HQ E E1) as (ev1 & -> & Q1 & G1 & R1).
  destruct (scan_left_post (with_int s ev1) k e s' N L Q1 E H) as (ev2 & -> & Q2 & G2 & R2). exists ev2.
  split; [reflexivity|]. split; [exact Q2|]. split; [eapply grows_trans; eassumption|]. intros A. split; [|apply R2, A].
  eapply scanned_r_grows; [exact G2|]. apply R1, A.
Qed.

(** ** The invariant *)
Definition INVS (y : f64) (E : list ievent) (A : list nat) : Prop :=
  forall z, nan z = false -> (key y <= key z)%Z -> inv (fun i => X i z) t (edone a z) (evset z E) A.
Lemma INVS_grows y E E' A : grows E E' -> INVS y E A -> INVS y E' A.
Proof. intros G H z Nz Lz. eapply inv_events; [apply H; assumption|]. intros i x _ _ Hx. eapply evset_grows; eassumption. Qed.
Lemma INVS_join y E A1 b A2 : INVS y E A1 -> INVS y E A2 -> scanned_r y E b A2 -> scanned_l y E A1 b -> INVS y E (A1 ++ b :: A2).
Proof.
  intros H1 H2 HR HL z Nz Lz. apply (inv_join (fun i => X i z) t (se_t _ _ _ _ _ _ _ _ SE) (edone a z) (edone_dec a z)); [apply H1|apply H2|apply HR|apply HL]; assumption.
Qed.
Lemma INVS_left y E A v : INVS y E (A ++ v) -> INVS y E A.
Proof. intros H z Nz Lz. eapply inv_left, H; assumption. Qed.
Lemma INVS_right y E u A : INVS y E (u ++ A) -> INVS y E A.
Proof. intros H z Nz Lz. eapply inv_right, H; assumption. Qed.
Lemma INVS_nil y E : INVS y E [].
Proof. intros z _ _. apply inv_nil. Qed.
Lemma INVS_later y y' E A : (key y <= key y')%Z -> INVS y E A -> INVS y' E A.
Proof. intros L H z Nz Lz. apply H; [exact Nz|lia]. Qed.
End S.
