(** Proofs about the sweep, part 2: scanning and inserting never panic and only queue events between
    live segments. *)
From Coq Require Import List Bool ZArith Arith Lia Permutation Sorted.
From Verif Require Import F64 F64Arith TreeVecModel TreeVecSpec GeomModel SegmentsModel SegmentsSpec
  SegmentsProofs CurveOrderModel CurveOrderSpec CurveOrderProofs CurveOrderProofs2 CurveOrderProofs3
  SweepModel SweepSpec SweepProofs.
Import ListNotations.


Lemma eorder_index c y k : table_wf c -> nan y = false ->
  (forall j s e o, j < k -> interval c j s e o -> (key e <= key y)%Z) ->
  forall s e o, interval c k s e o -> (key y < key e)%Z -> eorder c y = Some o /\ co_entry_at c y = Some (s, e, o).
Proof.
  intros W N B s e o I L. pose proof (find_index (fun '(_, e, _) => fgt e y) (co_iter c)) as F.
  unfold eorder. fold (co_entry_at c y) in F. destruct (co_entry_at c y) as [[[s' e'] o']|].
  - destruct F as (i & Hi & P & M). apply iter_interval in Hi.
    destruct (wf_iter_nonnan _ _ _ _ _ W Hi) as [Ns' Ne']. destruct (wf_iter_nonnan _ _ _ _ _ W I) as [Ns Ne].
    assert (i = k) as ->.
    { destruct (lt_eq_lt_dec i k) as [[H|H]|H]; [|assumption|].
      - specialize (B _ _ _ _ H Hi). fk. zb. lia.
      - specialize (M k (s, e, o) H ltac:(now apply iter_interval)). cbv beta iota in M. fk. zb. lia. }
    destruct (interval_fun _ _ _ _ _ _ _ _ I Hi) as (-> & -> & ->). auto.
  - specialize (F k (s, e, o) ltac:(now apply iter_interval)). cbv beta iota in F.
    destruct (wf_iter_nonnan _ _ _ _ _ W I) as [Ns Ne]. fk. zb. lia.
Qed.

Section S.
Variable a : arena.
Variable eps : f64.
Variables cmp ccmp : nat -> nat -> curve_order.
Variables min_x max_x : segment -> f64.
Variable pp : (lentry -> bool) -> list lentry -> nat.

Notation scan_right_loop := (scan_right_loop a eps cmp ccmp min_x max_x).
Notation scan_left_loop := (scan_left_loop a eps cmp ccmp min_x max_x).
Notation scan_right := (scan_right a eps cmp ccmp min_x max_x).
Notation scan_left := (scan_left a eps cmp ccmp min_x max_x).
Notation scan_both := (scan_both a eps cmp ccmp min_x max_x).
Notation scan_for_removal := (scan_for_removal a eps cmp ccmp min_x max_x).
Notation insert_entry := (insert_entry a eps cmp ccmp min_x max_x).
Notation insertion_idx := (insertion_idx a cmp pp).
Notation start_y := (start_y a).
Notation end_y := (end_y a).
Notation slanted := (slanted a).
Notation registered := (SweepSpec.registered a).

Hypothesis SP : sweepable a.
Hypothesis CO : comparer_ok a cmp.
Hypothesis CC : comparer_ok a ccmp.
Hypothesis SO : search_ok pp.

(** [tr] is the additional claim that comparisons are consistent; nothing below needs it except the
    absence of one panic. *)
Variable tr : Prop.
Hypothesis TR_flip : tr -> forall i j, i <> j -> cmp j i = co_flip (cmp i j).

(** ** Results *)
Definition bad (e : err) : Prop := e = EFuel \/ (e = EEntryAt /\ ~ tr).
Definition safe {A} (r : res A) (Q : A -> Prop) : Prop :=
  match r with Ok v => Q v | Err e => bad e end.
Lemma safe_bind {A R} (r : res A) (f : A -> res R) (Q : A -> Prop) (P : R -> Prop) :
  safe r Q -> (forall v, r = Ok v -> Q v -> safe (f v) P) -> safe (rbind r f) P.
Proof. destruct r; cbn; auto. Qed.
Lemma safe_impl {A} (r : res A) (Q P : A -> Prop) : safe r Q -> (forall v, r = Ok v -> Q v -> P v) -> safe r P.
Proof. destruct r; cbn; auto. Qed.
Lemma safe_ok {A} (v : A) (Q : A -> Prop) : Q v -> safe (Ok v) Q.
Proof. auto. Qed.

(** ** Live segments *)
Notation live := (SweepSpec.live a).

Lemma registered_lt i : registered i -> i < arena_len a.
Proof.
  intros H. apply in_map_iff in H. destruct H as ([y j] & <- & H). apply (sp_enter _ SP) in H. apply H.
Qed.
Lemma seg_nonnan i : i < arena_len a -> nan (start_y i) = false /\ nan (end_y i) = false.
Proof.
  intros H. destruct (sp_finite _ SP _ H) as [[_ F1] [_ F2]]. split; apply fin_nonnan; assumption.
Qed.
Lemma reg_nonnan i : registered i -> nan (start_y i) = false /\ nan (end_y i) = false.
Proof. intros H. apply seg_nonnan, registered_lt, H. Qed.
Lemma slanted_key i : registered i -> (slanted i = true <-> (key (start_y i) < key (end_y i))%Z).
Proof.
  intros H. destruct (reg_nonnan _ H). unfold SweepSpec.slanted. rewrite flt_key by assumption. apply Z.ltb_lt.
Qed.
Lemma live_lt y i : live y i -> i < arena_len a.
Proof. intros [H _]. apply registered_lt, H. Qed.

Lemma live_table (c : nat -> nat -> curve_order) y i j : comparer_ok a c -> live y i -> live y j -> i <> j ->
  table_for a i j (c i j).
Proof.
  intros C (Ri & Si & Li) (Rj & Sj & Lj) D. destruct (reg_nonnan _ Ri), (reg_nonnan _ Rj).
  apply C; auto using registered_lt; fk; zb; lia.
Qed.

(** The end of a table. *)
Lemma table_end_key i j c : registered i -> registered j -> table_for a i j c ->
  key (table_end c) = Z.min (key (end_y i)) (key (end_y j)) /\ nan (table_end c) = false.
Proof.
  intros Ri Rj (W & E & _). destruct (reg_nonnan _ Ri) as [_ Ni], (reg_nonnan _ Rj) as [_ Nj].
  destruct (fmin_nonnan _ _ Ni Nj) as [Nm Km]. pose proof (wf_end_nonnan _ W). fk. zb. split; [lia|assumption].
Qed.

Lemma order_at_live c y i j : comparer_ok a c -> nan y = false -> live y i -> live y j -> i <> j ->
  exists o, order_at (c i j) y = Ok o /\ co_order_at (c i j) y = Some o.
Proof.
  intros C N Li Lj D. pose proof (live_table _ _ _ _ C Li Lj D) as T.
  destruct (table_end_key i j _ (proj1 Li) (proj1 Lj) T) as [K Ne]. destruct T as (W & _).
  unfold order_at. destruct (co_order_at (c i j) y) as [o|] eqn:E; [exists o; split; reflexivity|].
  apply order_at_none in E; [|assumption|assumption]. destruct Li as (_ & _ & Li), Lj as (_ & _ & Lj). fk. zb. lia.
Qed.
Lemma order_after_live c y i j : comparer_ok a c -> nan y = false -> live y i -> live y j -> i <> j ->
  exists o, order_after (c i j) y = Ok o.
Proof.
  intros C N Li Lj D. destruct (live_table _ _ _ _ C Li Lj D) as (W & _).
  destruct (order_after_spec _ y W N) as (o & E & _). exists o. unfold order_after. rewrite E. reflexivity.
Qed.

(** ** Queued events *)
Definition evP (y : f64) (ev : ievent) : Prop :=
  ie_left ev <> ie_right ev /\ live y (ie_left ev) /\ live y (ie_right ev) /\
  (key y <= key (ie_y ev) <= key (end_y (ie_left ev)))%Z /\ (key (ie_y ev) <= key (end_y (ie_right ev)))%Z /\
  (tr -> (key (ie_y ev) < key (end_y (ie_left ev)))%Z /\ (key (ie_y ev) < key (end_y (ie_right ev)))%Z /\
     eorder (cmp (ie_left ev) (ie_right ev)) (ie_y ev) <> Some Left).

Lemma heights_interval c i s e o : interval c i s e o -> In s (heights c) /\ In e (heights c).
Proof. intros (A & B & _). split; eapply nth_error_In; eassumption. Qed.

Lemma touch_live y i j : nan y = false -> live y i -> live y j -> i <> j ->
  (key y < key (end_y i))%Z -> (key y < key (end_y j))%Z ->
  exists t, touch (cmp i j) y = Ok t /\
    forall ev, event_right y i j t = Some ev -> evP y ev /\ nan (ie_y ev) = false.
Proof.
  intros N Li Lj D Ei Ej. pose proof (live_table _ _ _ _ CO Li Lj D) as T.
  destruct (table_end_key i j _ (proj1 Li) (proj1 Lj) T) as [K Ne]. destruct T as (W & _ & Fi & Z).
  pose proof (co_next_touch_post _ y W N) as P. unfold touch, event_right.
  destruct (reg_nonnan _ (proj1 Li)) as [Nsi Nei], (reg_nonnan _ (proj1 Lj)) as [Nsj Nej].
  assert (Pos : forall k s e o, interval (cmp i j) k s e o -> strict o -> (key y < key e)%Z -> (key s < key e)%Z).
  { intros k s e o I So L. destruct (Z.eq_dec (key s) (key e)) as [E|]; [|pose proof (wf_interval_le _ _ _ _ _ W I); lia].
    destruct (wf_iter_nonnan _ _ _ _ _ W I) as [Ns Nee]. specialize (Z _ _ _ _ I So ltac:(unfold zero_height; fk; zb; lia)).
    destruct (fmax_nonnan _ _ Nsi Nsj) as [Nm Km]. destruct Li as (_ & _ & Li), Lj as (_ & _ & Lj). fk. zb. lia. }
  destruct (co_next_touch_after (cmp i j) y) as [[[h|h]|]| |]; try contradiction.
  - (* Cross *)
    eexists. split; [reflexivity|]. intros ev [= <-]. cbn [ie_y ie_left ie_right].
    destruct P as (k & s & e & I & Ge & _ & P).
    destruct (wf_iter_nonnan _ _ _ _ _ W I) as [Ns Nee]. assert (Ge' : (key y < key e)%Z) by (fk; zb; lia).
    pose proof (Pos _ _ _ _ I ltac:(discriminate) Ge') as Hse.
    pose proof (interval_end_le _ _ _ _ _ W I) as He.
    assert (Hh : nan h = false /\ (key h < key e)%Z /\
       eorder (cmp i j) (fmax y h) <> Some Left).
    { destruct P as [[-> [->|Hsy]]|[[Hhs (k' & p & -> & I' & _)]|(k' & y0 & -> & I' & Gs & ->)]].
      - split; [assumption|]. split; [assumption|]. destruct (fmax_nonnan y y N N) as [Nm Km].
        edestruct (eorder_index (cmp i j) (fmax y y) 0 W Nm) as [-> _]; [intros; lia|exact I|lia|discriminate].
      - split; [assumption|]. split; [assumption|]. destruct (fmax_nonnan y y N N) as [Nm Km].
        edestruct (eorder_index (cmp i j) (fmax y y) k W Nm) as [-> _]; [|exact I|lia|discriminate].
        intros j' s' e' o' Hj I'. pose proof (wf_interval_before _ _ _ _ _ _ _ _ _ W Hj I' I). fk. zb. lia.
      - destruct (feq_nonnan _ _ Hhs) as [Nh _]. split; [assumption|]. split; [fk; zb; lia|]. destruct (fmax_nonnan y h N Nh) as [Nm Km].
        edestruct (eorder_index (cmp i j) (fmax y h) (S k') W Nm) as [-> _]; [|exact I|fk; zb; lia|discriminate].
        intros j' s' e' o' Hj I''. pose proof (wf_interval_before _ _ _ _ _ _ _ _ _ W Hj I'' I). fk. zb. lia.
      - destruct (heights_interval _ _ _ _ _ I') as [H1 H2]. destruct (Fi _ _ H1 H2) as (F1 & F2 & F3).
        destruct (fmid_between y0 s F1 F2 (wf_interval_le _ _ _ _ _ W I') F3) as (F4 & F5). pose proof (fin_nonnan _ F4) as Nh.
        split; [assumption|]. split; [lia|]. destruct (fmax_nonnan y _ N Nh) as [Nm Km].
        assert (HB : forall j' s' e' o', j' < k' -> interval (cmp i j) j' s' e' o' -> (key e' <= key (fmax y (fmid y0 s)))%Z).
        { intros j' s' e' o' Hj I''. pose proof (wf_interval_before _ _ _ _ _ _ _ _ _ W Hj I'' I'). lia. }
        destruct (Z_lt_ge_dec (key (fmax y (fmid y0 s))) (key s)) as [Hlt|Hge].
        + edestruct (eorder_index (cmp i j) (fmax y (fmid y0 s)) k' W Nm) as [-> _]; [exact HB|exact I'|exact Hlt|discriminate].
        + edestruct (eorder_index (cmp i j) (fmax y (fmid y0 s)) (S k') W Nm) as [-> _]; [|exact I|fk; zb; lia|discriminate].
          intros j' s' e' o' Hj I''. destruct (Nat.eq_dec j' k') as [->|]; [|eapply HB; [|exact I'']; lia].
          destruct (interval_fun _ _ _ _ _ _ _ _ I' I'') as (_ & <- & _). lia. }
    destruct Hh as (Nh & Hh & Ho). destruct (fmax_nonnan y h N Nh) as [Nm Km]. split; [|assumption].
    unfold evP. cbn [ie_y ie_left ie_right]. do 5 (split; [assumption || lia|]). intros _. split; [lia|]. split; [lia|exact Ho].
  - (* Touch *)
    eexists. split; [reflexivity|]. intros ev. cbv beta iota. destruct (fgt h y) eqn:G; [|intros HH; discriminate HH]. intros [= <-].
    cbn [ie_y ie_left ie_right].
    destruct P as (k & y0 & y1 & y2 & I & I2 & -> & L0 & _).
    destruct (heights_interval _ _ _ _ _ I) as [H1 H2]. destruct (Fi _ _ H1 H2) as (F1 & F2 & F3).
    destruct (fmid_between y0 y1 F1 F2 (wf_interval_le _ _ _ _ _ W I) F3) as (F4 & F5). pose proof (fin_nonnan _ F4) as Nh.
    pose proof (interval_end_le _ _ _ _ _ W I2). pose proof (wf_interval_le _ _ _ _ _ W I2).
    destruct (wf_iter_nonnan _ _ _ _ _ W I) as [Ns0 Ne0]. destruct (wf_iter_nonnan _ _ _ _ _ W I2) as [Ns2 Ne2].
    assert (L0' : (key y < key y0)%Z) by (fk; zb; lia).
    pose proof (Pos _ _ _ _ I2 ltac:(discriminate) ltac:(lia)) as H12.
    split; [|assumption]. unfold evP. cbn [ie_y ie_left ie_right].
    split; [congruence|]. do 4 (split; [assumption || lia|]). intros HT. split; [lia|]. split; [lia|].
    rewrite (TR_flip HT i j ltac:(congruence)). unfold eorder. rewrite flip_entry_at.
    assert (HB : forall j' s' e' o', j' < k -> interval (cmp i j) j' s' e' o' -> (key e' <= key (fmid y0 y1))%Z).
    { intros j' s' e' o' Hj I''. pose proof (wf_interval_before _ _ _ _ _ _ _ _ _ W Hj I'' I). lia. }
    destruct (Z_lt_ge_dec (key (fmid y0 y1)) (key y1)) as [Hlt|Hge].
    + edestruct (eorder_index (cmp i j) (fmid y0 y1) k W Nh) as [_ ->]; [exact HB|exact I|exact Hlt|discriminate].
    + edestruct (eorder_index (cmp i j) (fmid y0 y1) (S k) W Nh) as [_ ->]; [|exact I2|lia|discriminate].
      intros j' s' e' o' Hj I''. destruct (Nat.eq_dec j' k) as [->|]; [|eapply HB; [|exact I'']; lia].
      destruct (interval_fun _ _ _ _ _ _ _ _ I I'') as (_ & <- & _). lia.
  - eexists. split; [reflexivity|]. intros ev HH. discriminate HH.
Qed.

(** ** Scans *)
Definition liveline (y : f64) (l : list lentry) : Prop :=
  Forall (fun e => live y (le_seg e)) l /\ NoDup (map le_seg l).
Notation Q y := (qok (evP y)).

Lemma feq_end y i : nan y = false -> live y i -> feq (end_y i) y = false -> (key y < key (end_y i))%Z.
Proof. intros N (R & _ & L) E. destruct (reg_nonnan _ R). fk. zb. lia. Qed.

Lemma scan_right_loop_safe y i seg rest : nan y = false -> live y i -> (key y < key (end_y i))%Z ->
  Forall (fun e => live y (le_seg e)) rest -> ~ In i (map le_seg rest) ->
  forall hb evs, Q y evs -> safe (scan_right_loop y i seg rest hb evs) (Q y).
Proof.
  intros N Li Ei. induction rest as [|oe rest IH]; intros F NI hb evs HQ; cbn [SweepModel.scan_right_loop]; [exact HQ|].
  inversion F as [|? ? Lo F']; subst. cbn [map In] in NI.
  specialize (IH F' ltac:(tauto)). rewrite (seg_at_lt _ _ (live_lt _ _ Lo)). cbn [rbind].
  change (py (seg_end (seg_def a (le_seg oe)))) with (end_y (le_seg oe)).
  destruct (feq (end_y (le_seg oe)) y) eqn:Ee; [apply IH, HQ|].
  destruct (flt _ _); [exact HQ|].
  destruct (touch_live y i (le_seg oe) N Li Lo ltac:(intros HH; apply NI; left; congruence) Ei (feq_end _ _ N Lo Ee)) as (t & -> & Ht).
  cbn [rbind]. destruct (event_right y i (le_seg oe) t) as [ev|].
  - destruct (Ht _ eq_refl) as [P1 P2]. assert (HQ' := bt_insert_q _ _ _ P1 P2 HQ).
    destruct (find _ _) as [[[? y1] o]|]; [destruct (order_eqb o Left && _)|]; auto.
  - destruct (find _ _) as [[[? y1] o]|]; [destruct (order_eqb o Left && _)|]; auto.
Qed.
Lemma scan_left_loop_safe y i seg rest : nan y = false -> live y i -> (key y < key (end_y i))%Z ->
  Forall (fun e => live y (le_seg e)) rest -> ~ In i (map le_seg rest) ->
  forall hb evs, Q y evs -> safe (scan_left_loop y i seg rest hb evs) (Q y).
Proof.
  intros N Li Ei. induction rest as [|oe rest IH]; intros F NI hb evs HQ; cbn [SweepModel.scan_left_loop]; [exact HQ|].
  inversion F as [|? ? Lo F']; subst. cbn [map In] in NI.
  specialize (IH F' ltac:(tauto)). rewrite (seg_at_lt _ _ (live_lt _ _ Lo)). cbn [rbind].
  change (py (seg_end (seg_def a (le_seg oe)))) with (end_y (le_seg oe)).
  destruct (feq (end_y (le_seg oe)) y) eqn:Ee; [apply IH, HQ|].
  destruct (fgt _ _); [exact HQ|].
  destruct (touch_live y (le_seg oe) i N Lo Li ltac:(intros HH; apply NI; left; congruence) (feq_end _ _ N Lo Ee) Ei) as (t & -> & Ht).
  cbn [rbind]. destruct (event_right y (le_seg oe) i t) as [ev|].
  - destruct (Ht _ eq_refl) as [P1 P2]. assert (HQ' := bt_insert_q _ _ _ P1 P2 HQ).
    destruct (find _ _) as [[[? y1] o]|]; [destruct (order_eqb o Left && _)|]; auto.
  - destruct (find _ _) as [[[? y1] o]|]; [destruct (order_eqb o Left && _)|]; auto.
Qed.

(** A state all of whose entries are live, with a good queue. *)
Definition scanok (s : sweeper) : Prop := nan (sw_y s) = false /\ liveline (sw_y s) (sw_line s) /\ Q (sw_y s) (sw_int s).
Definition onlyq (s s' : sweeper) : Prop := exists evs, s' = with_int s evs /\ Q (sw_y s) evs.

Lemma onlyq_scanok s s' : scanok s -> onlyq s s' -> scanok s'.
Proof. intros (N & L & _) (evs & -> & HQ). repeat split; auto; try apply L; apply HQ. Qed.
Lemma onlyq_refl s : scanok s -> onlyq s s.
Proof. intros (_ & _ & HQ). exists (sw_int s). split; [destruct s; reflexivity|exact HQ]. Qed.
Lemma onlyq_trans s1 s2 s3 : onlyq s1 s2 -> onlyq s2 s3 -> onlyq s1 s3.
Proof. intros (e1 & -> & H1) (e2 & -> & H2). exists e2. split; [reflexivity|exact H2]. Qed.

Lemma nodup_split {A} (f : A -> nat) (l : list A) k x : NoDup (map f l) -> nth_error l k = Some x ->
  ~ In (f x) (map f (skipn (S k) l)) /\ ~ In (f x) (map f (firstn k l)).
Proof.
  revert k. induction l as [|y l IH]; intros [|k] ND H; cbn [nth_error] in H; try discriminate.
  - injection H as ->. inversion ND; subst. cbn. auto.
  - inversion ND; subst. destruct (IH _ H3 H) as [A1 A2]. split; [exact A1|]. cbn. intros [E|E]; [|auto].
    apply H2. rewrite E. apply in_map. eapply nth_error_In; eassumption.
Qed.
Lemma Forall_skipn {A} (P : A -> Prop) k l : Forall P l -> Forall P (skipn k l).
Proof. revert k. induction l; intros [|k] H; cbn; auto. inversion H; auto. Qed.
Lemma Forall_firstn {A} (P : A -> Prop) k l : Forall P l -> Forall P (firstn k l).
Proof. revert k. induction l; intros [|k] H; cbn; auto. inversion H; auto. Qed.

Lemma scan_right_safe s k : scanok s -> k < length (sw_line s) -> safe (scan_right s k) (onlyq s).
Proof.
  intros HS Hk. destruct HS as (N & [F ND] & HQ). unfold SweepModel.scan_right, line_seg, line_get.
  destruct (nth_error (sw_line s) k) as [e|] eqn:E; [|apply nth_error_None in E; lia]. cbn [orerr rbind].
  assert (L : live (sw_y s) (le_seg e)) by (rewrite Forall_forall in F; apply F; eapply nth_error_In; eassumption).
  rewrite (seg_at_lt _ _ (live_lt _ _ L)). cbn [rbind].
  change (py (seg_end (seg_def a (le_seg e)))) with (end_y (le_seg e)).
  destruct (feq (end_y (le_seg e)) (sw_y s)) eqn:Ee; [apply safe_ok; exists (sw_int s); split; [destruct s; reflexivity|exact HQ]|].
  eapply safe_bind.
  - apply scan_right_loop_safe; try assumption; [apply feq_end; assumption|apply Forall_skipn; assumption|].
    apply (nodup_split le_seg _ _ _ ND E).
  - intros evs _ HQ'. exists evs. split; [reflexivity|exact HQ'].
Qed.
Lemma scan_left_safe s k : scanok s -> k < length (sw_line s) -> safe (scan_left s k) (onlyq s).
Proof.
  intros HS Hk. destruct HS as (N & [F ND] & HQ). unfold SweepModel.scan_left, line_seg, line_get.
  destruct (nth_error (sw_line s) k) as [e|] eqn:E; [|apply nth_error_None in E; lia]. cbn [orerr rbind].
  assert (L : live (sw_y s) (le_seg e)) by (rewrite Forall_forall in F; apply F; eapply nth_error_In; eassumption).
  rewrite (seg_at_lt _ _ (live_lt _ _ L)). cbn [rbind].
  change (py (seg_end (seg_def a (le_seg e)))) with (end_y (le_seg e)).
  destruct (feq (end_y (le_seg e)) (sw_y s)) eqn:Ee; [apply safe_ok; exists (sw_int s); split; [destruct s; reflexivity|exact HQ]|].
  eapply safe_bind.
  - apply scan_left_loop_safe; try assumption; [apply feq_end; assumption|apply Forall_rev, Forall_firstn; assumption|].
    rewrite map_rev, <- in_rev. apply (nodup_split le_seg _ _ _ ND E).
  - intros evs _ HQ'. exists evs. split; [reflexivity|exact HQ'].
Qed.
Lemma scan_both_safe s k : scanok s -> k < length (sw_line s) -> safe (scan_both s k) (onlyq s).
Proof.
  intros HS Hk. unfold SweepModel.scan_both. eapply safe_bind; [apply scan_right_safe; assumption|].
  intros s1 _ O. pose proof (onlyq_scanok _ _ HS O) as HS1. destruct O as (e1 & -> & O1).
  eapply safe_impl; [apply scan_left_safe; [exact HS1|exact Hk]|]. intros s2 _ O2.
  eapply onlyq_trans; [|exact O2]. exists e1. auto.
Qed.
Lemma scan_removal_safe s k : scanok s -> k <= length (sw_line s) -> safe (scan_for_removal s k) (onlyq s).
Proof.
  intros HS Hk. unfold SweepModel.scan_for_removal. destruct (0 <? k) eqn:E; [|apply safe_ok, onlyq_refl, HS].
  apply Nat.ltb_lt in E. apply scan_both_safe; [exact HS|lia].
Qed.

(** ** Insertion index *)
Lemma all_order_at_live y i l : nan y = false -> live y i -> Forall (fun e => live y (le_seg e)) l ->
  ~ In i (map le_seg l) -> all_order_at cmp y i l = Ok tt.
Proof.
  intros N Li F NI. induction l as [|e l IH]; [reflexivity|]. cbn [all_order_at]. inversion F; subst. cbn [map In] in NI.
  destruct (order_at_live cmp y (le_seg e) i CO N ltac:(assumption) Li ltac:(intros HH; apply NI; left; congruence)) as (o & -> & _). cbn [rbind].
  apply IH; [assumption|tauto].
Qed.
Lemma insertion_loop_live y i : nan y = false -> live y i -> forall rest k idx n, Forall (fun e => live y (le_seg e)) rest ->
  ~ In i (map le_seg rest) -> idx <= n -> k + length rest <= n ->
  exists r, insertion_loop cmp y i rest k idx = Ok r /\ r <= n.
Proof.
  intros N Li. induction rest as [|e rest IH]; intros k idx n F NI H1 H2; cbn [insertion_loop]; [eauto|].
  inversion F; subst. cbn [map In length] in NI, H2. assert (D : le_seg e <> i) by (intros HH; apply NI; left; congruence).
  destruct (order_at_live cmp y (le_seg e) i CO N ltac:(assumption) Li D) as (o & -> & _). cbn [rbind].
  destruct o; [eauto| |apply IH; auto; lia].
  destruct (order_after_live cmp y (le_seg e) i CO N ltac:(assumption) Li D) as (o2 & ->). cbn [rbind].
  apply IH; auto; destruct (order_eqb o2 Left); lia.
Qed.
Lemma insertion_idx_live y i l : nan y = false -> live y i -> Forall (fun e => live y (le_seg e)) l ->
  ~ In i (map le_seg l) -> exists r, insertion_idx y l i = Ok r /\ r <= length l.
Proof.
  intros N Li F NI. unfold SweepModel.insertion_idx. rewrite (seg_at_lt _ _ (live_lt _ _ Li)). cbn [rbind].
  pose proof SO as B. set (p := pp _ l). pose proof (proj1 (B _ l) : p <= length l) as Hp. clearbody p.
  destruct (length l <=? p) eqn:E1; [eauto|]. apply Nat.leb_gt in E1.
  assert (HC : exists c, (if length l <=? p + 1 then Ok true
                          else do! e := line_get l (p + 1) in Ok (fge (le_lower e) (px (seg_start (seg_def a i))))) = Ok c).
  { destruct (length l <=? p + 1) eqn:E2; [eauto|]. apply Nat.leb_gt in E2. unfold line_get.
    destruct (nth_error l (p + 1)) eqn:E3; [cbn; eauto|apply nth_error_None in E3; lia]. }
  destruct HC as [c ->]. cbn [rbind]. destruct c.
  - unfold line_get. destruct (nth_error l p) as [e|] eqn:E3; [|apply nth_error_None in E3; lia]. cbn [orerr rbind].
    assert (He : In e l) by (eapply nth_error_In; eassumption).
    destruct (order_after_live cmp y i (le_seg e) CO N Li) as (o & ->).
    { rewrite Forall_forall in F. apply F, He. }
    { intros ->. apply NI, in_map, He. }
    cbn [rbind]. eexists. split; [reflexivity|]. destruct o; lia.
  - rewrite all_order_at_live by assumption. cbn [rbind]. set (q := pp _ l).
    pose proof (proj1 (B _ l) : q <= length l) as Hq. clearbody q.
    apply insertion_loop_live; [assumption|assumption|apply Forall_skipn, F| |assumption|rewrite skipn_length; lia].
    intros H. apply NI. apply in_map_iff in H. destruct H as (e & <- & H). apply in_map.
    rewrite <- (firstn_skipn q l). apply in_or_app. auto.
Qed.
End S.
