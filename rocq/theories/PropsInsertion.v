(** C44: inserting a new segment by comparison keeps a weakly ordered sweep line weakly ordered. *)
From Coq Require Import List Bool ZArith Arith Lia Reals Lra.
From Verif Require Import F64 F64Arith TreeVecModel TreeVecSpec TreeVecMono GeomModel SegmentsModel SegmentsSpec SegmentsProofs4
  CurveOrderModel CurveOrderSpec CurveOrderProofs CurveOrderProofs2 CurveOrderProofs3 SweepModel SweepSpec SweepProofs4 PropsSegments PropsSweep.
Import ListNotations.

(** ** Specification *)

(** What the comparison of [i] with [j] says about height [y]. *)
Definition says (cmp : nat -> nat -> curve_order) (y : f64) (i j : nat) (o : order) : Prop :=
  co_order_at (cmp i j) y = Some o.

(** No segment is reported to be strictly to the right of a later one. *)
Definition weakly_ordered (cmp : nat -> nat -> curve_order) (y : f64) (l : list nat) : Prop :=
  forall i j s t, i < j -> nth_error l i = Some s -> nth_error l j = Some t -> ~ says cmp y s t Right.

(** The comparisons at height [y] between the listed segments are antisymmetric and "strictly left" is
    transitive. *)
Definition coherent (cmp : nat -> nat -> curve_order) (y : f64) (l : list nat) : Prop :=
  (forall s t, In s l -> In t l -> s <> t -> cmp t s = co_flip (cmp s t)) /\
  (forall s t u, In s l -> In t l -> In u l -> says cmp y s t Left -> says cmp y t u Left -> says cmp y s u Left).

(** [X s] is the horizontal position of segment [s] at height [y] and [tol] the tolerance: strict
    answers are right, "not to the right" means at most [tol] to the right, and the horizontal bounds kept
    with an entry leave a margin of [tol]. *)
Record agrees (cmp : nat -> nat -> curve_order) (y : f64) (line : list lentry) (new : nat) (new_x : f64) (X : nat -> R) (tol : R) : Prop := {
  ag_tol : (0 <= tol)%R;
  ag_right : forall s, In s (map le_seg line) -> says cmp y s new Right -> (X new < X s)%R;
  ag_left : forall s, In s (map le_seg line) -> says cmp y s new Left -> (X s < X new)%R;
  ag_not_right : forall s t, In s (map le_seg line) -> In t (map le_seg line) -> s <> t -> ~ says cmp y s t Right -> (X s <= X t + tol)%R;
  ag_upper : forall e, In e line -> fge new_x (le_upper e) = true -> (X (le_seg e) + tol <= X new)%R;
  ag_lower : forall e, In e line -> fge (le_lower e) new_x = true -> (X new + tol <= X (le_seg e))%R }.

(** The first interval of the table that reaches [y] extends beyond [y], unless the table ends at [y] and
    this is its last interval: no answer changes exactly at [y]. *)
Definition settled (c : curve_order) (y : f64) : Prop :=
  forall k s e o, interval c k s e o -> fge e y = true ->
    (forall j s' e' o', j < k -> interval c j s' e' o' -> fge e' y = false) ->
    flt y e = true \/ S k = length (co_cmps c).

(** ** Proofs *)
Lemma nth_error_skipn' {A} (l : list A) n k : nth_error (skipn n l) k = nth_error l (n + k).
Proof. revert l. induction n as [|n IH]; intros l; [reflexivity|]. destruct l; [destruct k; reflexivity|]. cbn. apply IH. Qed.
Section S.
Variable a : arena.
Variable cmp : nat -> nat -> curve_order.
Variable pp : (lentry -> bool) -> list lentry -> nat.
Hypothesis SO : search_ok pp.
Variable y : f64.
Variable s : nat.
Variable line : list lentry.
Let segs_ := map le_seg line.
Notation says := (says cmp y).
Hypothesis NI : ~ In s segs_.
Hypothesis ND : NoDup segs_.
Hypothesis WO : weakly_ordered cmp y segs_.
Hypothesis CH : coherent cmp y (s :: segs_).

Lemma at_in k e : nth_error line k = Some e -> In (le_seg e) segs_.
Proof. intros H. apply in_map. eapply nth_error_In, H. Qed.
Lemma at_ne k e : nth_error line k = Some e -> le_seg e <> s.
Proof. intros H E. apply NI. rewrite <- E. eapply at_in, H. Qed.
Lemma flip_says t u o : In t (s :: segs_) -> In u (s :: segs_) -> t <> u -> says t u o -> says u t (order_flip o).
Proof. intros A B N H. unfold PropsInsertion.says in *. rewrite (proj1 CH t u A B N), flip_order_at, H. reflexivity. Qed.
Lemma wo k j e f : k < j -> nth_error line k = Some e -> nth_error line j = Some f -> ~ says (le_seg e) (le_seg f) Right.
Proof. intros L A B. apply (WO k j); [exact L| |]; unfold segs_; apply map_nth_error; assumption. Qed.
Lemma at_inj j k e f : j <> k -> nth_error line j = Some e -> nth_error line k = Some f -> le_seg e <> le_seg f.
Proof.
  intros N A B E. apply N. eapply (NoDup_nth_error segs_); [exact ND| |].
  - unfold segs_. rewrite map_length. apply nth_error_Some. congruence.
  - unfold segs_. rewrite (map_nth_error _ _ _ A), (map_nth_error _ _ _ B). congruence.
Qed.

(** An entry to the left of one strictly left of the new segment is not strictly right of it. *)
Lemma before_left j k e f : j < k -> nth_error line j = Some e -> nth_error line k = Some f ->
  says (le_seg f) s Left -> ~ says (le_seg e) s Right.
Proof.
  intros L A B H R. apply (wo j k e f L A B).
  assert (R' : says s (le_seg e) Left) by (apply (flip_says _ _ Right); [right; eapply at_in, A|left; reflexivity|eapply at_ne, A|exact R]).
  assert (R2 : says (le_seg f) (le_seg e) Left).
  { apply (proj2 CH _ s _); [right; eapply at_in, B|left; reflexivity|right; eapply at_in, A|exact H|exact R']. }
  apply (flip_says _ _ Left); [right; eapply at_in, B|right; eapply at_in, A| |exact R2].
  intros E. symmetry in E. revert E. eapply (at_inj j k); [lia|exact A|exact B].
Qed.
Lemma after_right j k e f : j < k -> nth_error line j = Some e -> nth_error line k = Some f ->
  says (le_seg e) s Right -> ~ says (le_seg f) s Left.
Proof. intros L A B H R. eapply before_left; [exact L|exact A|exact B|exact R|exact H]. Qed.

Lemma loop_ok : forall rest i idx r, insertion_loop cmp y s rest i idx = Ok r ->
  (forall k, nth_error rest k = nth_error line (i + k)) -> idx <= i ->
  (forall k e, idx <= k < i -> nth_error line k = Some e -> ~ says (le_seg e) s Left) ->
  (forall k e, k < idx -> nth_error line k = Some e -> ~ says (le_seg e) s Right) ->
  (forall k e, idx <= k < i -> nth_error line k = Some e -> ~ says (le_seg e) s Right) ->
  idx <= r /\ r <= i + length rest /\
  (forall k e, r <= k -> nth_error line k = Some e -> ~ says (le_seg e) s Left) /\
  (forall k e, k < r -> nth_error line k = Some e -> ~ says (le_seg e) s Right).
Proof.
  induction rest as [|e rest IH]; intros i idx r H NR Hi NL NRt NRm; cbn [insertion_loop] in H.
  - injection H as <-. cbn [length]. split; [lia|]. split; [lia|]. split; [|exact NRt].
    intros k e Hk He. destruct (Nat.lt_ge_cases k i) as [L|L]; [eapply NL; [split; [exact Hk|exact L]|exact He]|].
    assert (B : nth_error line k = None). { replace k with (i + (k - i)) by lia. rewrite <- NR. destruct (k - i); reflexivity. } congruence.
  - assert (He : nth_error line i = Some e) by (specialize (NR 0); rewrite Nat.add_0_r in NR; rewrite <- NR; reflexivity).
    assert (NR' : forall k, nth_error rest k = nth_error line (S i + k)).
    { intros k. specialize (NR (S k)). cbn [nth_error] in NR. rewrite NR. f_equal. lia. }
    unfold order_at in H. destruct (co_order_at (cmp (le_seg e) s) y) as [o|] eqn:O; cbn [orerr rbind] in H; [|discriminate].
    destruct o.
    + injection H as <-. split; [lia|]. split; [lia|]. split; [|exact NRt].
      intros k f Hk Hf. destruct (Nat.lt_trichotomy k i) as [L|[->|L]].
      * eapply NL; [split; [exact Hk|exact L]|exact Hf].
      * rewrite He in Hf. injection Hf as <-. unfold PropsInsertion.says. congruence.
      * eapply after_right; [exact L|exact He|exact Hf|exact O].
    + destruct (order_after _ _) as [o2|]; cbn [rbind] in H; [|discriminate].
      assert (V : ~ says (le_seg e) s Left /\ ~ says (le_seg e) s Right) by (unfold PropsInsertion.says; split; congruence).
      destruct (order_eqb o2 Left).
      * apply (IH (S i) (S i)) in H; [destruct H as (A & B & C & D); split; [lia|]; split; [cbn [length]; lia|]; split; assumption|exact NR'|lia| | |].
        -- intros k f Hk. lia.
        -- intros k f Hk Hf. destruct (Nat.lt_trichotomy k i) as [L|[->|L]]; [|rewrite He in Hf; injection Hf as <-; apply V|lia].
           destruct (Nat.lt_ge_cases k idx); [eapply NRt|eapply NRm]; eauto.
        -- intros k f Hk. lia.
      * apply (IH (S i) idx) in H; [destruct H as (A & B & C & D); split; [lia|]; split; [cbn [length]; lia|]; split; assumption|exact NR'|lia| |exact NRt|].
        -- intros k f Hk Hf. destruct (Nat.eq_dec k i) as [->|]; [rewrite He in Hf; injection Hf as <-; apply V|]. eapply NL; [|exact Hf]. lia.
        -- intros k f Hk Hf. destruct (Nat.eq_dec k i) as [->|]; [rewrite He in Hf; injection Hf as <-; apply V|]. eapply NRm; [|exact Hf]. lia.
    + assert (V : ~ says (le_seg e) s Right) by (unfold PropsInsertion.says; congruence).
      apply (IH (S i) (S i)) in H; [destruct H as (A & B & C & D); split; [lia|]; split; [cbn [length]; lia|]; split; assumption|exact NR'|lia| | |].
      * intros k f Hk. lia.
      * intros k f Hk Hf. destruct (Nat.lt_trichotomy k i) as [L|[->|L]]; [|rewrite He in Hf; injection Hf as <-; exact V|lia].
        destruct (Nat.lt_ge_cases k idx); [eapply NRt|eapply NRm]; eauto.
      * intros k f Hk. lia.
Qed.

Variable X : nat -> R.
Variable tol : R.
Variable seg : segment.
Hypothesis SG : nth_error (segs a) s = Some seg.
Hypothesis AG : agrees cmp y line s (px (seg_start seg)) X tol.
Hypothesis Ny : nan y = false.
Hypothesis WF : forall t, In t segs_ -> table_wf (cmp s t).
Hypothesis ST : forall t, In t segs_ -> settled (cmp s t) y.

Lemma boxed_left j k e f : j <= k -> nth_error line j = Some e -> nth_error line k = Some f ->
  fge (px (seg_start seg)) (le_upper f) = true -> ~ says (le_seg e) s Right.
Proof.
  intros L A B H R. pose proof (ag_upper _ _ _ _ _ _ _ AG _ (nth_error_In _ _ B) H) as U.
  pose proof (ag_right _ _ _ _ _ _ _ AG _ (at_in _ _ A) R) as U2. pose proof (ag_tol _ _ _ _ _ _ _ AG) as T.
  destruct (Nat.eq_dec j k) as [->|N]; [rewrite A in B; injection B as <-; lra|].
  pose proof (ag_not_right _ _ _ _ _ _ _ AG _ _ (at_in _ _ A) (at_in _ _ B) (at_inj _ _ _ _ N A B) (wo j k e f ltac:(lia) A B)). lra.
Qed.
Lemma boxed_right j k e f : j <= k -> nth_error line j = Some e -> nth_error line k = Some f ->
  fge (le_lower e) (px (seg_start seg)) = true -> ~ says (le_seg f) s Left.
Proof.
  intros L A B H R. pose proof (ag_lower _ _ _ _ _ _ _ AG _ (nth_error_In _ _ A) H) as U.
  pose proof (ag_left _ _ _ _ _ _ _ AG _ (at_in _ _ B) R) as U2. pose proof (ag_tol _ _ _ _ _ _ _ AG) as T.
  destruct (Nat.eq_dec j k) as [->|N]; [rewrite A in B; injection B as <-; lra|].
  pose proof (ag_not_right _ _ _ _ _ _ _ AG _ _ (at_in _ _ A) (at_in _ _ B) (at_inj _ _ _ _ N A B) (wo j k e f ltac:(lia) A B)). lra.
Qed.

Lemma last_height (c : curve_order) k s0 e0 o : interval c k s0 e0 o -> S k = length (co_cmps c) -> e0 = table_end c.
Proof.
  intros (_ & Hk & _) SE. unfold table_end.
  assert (LL : length (heights c) = S (S k)) by (unfold heights; cbn; rewrite map_length; lia).
  clear - Hk LL. revert k e0 Hk LL. generalize (co_start c) as d. induction (heights c) as [|h [|h' l] IH]; intros d k e0 Hk LL; cbn in LL; [lia|lia|].
  destruct k.
  - destruct l; [|cbn in LL; lia]. cbn in Hk. injection Hk as ->. reflexivity.
  - change (last (h :: h' :: l) d) with (last (h' :: l) d). eapply IH; [exact Hk|]. cbn. cbn in LL. lia.
Qed.
(** What comes after agrees with what is now, if that is strict. *)
Lemma settled_after t o o' : In t segs_ -> co_order_at (cmp s t) y = Some o -> co_order_after (cmp s t) y = Some o' ->
  o <> Ish -> o' = o.
Proof.
  intros It H H' NIsh. pose proof (WF t It) as W. pose proof (ST t It) as SS. set (c := cmp s t) in *.
  unfold co_order_at in H. pose proof (find_index (fun '(_, e, _) => fge e y) (co_iter c)) as F.
  destruct (find _ (co_iter c)) as [[[s0 e0] o0]|] eqn:E; [|discriminate]. injection H as ->.
  destruct F as (k & Hk & Hp & Hb). apply iter_interval in Hk.
  assert (FST : forall j s' e' o', j < k -> interval c j s' e' o' -> fge e' y = false).
  { intros j s' e' o1 Hj Hi. apply iter_interval in Hi. specialize (Hb j _ Hj Hi). cbn in Hb. exact Hb. }
  pose proof (SS k s0 e0 o Hk Hp FST) as SE. pose proof (wf_end_nonnan _ W) as Ne. cbn in Hp.
  destruct (order_after_spec c y W Ny) as (o2 & E2 & D). rewrite H' in E2. injection E2 as <-.
  destruct D as [(Fe & n & sn & Hn & In_)|(Fe & D)].
  - destruct SE as [SE|SE].
    + exfalso. pose proof (interval_end_le _ _ _ _ _ W Hk) as Le.
      assert (nan e0 = false) by (destruct (flt_nonnan _ _ SE); assumption). fk. zb. lia.
    + assert (n = k) by lia. subst n. destruct (interval_fun _ _ _ _ _ _ _ _ In_ Hk) as (_ & _ & ->). reflexivity.
  - assert (SE' : flt y e0 = true).
    { destruct SE as [SE|SE]; [exact SE|]. pose proof (last_height _ _ _ _ _ Hk SE). subst e0. fk. zb. lia. }
    clear SE. destruct D as [(So & i & si & ei & Hi & Hlt & Hbef)|(-> & All)]; [|exfalso; apply NIsh; eapply All; eauto].
    destruct (Nat.lt_trichotomy k i) as [L|[->|L]].
    + exfalso. apply NIsh. eapply Hbef; eauto.
    + destruct (interval_fun _ _ _ _ _ _ _ _ Hi Hk) as (_ & _ & ->). reflexivity.
    + exfalso. assert (G := FST i _ _ _ L Hi). assert (nan ei = false) by (destruct (flt_nonnan _ _ Hlt); assumption). fk. zb. lia.
Qed.

Lemma all_order_at_ok l : all_order_at cmp y s l = Ok tt -> forall e, In e l -> co_order_at (cmp (le_seg e) s) y <> None.
Proof.
  induction l as [|e l IH]; intros H f HI; [destruct HI|]; destruct HI as [HI|HI]; cbn [all_order_at] in H; unfold order_at in H;
  destruct (co_order_at (cmp (le_seg e) s) y) eqn:E; cbn [orerr rbind] in H; try discriminate; subst; [congruence|auto].
Qed.

Lemma insertion_splits r : SweepModel.insertion_idx a cmp pp y line s = Ok r ->
  r <= length line /\
  (forall k e, r <= k -> nth_error line k = Some e -> ~ says (le_seg e) s Left) /\
  (forall k e, k < r -> nth_error line k = Some e -> ~ says (le_seg e) s Right).
Proof.
  unfold insertion_idx, seg_at. rewrite SG. cbn [orerr rbind].
  set (p := fun e => fge (px (seg_start seg)) (le_upper e)).
  pose proof (SO p line) as (Bl & Bf & Bt). set (pos := pp p line) in *.
  destruct (length line <=? pos) eqn:L.
  - apply Nat.leb_le in L. intros [= <-]. split; [lia|]. split.
    + intros k e Hk He. assert (k < length line) by (apply nth_error_Some; congruence). lia.
    + intros k e Hk He. destruct pos as [|q] eqn:Q; [lia|].
      destruct (nth_error line q) as [f|] eqn:Ef; [|apply nth_error_None in Ef; lia].
      eapply (boxed_left k q); [lia|exact He|exact Ef|]. exact (Bt q f eq_refl Ef).
  - apply Nat.leb_gt in L.
    assert (BEF : forall k e, k < pos -> nth_error line k = Some e -> ~ says (le_seg e) s Right).
    { intros k e Hk He. destruct pos as [|q]; [lia|].
      destruct (nth_error line q) as [f|] eqn:Ef; [|apply nth_error_None in Ef; lia].
      eapply (boxed_left k q); [lia|exact He|exact Ef|]. exact (Bt q f eq_refl Ef). }
    match goal with |- (rbind ?c _ = _ -> _) => destruct c as [close|] eqn:C end; cbn [rbind]; [|discriminate].
    destruct close.
    + assert (AFT : forall k e, pos < k -> nth_error line k = Some e -> ~ says (le_seg e) s Left).
      { intros k e Hk He. assert (k < length line) by (apply nth_error_Some; congruence).
        destruct (length line <=? pos + 1) eqn:L1; [apply Nat.leb_le in L1; lia|]. unfold line_get in C.
        destruct (nth_error line (pos + 1)) as [f|] eqn:Ef; cbn [orerr rbind] in C; [|discriminate]. injection C as C.
        eapply (boxed_right (pos + 1) k); [lia|exact Ef|exact He|exact C]. }
      unfold line_get. destruct (nth_error line pos) as [e|] eqn:He; cbn [orerr rbind]; [|discriminate].
      unfold order_after. destruct (co_order_after (cmp s (le_seg e)) y) as [o|] eqn:O; cbn [orerr rbind]; [|discriminate].
      assert (Q : forall o', says (le_seg e) s o' -> o' <> Ish -> o = order_flip o').
      { intros o' H' N. apply (settled_after (le_seg e)); [eapply at_in, He| |exact O|destruct o'; cbn; congruence].
        apply flip_says; [right; eapply at_in, He|left; reflexivity|eapply at_ne, He|exact H']. }
      intros H. assert (H2 : (o = Right /\ r = pos + 1) \/ (o <> Right /\ r = pos)) by (destruct o; injection H as <-; auto; right; split; congruence).
      destruct H2 as [[-> ->]|[NR ->]].
      * split; [lia|]. split; intros k f Hk Hf; [eapply AFT; [|exact Hf]; lia|].
        destruct (Nat.eq_dec k pos) as [->|]; [|eapply BEF; [|exact Hf]; lia]. rewrite He in Hf. injection Hf as <-.
        intros R. specialize (Q _ R ltac:(congruence)). discriminate.
      * split; [lia|]. split; intros k f Hk Hf; [|eapply BEF; eauto].
        destruct (Nat.eq_dec k pos) as [->|]; [|eapply AFT; [|exact Hf]; lia]. rewrite He in Hf. injection Hf as <-.
        intros R. specialize (Q _ R ltac:(congruence)). cbn in Q. congruence.
    + destruct (all_order_at cmp y s line) as [[]|] eqn:AO; cbn [rbind]; [|discriminate].
      pose proof (SO (lower_pred cmp y s) line) as (Cl & Cf & Ct). set (ss := pp (lower_pred cmp y s) line) in *. intros H.
      apply loop_ok in H; [|intros k; apply nth_error_skipn'|lia| | |].
      * destruct H as (A & B & C' & D). rewrite skipn_length in B. split; [lia|]. split; assumption.
      * intros; lia.
      * intros k e Hk He. destruct ss as [|q]; [lia|].
        destruct (nth_error line q) as [f|] eqn:Ef; [|apply nth_error_None in Ef; lia].
        pose proof (Ct q f eq_refl Ef) as Lf. unfold lower_pred in Lf.
        assert (Lf' : says (le_seg f) s Left) by (unfold PropsInsertion.says; destruct (co_order_at _ _) as [[]|]; congruence).
        destruct (Nat.eq_dec k q) as [->|]; [rewrite He in Ef; injection Ef as <-; unfold PropsInsertion.says in *; congruence|].
        eapply (before_left k q); [lia|exact He|exact Ef|exact Lf'].
      * intros; lia.
Qed.
End S.

(** C44.  [line] is the sweep line, weakly ordered at height [y]; [insertion_idx] finds index [r] for the
    segment [s] starting there.  Then [r] is a valid index, and inserting [s] there gives a weakly
    ordered line again. *)
Theorem insertion_keeps_order : forall a cmp pp y line s seg X tol r,
  search_ok pp -> nth_error (segs a) s = Some seg -> nan y = false ->
  ~ In s (map le_seg line) -> NoDup (map le_seg line) ->
  weakly_ordered cmp y (map le_seg line) ->
  coherent cmp y (s :: map le_seg line) ->
  agrees cmp y line s (px (seg_start seg)) X tol ->
  (forall t, In t (map le_seg line) -> table_wf (cmp s t) /\ settled (cmp s t) y) ->
  insertion_idx a cmp pp y line s = Ok r ->
  r <= length line /\
  weakly_ordered cmp y (firstn r (map le_seg line) ++ s :: skipn r (map le_seg line)).
Proof.
  intros a cmp pp y line s seg X tol r SO SG Ny NI ND WO CH AG W H.
  destruct (insertion_splits a cmp pp SO y s line NI ND WO CH X tol seg SG AG Ny (fun t I => proj1 (W t I)) (fun t I => proj2 (W t I)) r H) as (L & RL & LR).
  split; [exact L|]. set (l := map le_seg line) in *.
  assert (Ll : length l = length line) by apply map_length.
  assert (Lf : length (firstn r l) = r) by (rewrite firstn_length; lia).
  assert (NTH : forall k t, nth_error (firstn r l ++ s :: skipn r l) k = Some t ->
     (k < r /\ nth_error l k = Some t) \/ (k = r /\ t = s) \/ (r < k /\ nth_error l (k - 1) = Some t)).
  { intros k t Hk. destruct (Nat.lt_trichotomy k r) as [Q|[->|Q]].
    - left. split; [exact Q|]. rewrite nth_error_app1 in Hk by lia. rewrite <- (firstn_skipn r l), nth_error_app1 by lia. exact Hk.
    - right; left. rewrite nth_error_app2, Lf, Nat.sub_diag in Hk by lia. cbn in Hk. split; congruence.
    - right; right. split; [exact Q|]. rewrite nth_error_app2, Lf in Hk by lia. replace (k - r) with (S (k - r - 1)) in Hk by lia.
      cbn [nth_error] in Hk. rewrite nth_error_skipn' in Hk. rewrite <- Hk. f_equal. lia. }
  assert (ENT : forall k t, nth_error l k = Some t -> exists e, nth_error line k = Some e /\ le_seg e = t).
  { intros k t Hk. unfold l in Hk. rewrite SegmentsProofs.nth_error_map' in Hk. destruct (nth_error line k) as [e|] eqn:E; cbn in Hk; [|discriminate]. injection Hk as <-. eauto. }
  intros i j t u Hij Ht Hu. apply NTH in Ht, Hu.
  destruct Ht as [[Hi Ht]|[[Hi ->]|[Hi Ht]]], Hu as [[Hj Hu]|[[Hj ->]|[Hj Hu]]]; try lia.
  - eapply (WO i j); eauto.
  - destruct (ENT _ _ Ht) as (e & He & <-). eapply LR; eauto.
  - eapply (WO i (j - 1)); [lia|exact Ht|exact Hu].
  - destruct (ENT _ _ Hu) as (e & He & <-). intros R. eapply (RL (j - 1)); [lia|exact He|].
    assert (I : In (le_seg e) l) by (apply in_map; eapply nth_error_In, He).
    change (says cmp y (le_seg e) s (order_flip Right)).
    unfold says in *. rewrite (proj1 CH s (le_seg e)); [|left; reflexivity|right; exact I|intros ->; contradiction].
    rewrite flip_order_at, R. reflexivity.
  - eapply (WO (i - 1) (j - 1)); [lia|exact Ht|exact Hu].
Qed.
Print Assumptions insertion_keeps_order.

(** ** The hypotheses can be met *)
Section Example_.
(** Vertical segments at positions [ix_P], tolerance 1; entries 1 and 2 are closer than the tolerance. *)
Definition ix_P (i : nat) : Z := nth i [0; 10; 10; 20; 10]%Z 0%Z.
Definition ix_order (i j : nat) : order :=
  if (ix_P j + 1 <? ix_P i)%Z then Right else if (ix_P i + 1 <? ix_P j)%Z then Left else Ish.
Definition ix_cmp (i j : nat) : curve_order := mkCO fzero [mkEntry (f64_of_Z 10) (ix_order i j)].
Definition ix_arena : arena :=
  mkArena (map (fun i => let x := f64_of_Z (ix_P i) in SLine (mkPoint (f64_of_Z 0) x) (mkPoint (f64_of_Z 10) x)) [0; 1; 2; 3; 4]) [] [] [] [] [] [] [].
Definition ix_line : list lentry :=
  map (fun i => mkLE i false false (f64_of_Z (ix_P i - 1)) (f64_of_Z (ix_P i + 1)) false None None) [0; 1; 2; 3].
Lemma ix_says y i j o : fge (f64_of_Z 10) y = true -> says ix_cmp y i j o <-> ix_order i j = o.
Proof.
  intros H. unfold says, ix_cmp, co_order_at, co_iter. cbn [co_start co_cmps co_iter_from find e_end e_order]. rewrite H.
  split; [intros [= ?]; assumption|intros ->; reflexivity].
Qed.
Lemma ix_flip i j : ix_order j i = order_flip (ix_order i j).
Proof. unfold ix_order. destruct (Z.ltb_spec (ix_P j + 1) (ix_P i)), (Z.ltb_spec (ix_P i + 1) (ix_P j)); try reflexivity; lia. Qed.
Example ix_meets :
  let y := f64_of_Z 0 in
  search_ok (@scan_pp lentry) /\ nth_error (segs ix_arena) 4 = Some (SLine (mkPoint (f64_of_Z 0) (f64_of_Z 10)) (mkPoint (f64_of_Z 10) (f64_of_Z 10))) /\
  nan y = false /\ ~ In 4 (map le_seg ix_line) /\ NoDup (map le_seg ix_line) /\
  weakly_ordered ix_cmp y (map le_seg ix_line) /\ coherent ix_cmp y (4 :: map le_seg ix_line) /\
  agrees ix_cmp y ix_line 4 (f64_of_Z 10) (fun i => IZR (ix_P i)) 1%R /\
  (forall t, In t (map le_seg ix_line) -> table_wf (ix_cmp 4 t) /\ settled (ix_cmp 4 t) y) /\
  insertion_idx ix_arena ix_cmp (@scan_pp lentry) y ix_line 4 = Ok 1.
Proof.
  set (y := f64_of_Z 0). assert (G : fge (f64_of_Z 10) y = true) by (vm_compute; reflexivity).
  split; [exact scan_pp_boundary|]. split; [reflexivity|]. split; [vm_compute; reflexivity|].
  change (map le_seg ix_line) with [0; 1; 2; 3].
  split; [cbn; lia|]. split; [repeat constructor; cbn; lia|].
  split. { intros i j s t L A B R. apply (ix_says y s t Right G) in R.
    destruct i as [|[|[|[|[|i]]]]]; try discriminate A; destruct j as [|[|[|[|[|j]]]]]; try discriminate B; try lia;
    injection A as <-; injection B as <-; vm_compute in R; discriminate. }
  split. { split.
    - intros s t _ _ _. unfold ix_cmp, co_flip. cbn [co_start co_cmps map entry_flip e_end e_order]. rewrite ix_flip. reflexivity.
    - intros s t u _ _ _. rewrite !(ix_says y) by exact G. unfold ix_order.
      repeat match goal with |- context [(?x <? ?y)%Z] => destruct (Z.ltb_spec x y) end; try discriminate; try reflexivity; lia. }
  split. { split; [lra| | | | |].
    - intros s _ H. apply (ix_says y s 4 Right G) in H. apply IZR_lt. unfold ix_order in H.
      repeat match type of H with context [(?x <? ?y)%Z] => destruct (Z.ltb_spec x y) end; try discriminate; lia.
    - intros s _ H. apply (ix_says y s 4 Left G) in H. apply IZR_lt. unfold ix_order in H.
      repeat match type of H with context [(?x <? ?y)%Z] => destruct (Z.ltb_spec x y) end; try discriminate; lia.
    - intros s t _ _ _ H. rewrite (ix_says y s t Right G) in H. rewrite <- plus_IZR. apply IZR_le. unfold ix_order in H.
      destruct (Z.ltb_spec (ix_P t + 1) (ix_P s)); [contradiction H; reflexivity|lia].
    - intros e He Hu. rewrite <- plus_IZR. apply IZR_le. unfold ix_line in He. cbn [map] in He.
      destruct He as [<-|[<-|[<-|[<-|[]]]]]; cbn [le_seg le_upper] in *; try (vm_compute in Hu; discriminate); vm_compute; discriminate.
    - intros e He Hu. rewrite <- plus_IZR. apply IZR_le. unfold ix_line in He. cbn [map] in He.
      destruct He as [<-|[<-|[<-|[<-|[]]]]]; cbn [le_seg le_lower] in *; try (vm_compute in Hu; discriminate); vm_compute; discriminate. }
  split. { intros t _. split.
    - split; [discriminate|]. split; [unfold heights; cbn [co_start co_cmps map ix_cmp e_end]; constructor; [vm_compute; reflexivity|constructor; [vm_compute; reflexivity|constructor]]|].
      split.
      + intros [|[|i]] p q A B; try discriminate B. cbn in A, B. injection A as <-. injection B as <-. vm_compute. reflexivity.
      + intros [|i] p q A B; [discriminate B|destruct i; discriminate A].
    - intros [|k] p q o I H F; [right; reflexivity|]. destruct I as (_ & _ & I). destruct k; discriminate I. }
  vm_compute. reflexivity.
Qed.
End Example_.
