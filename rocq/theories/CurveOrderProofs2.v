(** Proofs about curve comparison tables: flip, lookups and next_touch_after. *)
From Coq Require Import List Bool ZArith Lia.
From Verif Require Import F64 F64Arith CurveOrderModel CurveOrderSpec CurveOrderProofs.
Import ListNotations.

(** ** flip *)

Lemma entry_flip_flip e : entry_flip (entry_flip e) = e.
Proof. destruct e as [h []]; reflexivity. Qed.

Lemma flip_flip c : co_flip (co_flip c) = c.
Proof.
  destruct c as [s l]. unfold co_flip. cbn [co_start co_cmps]. f_equal.
  rewrite map_map. rewrite <- (map_id l) at 2. apply map_ext, entry_flip_flip.
Qed.

Lemma flip_heights c : heights (co_flip c) = heights c.
Proof. destruct c as [s l]. unfold heights, co_flip. cbn. f_equal. rewrite map_map. apply map_ext. intros [? []]; reflexivity. Qed.

Lemma flip_orders c : orders (co_flip c) = map order_flip (orders c).
Proof. destruct c as [s l]. unfold orders, co_flip. cbn. rewrite !map_map. apply map_ext. intros [? []]; reflexivity. Qed.

Definition flip_itv (i : f64 * f64 * order) := let '(s, e, o) := i in (s, e, order_flip o).

Lemma flip_iter c : co_iter (co_flip c) = map flip_itv (co_iter c).
Proof.
  destruct c as [s l]. unfold co_iter, co_flip. cbn [co_start co_cmps]. revert s.
  induction l as [|[e o] l IH]; intros s; [reflexivity|]. cbn. rewrite IH.
  destruct o; reflexivity.
Qed.

Lemma find_map {A B} (f : A -> B) p q l : (forall x, q (f x) = p x) ->
  find q (map f l) = option_map f (find p l).
Proof.
  intros H. induction l as [|x l IH]; [reflexivity|]. simpl. rewrite H.
  destruct (p x); [reflexivity|exact IH].
Qed.

Lemma skip_while_map {A B} (f : A -> B) p q l : (forall x, q (f x) = p x) ->
  skip_while q (map f l) = map f (skip_while p l).
Proof.
  intros H. induction l as [|x l IH]; [reflexivity|]. simpl. rewrite H.
  destruct (p x); [exact IH|reflexivity].
Qed.

Lemma flip_order_at c y : co_order_at (co_flip c) y = option_map order_flip (co_order_at c y).
Proof.
  unfold co_order_at. rewrite flip_iter.
  rewrite (find_map flip_itv (fun '(_, e, _) => fge e y)) by (intros [[? ?] ?]; reflexivity).
  destruct (find _ _) as [[[? ?] ?]|]; reflexivity.
Qed.

Lemma flip_entry_at c y : co_entry_at (co_flip c) y = option_map flip_itv (co_entry_at c y).
Proof.
  unfold co_entry_at. rewrite flip_iter. apply find_map. intros [[? ?] ?]; reflexivity.
Qed.

Lemma last_opt_map {A B} (f : A -> B) l : last_opt (map f l) = option_map f (last_opt l).
Proof. induction l as [|x [|y l] IH]; try reflexivity. cbn in *. exact IH. Qed.

Lemma flip_order_after c y : co_order_after (co_flip c) y = option_map order_flip (co_order_after c y).
Proof.
  unfold co_order_after. rewrite flip_iter. unfold co_flip at 1. cbn [co_cmps]. rewrite last_opt_map.
  destruct (last_opt (co_cmps c)) as [[le lo]|]; [|reflexivity]. cbn [option_map entry_flip e_end e_order].
  destruct (feq y le); [destruct lo; reflexivity|].
  rewrite (skip_while_map flip_itv (fun '(_, e, _) => fle e y)) by (intros [[? ?] ?]; reflexivity).
  rewrite (find_map flip_itv (fun '(_, _, o) => negb (order_eqb o Ish))) by (intros [[? ?] []]; reflexivity).
  destruct (find _ _) as [[[? ?] ?]|]; reflexivity.
Qed.

(** ** Intervals *)

Lemma iter_interval c i s e o : nth_error (co_iter c) i = Some (s, e, o) <-> interval c i s e o.
Proof.
  destruct c as [st l]. unfold interval, co_iter, heights, orders. cbn [co_start co_cmps].
  revert st i. induction l as [|[e1 o1] l IH]; intros st i.
  - cbn. destruct i; cbn; split; try discriminate; intros (_ & H & _); try discriminate; destruct i; discriminate.
  - destruct i as [|i]; cbn [co_iter_from nth_error map e_end e_order].
    + split; [intros H; injection H as <- <- <-; auto|intros (H1 & H2 & H3); congruence].
    + rewrite IH. reflexivity.
Qed.

Lemma iter_length c : length (co_iter c) = length (co_cmps c).
Proof.
  destruct c as [st l]. unfold co_iter. cbn. revert st.
  induction l; intros st; [reflexivity|]. cbn. rewrite IHl. reflexivity.
Qed.

Lemma wf_iter_nonnan c i s e o : table_wf c -> interval c i s e o -> nan s = false /\ nan e = false.
Proof.
  intros (_ & Hn & _) (H1 & H2 & _). rewrite Forall_forall in Hn.
  split; apply Hn; eapply nth_error_In; eassumption.
Qed.

Lemma wf_interval_le c i s e o : table_wf c -> interval c i s e o -> (key s <= key e)%Z.
Proof.
  intros Hwf Hi. destruct (wf_iter_nonnan _ _ _ _ _ Hwf Hi). destruct Hwf as (_ & _ & Hs & _).
  destruct Hi as (H1 & H2 & _). specialize (Hs _ _ _ H1 H2). cbn beta in Hs. fk. zb. assumption.
Qed.

Lemma wf_heights_mono c i j a b : table_wf c -> i <= j ->
  nth_error (heights c) i = Some a -> nth_error (heights c) j = Some b -> (key a <= key b)%Z.
Proof.
  intros (_ & Hn & Hs & _) Hij Ha. revert b. induction Hij as [|j Hij IH]; intros b Hb.
  - assert (a = b) by congruence. subst. lia.
  - destruct (nth_error (heights c) j) as [b'|] eqn:E.
    2: { apply nth_error_None in E. assert (nth_error (heights c) (S j) = None) by (apply nth_error_None; lia). congruence. }
    specialize (IH b' eq_refl). specialize (Hs _ _ _ E Hb). cbn beta in Hs.
    rewrite Forall_forall in Hn.
    assert (nan b' = false) by (apply Hn; eapply nth_error_In; eassumption).
    assert (nan b = false) by (apply Hn; eapply nth_error_In; eassumption).
    fk. zb. lia.
Qed.

(** Later intervals start at or after the end of earlier ones. *)
Lemma wf_interval_before c i j s e o s' e' o' : table_wf c -> i < j ->
  interval c i s e o -> interval c j s' e' o' -> (key e <= key s')%Z.
Proof.
  intros Hwf Hij (_ & H & _) (H' & _). eapply (wf_heights_mono c (S i) j); eauto.
Qed.

Lemma wf_alt c i s e o s' e' o' : table_wf c -> interval c i s e o -> interval c (S i) s' e' o' ->
  s' = e /\ o <> o' /\ (o = Ish \/ o' = Ish).
Proof.
  intros (_ & _ & _ & Ha) (H1 & H2 & H3) (H4 & H5 & H6). split; [congruence|].
  exact (Ha _ _ _ H3 H6).
Qed.

Lemma interval_fun c i s e o s' e' o' : interval c i s e o -> interval c i s' e' o' ->
  s = s' /\ e = e' /\ o = o'.
Proof. intros (H1 & H2 & H3) (H4 & H5 & H6). repeat split; congruence. Qed.

(** ** Finds and skips by index *)

Lemma find_index {A} (p : A -> bool) l :
  match find p l with
  | Some x => exists i, nth_error l i = Some x /\ p x = true /\
                forall j y, j < i -> nth_error l j = Some y -> p y = false
  | None => forall j y, nth_error l j = Some y -> p y = false
  end.
Proof.
  induction l as [|x l IH]; simpl.
  - intros [|j] y H; discriminate.
  - destruct (p x) eqn:E.
    + exists 0. split; [reflexivity|]. split; [exact E|]. intros j y H; lia.
    + destruct (find p l).
      * destruct IH as (i & H1 & H2 & H3). exists (S i). split; [exact H1|]. split; [exact H2|].
        intros [|j] y Hj Hy; [simpl in Hy; congruence|]. apply (H3 j); [lia|exact Hy].
      * intros [|j] y Hy; [simpl in Hy; congruence|]. apply (IH j); exact Hy.
Qed.

Lemma skip_index {A} (p : A -> bool) l : exists k, skip_while p l = skipn k l /\
  (forall j y, j < k -> nth_error l j = Some y -> p y = true) /\
  (forall y, nth_error l k = Some y -> p y = false) /\ k <= length l.
Proof.
  induction l as [|x l (k & IH1 & IH2 & IH3 & IH4)]; simpl.
  - exists 0. split; [reflexivity|]. repeat split; auto; [intros; lia|discriminate].
  - destruct (p x) eqn:E.
    + exists (S k). split; [exact IH1|]. split; [|split; [exact IH3|lia]].
      intros [|j] y Hj Hy; [simpl in Hy; congruence|]. apply (IH2 j); [lia|exact Hy].
    + exists 0. split; [reflexivity|]. split; [intros; lia|]. split; [|lia].
      intros y Hy. simpl in Hy. congruence.
Qed.

(** The first non-Left interval ending after [y], by index. *)
Lemma first_nonleft c y : table_wf c -> nan y = false ->
  exists k, skip_while (fun '(_, _, o) => order_eqb o Left)
    (skip_while (fun '(_, e, _) => fle e y) (co_iter c)) = skipn k (co_iter c) /\
  (forall j s e o, j < k -> interval c j s e o -> (key e <= key y)%Z \/ (o = Left /\ (key y < key e)%Z)) /\
  (forall s e o, interval c k s e o -> (key y < key e)%Z /\ o <> Left).
Proof.
  intros Hwf Ny.
  destruct (skip_index (fun '(_, e, _) => fle e y) (co_iter c)) as (k1 & E1 & F1 & G1 & L1).
  destruct (skip_index (fun '(_, _, o) => order_eqb o Left) (skipn k1 (co_iter c))) as (k2 & E2 & F2 & G2 & L2).
  assert (NS : forall j, nth_error (skipn k1 (co_iter c)) j = nth_error (co_iter c) (k1 + j)).
  { intros j. generalize (co_iter c) as l. clear. induction k1 as [|k IH]; intros l; [reflexivity|].
    destruct l; [destruct j; reflexivity|]. cbn. apply IH. }
  assert (AFT : forall j s e o, k1 <= j -> interval c j s e o -> (key y < key e)%Z).
  { intros j s e o Hj Hi.
    destruct (nth_error (co_iter c) k1) as [[[s1 e1] o1]|] eqn:E.
    - specialize (G1 _ eq_refl). cbn in G1. pose proof (proj1 (iter_interval _ _ _ _ _) E) as I1.
      destruct (wf_iter_nonnan _ _ _ _ _ Hwf I1). fk. zb.
      destruct I1 as (_ & I1 & _). destruct Hi as (_ & Hi & _).
      pose proof (wf_heights_mono c (S k1) (S j) e1 e Hwf ltac:(lia) I1 Hi). lia.
    - apply iter_interval in Hi. apply nth_error_None in E.
      assert (nth_error (co_iter c) j = None) by (apply nth_error_None; lia). congruence. }
  exists (k1 + k2). split; [|split].
  - rewrite E1, E2. clear. generalize (co_iter c) as l. induction k1 as [|k IH]; intros l; [reflexivity|].
    destruct l; [destruct k2; reflexivity|]. cbn. apply IH.
  - intros j s e o Hj Hi. destruct (Nat.lt_ge_cases j k1) as [H|H].
    + left. pose proof (proj2 (iter_interval _ _ _ _ _) Hi) as I1. specialize (F1 _ _ H I1). cbn in F1.
      destruct (wf_iter_nonnan _ _ _ _ _ Hwf Hi). fk. zb. exact F1.
    + right. split; [|eapply AFT; eauto]. pose proof (proj2 (iter_interval _ _ _ _ _) Hi) as I1.
      replace j with (k1 + (j - k1)) in I1 by lia. rewrite <- NS in I1.
      specialize (F2 (j - k1) _ ltac:(lia) I1). cbn in F2. destruct o; try discriminate. reflexivity.
  - intros s e o Hi. split; [eapply AFT; [|exact Hi]; lia|].
    pose proof (proj2 (iter_interval _ _ _ _ _) Hi) as I1. rewrite <- NS in I1. specialize (G2 _ I1).
    cbn in G2. intros ->. discriminate.
Qed.

Lemma skipn_nth {A} k (l : list A) : skipn k l =
  match nth_error l k with Some x => x :: skipn (S k) l | None => [] end.
Proof.
  revert l. induction k as [|k IH]; intros [|x l]; try reflexivity. cbn [skipn nth_error].
  rewrite IH. reflexivity.
Qed.

(** [first_close c y k]: interval [k] is the first non-Left one ending after [y]. *)
Definition first_at (c : curve_order) (y : f64) (k : nat) : Prop :=
  (forall j s e o, j < k -> interval c j s e o -> (key e <= key y)%Z \/ (o = Left /\ (key y < key e)%Z)) /\
  (forall s e o, interval c k s e o -> (key y < key e)%Z /\ o <> Left).

(** One unfolding of [next_touch_after] in terms of intervals. *)
Lemma next_touch_unfold fuel c y : table_wf c -> nan y = false ->
  exists k, first_at c y k /\
  ((~ (exists s e o, interval c k s e o) /\ next_touch_after (S fuel) c y = TR None) \/
   (exists s e, interval c k s e Right /\ next_touch_after (S fuel) c y = TR (Some (Cross y))) \/
   (exists s e, interval c k s e Ish /\ ~ (exists s e o, interval c (S k) s e o) /\
      next_touch_after (S fuel) c y = TR None) \/
   (exists s e s' e', interval c k s e Ish /\ interval c (S k) s' e' Right /\
      next_touch_after (S fuel) c y = TR (Some (Cross (fmid s e)))) \/
   (exists s e s' e', interval c k s e Ish /\ interval c (S k) s' e' Left /\
      next_touch_after (S fuel) c y = if flt y s then TR (Some (Touch (fmid s e))) else next_touch_after fuel c e')).
Proof.
  intros Hwf Ny. destruct (first_nonleft c y Hwf Ny) as (k & E & F1 & F2).
  exists k. split; [split; assumption|]. cbn [next_touch_after]. rewrite E. clear E.
  rewrite skipn_nth. destruct (nth_error (co_iter c) k) as [[[s e] o]|] eqn:E1.
  2: { left. split; [|reflexivity]. intros (s & e & o & Hi). apply iter_interval in Hi. congruence. }
  apply iter_interval in E1. destruct (F2 _ _ _ E1) as [_ Ho].
  destruct o; [| |congruence]; cbn [order_eqb].
  - right; left. eauto.
  - rewrite skipn_nth. destruct (nth_error (co_iter c) (S k)) as [[[s' e'] o']|] eqn:E2.
    2: { right; right; left. exists s, e. split; [exact E1|]. split; [|reflexivity].
         intros (? & ? & ? & Hi). apply iter_interval in Hi. congruence. }
    apply iter_interval in E2. destruct (wf_alt _ _ _ _ _ _ _ _ Hwf E1 E2) as (_ & Hne & _).
    destruct o'; [|congruence|].
    + right; right; right; left. exists s, e, s', e'. auto.
    + right; right; right; right. exists s, e, s', e'. auto.
Qed.

(** The number of intervals ending after [y]. *)
Definition later (c : curve_order) (y : f64) : nat :=
  length (filter (fun '(_, e, _) => flt y e) (co_iter c)).

Lemma filter_impl {A} (p q : A -> bool) l : (forall x, p x = true -> q x = true) ->
  length (filter p l) <= length (filter q l).
Proof.
  intros H. induction l as [|x l IH]; [apply le_n|]. simpl. specialize (H x).
  destruct (p x); [rewrite H by reflexivity; simpl; lia|]. destruct (q x); simpl; lia.
Qed.

Lemma filter_strict {A} (p q : A -> bool) l k x : (forall x, p x = true -> q x = true) ->
  nth_error l k = Some x -> p x = false -> q x = true ->
  length (filter p l) < length (filter q l).
Proof.
  intros H. revert k. induction l as [|z l IH]; intros [|k] Hk Hp Hq; try discriminate.
  - simpl in Hk. injection Hk as ->. simpl. rewrite Hp, Hq. simpl. pose proof (filter_impl p q l H). lia.
  - specialize (IH _ Hk Hp Hq). simpl. specialize (H z). destruct (p z); [rewrite H by reflexivity; simpl; lia|].
    destruct (q z); simpl; lia.
Qed.

Lemma later_lt c y y' k s e o : interval c k s e o -> nan y = false -> nan y' = false -> nan e = false ->
  (key y < key e <= key y')%Z -> later c y' < later c y.
Proof.
  intros Hi Ny Ny' Ne H. apply iter_interval in Hi. unfold later.
  eapply filter_strict; [|exact Hi| |].
  - intros [[? e'] ?] He. cbn beta iota in *. destruct (flt_nonnan _ _ He) as [_ ?]. fk. zb. lia.
  - cbn beta iota. fk. zb. lia.
  - cbn beta iota. fk. zb. lia.
Qed.

Lemma next_touch_post fuel : forall c y, table_wf c -> nan y = false -> later c y < fuel ->
  touch_post c y (next_touch_after fuel c y).
Proof.
  induction fuel as [|fuel IH]; intros c y Hwf Ny Hf; [lia|].
  destruct (next_touch_unfold fuel c y Hwf Ny) as (k & (F1 & F2) & H).
  assert (NR : forall j, j < k -> ~ right_later c y j).
  { intros j Hj (s & e & Hi & He & _). destruct (wf_iter_nonnan _ _ _ _ _ Hwf Hi).
    destruct (F1 _ _ _ _ Hj Hi) as [?|[? ?]]; [fk; zb; lia|discriminate]. }
  assert (END : forall m, ~ (exists s e o, interval c m s e o) -> forall j, m <= j -> ~ right_later c y j).
  { intros m Hm j Hj (s & e & Hi & _). apply iter_interval in Hi.
    destruct (nth_error (co_iter c) m) as [[[? ?] ?]|] eqn:E.
    - apply iter_interval in E. eauto.
    - apply nth_error_None in E. assert (nth_error (co_iter c) j = None) by (apply nth_error_None; lia). congruence. }
  destruct H as [(Hno & ->)|[(s & e & Hi & ->)|[(s & e & Hi & Hno & ->)|[(s & e & s' & e' & Hi & Hi' & ->)|(s & e & s' & e' & Hi & Hi' & ->)]]]].
  - intros j. destruct (Nat.lt_ge_cases j k); [apply NR; assumption|eapply END; eassumption].
  - cbn. destruct (F2 _ _ _ Hi) as [Hye _]. destruct (wf_iter_nonnan _ _ _ _ _ Hwf Hi).
    exists k, s, e. split; [exact Hi|]. split; [fk; zb; lia|]. split; [exact NR|].
    left. split; [reflexivity|]. destruct k as [|k]; [left; reflexivity|right].
    assert (exists p o, interval c k p s o) as (p & o & Hp).
    { destruct (nth_error (co_iter c) k) as [[[a b] o]|] eqn:E.
      - apply iter_interval in E. destruct (wf_alt _ _ _ _ _ _ _ _ Hwf E Hi) as (-> & _). eauto.
      - apply iter_interval in Hi. apply nth_error_None in E.
        assert (nth_error (co_iter c) (S k) = None) by (apply nth_error_None; lia). congruence. }
    destruct (wf_alt _ _ _ _ _ _ _ _ Hwf Hp Hi) as (_ & Hd & Hish).
    destruct (F1 k _ _ _ ltac:(lia) Hp) as [?|[-> ?]]; [fk; zb; lia|].
    destruct Hish; discriminate.
  - intros j. destruct (Nat.lt_ge_cases j k); [apply NR; assumption|].
    destruct (Nat.eq_dec j k) as [->|]; [|eapply END; [exact Hno|lia]].
    intros (a & b & Hi2 & _). destruct (interval_fun _ _ _ _ _ _ _ _ Hi Hi2) as (_ & _ & ?). discriminate.
  - cbn. destruct (wf_alt _ _ _ _ _ _ _ _ Hwf Hi Hi') as (-> & _).
    destruct (F2 _ _ _ Hi) as [Hye _]. destruct (wf_iter_nonnan _ _ _ _ _ Hwf Hi), (wf_iter_nonnan _ _ _ _ _ Hwf Hi').
    pose proof (wf_interval_le _ _ _ _ _ Hwf Hi').
    exists (S k), e, e'. split; [exact Hi'|]. split; [fk; zb; lia|]. split.
    + intros j Hj. destruct (Nat.eq_dec j k) as [->|]; [|apply NR; lia].
      intros (a & b & Hi2 & _). destruct (interval_fun _ _ _ _ _ _ _ _ Hi Hi2) as (_ & _ & ?). discriminate.
    + right; right. exists k, s. repeat split; try apply Hi; try reflexivity. fk. zb. lia.
  - destruct (wf_alt _ _ _ _ _ _ _ _ Hwf Hi Hi') as (-> & _).
    destruct (F2 _ _ _ Hi) as [Hye _]. destruct (wf_iter_nonnan _ _ _ _ _ Hwf Hi), (wf_iter_nonnan _ _ _ _ _ Hwf Hi').
    pose proof (wf_interval_le _ _ _ _ _ Hwf Hi'). pose proof (wf_interval_le _ _ _ _ _ Hwf Hi).
    assert (NR2 : forall j, j <= S k -> ~ right_later c y j).
    { intros j Hj. destruct (Nat.lt_ge_cases j k); [apply NR; assumption|].
      intros (a & b & Hi2 & _). assert (j = k \/ j = S k) as [->| ->] by lia.
      - destruct (interval_fun _ _ _ _ _ _ _ _ Hi Hi2) as (_ & _ & ?). discriminate.
      - destruct (interval_fun _ _ _ _ _ _ _ _ Hi' Hi2) as (_ & _ & ?). discriminate. }
    destruct (flt y s) eqn:Hys.
    { cbn. exists k, s, e, e'. split; [exact Hi|]. split; [exact Hi'|]. auto. }
    assert (HL : later c e' < fuel).
    { enough (later c e' < later c y) by lia. eapply (later_lt c y e' k s e Ish); eauto. }
    specialize (IH c e' Hwf ltac:(assumption) HL).
    (* what holds after e' holds after y *)
    assert (RL : forall j, right_later c y j -> right_later c e' j).
    { intros j Hj. destruct (Nat.le_gt_cases j (S k)); [exfalso; eapply NR2; eauto|].
      destruct Hj as (a & b & Hj & Hb & Hz). exists a, b. split; [exact Hj|]. split; [|exact Hz].
      pose proof (wf_interval_before _ _ _ _ _ _ _ _ _ Hwf H5 Hi' Hj).
      pose proof (wf_interval_le _ _ _ _ _ Hwf Hj).
      destruct (wf_iter_nonnan _ _ _ _ _ Hwf Hj). unfold zero_height in Hz. apply not_true_iff_false in Hz. fk. zb. lia. }
    destruct (next_touch_after fuel c e') as [[[h|h]|]| |]; cbn in IH |- *; try contradiction.
    + destruct IH as (i & a & b & Hr & Hb & Hnr & Hh). exists i, a, b. split; [exact Hr|].
      destruct (wf_iter_nonnan _ _ _ _ _ Hwf Hr). pose proof (wf_interval_le _ _ _ _ _ Hwf Hr).
      split; [fk; zb; lia|]. split.
      { intros j Hj Hrl. eapply Hnr; eauto. }
      assert (Hki : S k < i).
      { destruct (Nat.lt_ge_cases (S k) i); [assumption|exfalso].
        assert (key b <= key e')%Z.
        { destruct Hr as (_ & Hr & _). destruct Hi' as (_ & Hi' & _).
          eapply (wf_heights_mono c (S i) (S (S k))); eauto. lia. }
        fk. zb. lia. }
      destruct i as [|i]; [lia|].
      assert (exists p o, interval c i p a o) as (p & o & Hp).
      { destruct (nth_error (co_iter c) i) as [[[a' b'] o]|] eqn:E.
        - apply iter_interval in E. destruct (wf_alt _ _ _ _ _ _ _ _ Hwf E Hr) as (-> & _). eauto.
        - apply iter_interval in Hr. apply nth_error_None in E.
          assert (nth_error (co_iter c) (S i) = None) by (apply nth_error_None; lia). congruence. }
      assert (o = Ish).
      { destruct (wf_alt _ _ _ _ _ _ _ _ Hwf Hp Hr) as (_ & Hd & [?|?]); [assumption|discriminate]. }
      subst o. pose proof (wf_interval_le _ _ _ _ _ Hwf Hp).
      destruct (wf_iter_nonnan _ _ _ _ _ Hwf Hp).
      assert (key e' <= key p)%Z.
      { destruct (Nat.eq_dec i (S k)) as [->|].
        - destruct (interval_fun _ _ _ _ _ _ _ _ Hi' Hp) as (_ & _ & ?). discriminate.
        - eapply (wf_interval_before c (S k) i); eauto. lia. }
      destruct Hh as [(-> & [?|Ha])|[(Ha & k' & p' & Hh)|(k' & p' & Ek & Hish & Ha & ->)]].
      * discriminate.
      * right; left. split; [fk; zb; lia|]. exists i, p. split; [reflexivity|]. split; [exact Hp|].
        unfold zero_height. fk. zb. lia.
      * right; left. split; [exact Ha|]. exists k', p'. exact Hh.
      * right; right. exists k', p'. split; [exact Ek|]. split; [exact Hish|]. split; [fk; zb; lia|reflexivity].
    + destruct IH as (i & a & b & b' & Hr & Hr' & Eh & Ha & Hn). exists i, a, b, b'.
      split; [exact Hr|]. split; [exact Hr'|]. split; [exact Eh|]. split.
      * destruct (wf_iter_nonnan _ _ _ _ _ Hwf Hr). fk. zb. lia.
      * intros j Hj Hrl. eapply Hn; eauto.
    + intros i Hrl. eapply IH; eauto.
Qed.

Lemma later_le c y : later c y <= length (co_cmps c).
Proof.
  unfold later. rewrite <- iter_length. induction (co_iter c) as [|[[? ?] ?] l IH]; [apply le_n|].
  cbn. destruct (flt y f0); simpl; lia.
Qed.

Lemma co_next_touch_post c y : table_wf c -> nan y = false -> touch_post c y (co_next_touch_after c y).
Proof. intros. apply next_touch_post; auto. pose proof (later_le c y). lia. Qed.

(** Fuel does not matter once it exceeds the number of later intervals. *)
Lemma next_touch_fuel f1 : forall f2 c y, table_wf c -> nan y = false -> later c y < f1 -> later c y < f2 ->
  next_touch_after f1 c y = next_touch_after f2 c y.
Proof.
  induction f1 as [|f1 IH]; intros f2 c y Hwf Ny H1 H2; [lia|]. destruct f2 as [|f2]; [lia|].
  destruct (first_nonleft c y Hwf Ny) as (k & E & F1 & F2). cbn [next_touch_after]. rewrite E. clear E.
  rewrite skipn_nth. destruct (nth_error (co_iter c) k) as [[[s e] o]|] eqn:E1; [|reflexivity].
  destruct (order_eqb o Right); [reflexivity|].
  rewrite skipn_nth. destruct (nth_error (co_iter c) (S k)) as [[[s' e'] o']|] eqn:E2; [|reflexivity].
  destruct o'; try reflexivity. destruct (flt y s); [reflexivity|].
  apply iter_interval in E1, E2.
  destruct (wf_iter_nonnan _ _ _ _ _ Hwf E1), (wf_iter_nonnan _ _ _ _ _ Hwf E2).
  pose proof (wf_interval_le _ _ _ _ _ Hwf E2). destruct (wf_alt _ _ _ _ _ _ _ _ Hwf E1 E2) as (-> & _).
  destruct (F2 _ _ _ E1) as [? _].
  assert (later c e' < later c y) by (eapply (later_lt c y e' k s e); eauto; lia).
  apply IH; auto; lia.
Qed.
