(** Proofs about curve comparison tables: lookups, skipped touches and with_y_slop. *)
From Coq Require Import List Bool ZArith Lia.
From Verif Require Import F64 F64Arith CurveOrderModel CurveOrderSpec CurveOrderProofs CurveOrderProofs2.
Import ListNotations.

(** ** Lookups *)

Lemma table_end_last c e : last_opt (co_cmps c) = Some e -> table_end c = e_end e.
Proof.
  destruct c as [s l]. cbn [co_cmps]. intros H. pose proof (last_opt_spec l) as H2. rewrite H in H2.
  destruct H2 as [l' ->]. unfold table_end, heights. cbn [co_start co_cmps]. rewrite map_app.
  cbn [map]. change (s :: map e_end l' ++ [e_end e]) with ((s :: map e_end l') ++ [e_end e]).
  rewrite last_last. reflexivity.
Qed.

Lemma interval_exists c i : i < length (co_cmps c) -> exists s e o, interval c i s e o.
Proof.
  intros H. rewrite <- iter_length in H. destruct (nth_error (co_iter c) i) as [[[s e] o]|] eqn:E.
  - apply iter_interval in E. eauto.
  - apply nth_error_None in E. lia.
Qed.

Lemma interval_lt c i s e o : interval c i s e o -> i < length (co_cmps c).
Proof. intros H. apply iter_interval in H. rewrite <- iter_length. apply nth_error_Some. congruence. Qed.

Lemma wf_last c : table_wf c -> exists n s o, length (co_cmps c) = S n /\ interval c n s (table_end c) o.
Proof.
  intros (Hne & _). pose proof (last_opt_spec (co_cmps c)) as H.
  destruct (last_opt (co_cmps c)) as [e|] eqn:E; [|contradiction].
  destruct H as [l' Hl]. exists (length l').
  assert (length (co_cmps c) = S (length l')) as Hlen by (rewrite Hl, app_length; simpl; lia).
  destruct (interval_exists c (length l')) as (s & e' & o & Hi); [lia|].
  exists s, o. split; [exact Hlen|]. enough (e' = table_end c) by congruence.
  rewrite (table_end_last _ _ E). destruct Hi as (_ & Hi & _). unfold heights in Hi. cbn [nth_error] in Hi.
  rewrite Hl, map_app in Hi. rewrite nth_error_app2 in Hi by (rewrite map_length; lia).
  rewrite map_length, Nat.sub_diag in Hi. simpl in Hi. congruence.
Qed.

Lemma wf_start_nonnan c : table_wf c -> nan (co_start c) = false.
Proof. intros (_ & H & _). unfold heights in H. inversion H; assumption. Qed.
Lemma wf_end_nonnan c : table_wf c -> nan (table_end c) = false.
Proof. intros H. destruct (wf_last c H) as (n & s & o & _ & Hi). eapply wf_iter_nonnan; eauto. Qed.

Lemma interval0_start c s e o : interval c 0 s e o -> s = co_start c.
Proof. intros (H & _). unfold heights in H. simpl in H. congruence. Qed.

Lemma interval_end_le c i s e o : table_wf c -> interval c i s e o -> (key e <= key (table_end c))%Z.
Proof.
  intros Hwf Hi. destruct (wf_last c Hwf) as (n & s' & o' & Hlen & Hl).
  pose proof (interval_lt _ _ _ _ _ Hi). destruct Hi as (_ & Hi & _), Hl as (_ & Hl & _).
  eapply (wf_heights_mono c (S i) (S n)); eauto. lia.
Qed.

Lemma interval_start_ge c i s e o : table_wf c -> interval c i s e o -> (key (co_start c) <= key s)%Z.
Proof.
  intros Hwf (Hi & _). eapply (wf_heights_mono c 0 i); eauto; lia.
Qed.

Lemma order_at_index c y : match co_order_at c y with
  | Some o => exists i s e, interval c i s e o /\ fge e y = true /\
      forall j s' e' o', j < i -> interval c j s' e' o' -> fge e' y = false
  | None => forall i s e o, interval c i s e o -> fge e y = false
  end.
Proof.
  unfold co_order_at. pose proof (find_index (fun '(_, e, _) => fge e y) (co_iter c)) as H.
  destruct (find _ _) as [[[s e] o]|].
  - destruct H as (i & H1 & H2 & H3). exists i, s, e. split; [apply iter_interval; exact H1|].
    split; [exact H2|]. intros j s' e' o' Hj Hi. apply iter_interval in Hi. apply (H3 _ _ Hj Hi).
  - intros i s e o Hi. apply iter_interval in Hi. apply (H _ _ Hi).
Qed.

(** [order_at]: the interval it answers for brackets the height. *)
Lemma order_at_brackets c y : table_wf c -> fle (co_start c) y = true -> fle y (table_end c) = true ->
  exists i s e o, co_order_at c y = Some o /\ interval c i s e o /\
    fle s y = true /\ fle y e = true /\ (i = 0 \/ flt s y = true).
Proof.
  intros Hwf H1 H2. pose proof (order_at_index c y) as H.
  destruct (fle_nonnan _ _ H1) as [_ Ny]. pose proof (wf_start_nonnan c Hwf). pose proof (wf_end_nonnan c Hwf).
  destruct (co_order_at c y) as [o|].
  - destruct H as (i & s & e & Hi & He & Hj). exists i, s, e, o. split; [reflexivity|]. split; [exact Hi|].
    destruct (wf_iter_nonnan _ _ _ _ _ Hwf Hi).
    destruct i as [|i].
    + rewrite <- (interval0_start _ _ _ _ Hi) in *. auto.
    + destruct (interval_exists c i) as (s' & e' & o' & Hi'); [apply interval_lt in Hi; lia|].
      specialize (Hj _ _ _ _ (Nat.lt_succ_diag_r _) Hi'). destruct (wf_alt _ _ _ _ _ _ _ _ Hwf Hi' Hi) as (-> & _).
      assert (flt e' y = true) by (fk; zb; lia).
      split; [fk; zb; lia|]. split; [exact He|]. right. assumption.
  - destruct (wf_last c Hwf) as (n & s & o & _ & Hl). specialize (H _ _ _ _ Hl). fk. zb. lia.
Qed.

Lemma order_at_none c y : table_wf c -> nan y = false ->
  (co_order_at c y = None <-> flt (table_end c) y = true).
Proof.
  intros Hwf Ny. pose proof (order_at_index c y) as H. pose proof (wf_end_nonnan c Hwf).
  destruct (co_order_at c y) as [o|].
  - split; [discriminate|]. intros Hlt. destruct H as (i & s & e & Hi & He & _).
    pose proof (interval_end_le _ _ _ _ _ Hwf Hi). destruct (wf_iter_nonnan _ _ _ _ _ Hwf Hi). fk. zb. lia.
  - split; [|reflexivity]. intros _. destruct (wf_last c Hwf) as (n & s & o & _ & Hl).
    specialize (H _ _ _ _ Hl). fk. zb. lia.
Qed.

(** Below the start the first interval's order is returned (no panic). *)
Lemma order_at_below c y : table_wf c -> flt y (co_start c) = true ->
  exists e o, interval c 0 (co_start c) e o /\ co_order_at c y = Some o.
Proof.
  intros Hwf Hlt. destruct (flt_nonnan _ _ Hlt) as [Ny Ns].
  destruct (interval_exists c 0) as (s & e & o & Hi); [destruct Hwf as (Hne & _); destruct (co_cmps c); [contradiction|simpl; lia]|].
  rewrite (interval0_start _ _ _ _ Hi) in Hi. exists e, o. split; [exact Hi|].
  pose proof (wf_interval_le _ _ _ _ _ Hwf Hi) as Hle. destruct (wf_iter_nonnan _ _ _ _ _ Hwf Hi).
  pose proof (order_at_index c y) as H'.
  destruct (co_order_at c y) as [o'|].
  - destruct H' as ([|i] & s' & e' & Hi' & He' & Hj).
    + destruct (interval_fun _ _ _ _ _ _ _ _ Hi Hi') as (_ & _ & ->). reflexivity.
    + specialize (Hj _ _ _ _ (Nat.lt_0_succ _) Hi). fk. zb. lia.
  - specialize (H' _ _ _ _ Hi). fk. zb. lia.
Qed.

Lemma entry_at_brackets c y : table_wf c -> fle (co_start c) y = true -> flt y (table_end c) = true ->
  exists i s e o, co_entry_at c y = Some (s, e, o) /\ interval c i s e o /\
    fle s y = true /\ flt y e = true.
Proof.
  intros Hwf H1 H2. unfold co_entry_at. pose proof (find_index (fun '(_, e, _) => fgt e y) (co_iter c)) as H.
  destruct (fle_nonnan _ _ H1) as [_ Ny]. pose proof (wf_start_nonnan c Hwf). pose proof (wf_end_nonnan c Hwf).
  destruct (find _ _) as [[[s e] o]|].
  - destruct H as (i & Hi & He & Hj). apply iter_interval in Hi.
    exists i, s, e, o. split; [reflexivity|]. split; [exact Hi|]. split; [|exact He].
    destruct (wf_iter_nonnan _ _ _ _ _ Hwf Hi).
    destruct i as [|i]; [rewrite (interval0_start _ _ _ _ Hi); exact H1|].
    destruct (interval_exists c i) as (s' & e' & o' & Hi'); [apply interval_lt in Hi; lia|].
    pose proof (proj2 (iter_interval _ _ _ _ _) Hi') as Hn. specialize (Hj _ _ (Nat.lt_succ_diag_r _) Hn).
    cbn beta iota in Hj. destruct (wf_alt _ _ _ _ _ _ _ _ Hwf Hi' Hi) as (-> & _). fk. zb. lia.
  - destruct (wf_last c Hwf) as (n & s & o & _ & Hl). apply iter_interval in Hl.
    specialize (H _ _ Hl). cbn beta iota in H. fk. zb. lia.
Qed.

Lemma entry_at_none c y : table_wf c -> nan y = false ->
  (co_entry_at c y = None <-> fle (table_end c) y = true).
Proof.
  intros Hwf Ny. unfold co_entry_at. pose proof (find_index (fun '(_, e, _) => fgt e y) (co_iter c)) as H.
  pose proof (wf_end_nonnan c Hwf).
  destruct (find _ _) as [[[s e] o]|].
  - split; [discriminate|]. intros Hle. destruct H as (i & Hi & He & _). apply iter_interval in Hi.
    pose proof (interval_end_le _ _ _ _ _ Hwf Hi). destruct (wf_iter_nonnan _ _ _ _ _ Hwf Hi). fk. zb. lia.
  - split; [|reflexivity]. intros _. destruct (wf_last c Hwf) as (n & s & o & _ & Hl).
    apply iter_interval in Hl. specialize (H _ _ Hl). cbn beta iota in H. fk. zb. lia.
Qed.

(** [order_after]. *)
Lemma order_after_spec c y : table_wf c -> nan y = false ->
  exists o, co_order_after c y = Some o /\
  ((feq y (table_end c) = true /\ exists n s, S n = length (co_cmps c) /\ interval c n s (table_end c) o) \/
   (feq y (table_end c) = false /\
    ((strict o /\ exists i s e, interval c i s e o /\ flt y e = true /\
        forall j s' e' o', j < i -> interval c j s' e' o' -> flt y e' = true -> o' = Ish) \/
     (o = Ish /\ forall i s e o', interval c i s e o' -> flt y e = true -> o' = Ish)))).
Proof.
  intros Hwf Ny. unfold co_order_after. destruct (wf_last c Hwf) as (n & s & o & Hlen & Hl).
  pose proof (last_opt_spec (co_cmps c)) as HL. destruct (last_opt (co_cmps c)) as [le|] eqn:E.
  2: { destruct Hwf as (? & _); contradiction. }
  pose proof (table_end_last _ _ E) as HE. rewrite <- HE.
  destruct (feq y (table_end c)) eqn:Hy.
  - eexists; split; [reflexivity|]. left. split; [reflexivity|]. exists n, s. split; [lia|].
    enough (e_order le = o) as -> by exact Hl.
    destruct Hl as (_ & _ & Hl). unfold orders in Hl. destruct HL as [l' HL]. rewrite HL in Hl.
    rewrite HL, app_length in Hlen. simpl in Hlen. rewrite map_app in Hl.
    rewrite nth_error_app2 in Hl by (rewrite map_length; lia). rewrite map_length in Hl.
    replace (n - length l') with 0 in Hl by lia. simpl in Hl. congruence.
  - eexists; split; [reflexivity|]. right. split; [reflexivity|].
    destruct (skip_index (fun '(_, e, _) => fle e y) (co_iter c)) as (k & E1 & F1 & G1 & L1).
    rewrite E1. pose proof (find_index (fun '(_, _, o) => negb (order_eqb o Ish)) (skipn k (co_iter c))) as H.
    assert (NS : forall j, nth_error (skipn k (co_iter c)) j = nth_error (co_iter c) (k + j)).
    { intros j. generalize (co_iter c) as l. clear. induction k as [|k IH]; intros l; [reflexivity|].
      destruct l; [destruct j; reflexivity|]. cbn. apply IH. }
    assert (AFT : forall j s e o, interval c j s e o -> k <= j -> flt y e = true).
    { intros j s1 e1 o1 Hi Hj. destruct (interval_exists c k) as (s2 & e2 & o2 & H2); [apply interval_lt in Hi; lia|].
      pose proof (proj2 (iter_interval _ _ _ _ _) H2) as H3. specialize (G1 _ H3). cbn beta iota in G1.
      destruct (wf_iter_nonnan _ _ _ _ _ Hwf Hi), (wf_iter_nonnan _ _ _ _ _ Hwf H2).
      assert (key e2 <= key e1)%Z. { destruct Hi as (_ & Hi & _), H2 as (_ & H2 & _). eapply (wf_heights_mono c (S k) (S j)); eauto. lia. }
      fk. zb. lia. }
    assert (BEF : forall j s e o, interval c j s e o -> flt y e = true -> k <= j).
    { intros j s1 e1 o1 Hi He. destruct (Nat.le_gt_cases k j); [assumption|].
      pose proof (proj2 (iter_interval _ _ _ _ _) Hi) as H3. specialize (F1 _ _ H0 H3). cbn beta iota in F1.
      destruct (wf_iter_nonnan _ _ _ _ _ Hwf Hi). fk. zb. lia. }
    destruct (find _ (skipn k (co_iter c))) as [[[s1 e1] o1]|].
    + left. destruct H as (i & Hi & Ho & Hj). rewrite NS in Hi. apply iter_interval in Hi.
      split; [intros ->; discriminate|]. exists (k + i), s1, e1. split; [exact Hi|].
      split; [eapply AFT; [exact Hi|lia]|]. intros j s' e' o' Hlt Hj' He'.
      pose proof (BEF _ _ _ _ Hj' He'). pose proof (proj2 (iter_interval _ _ _ _ _) Hj') as H3.
      specialize (Hj (j - k) (s', e', o')). rewrite NS in Hj. replace (k + (j - k)) with j in Hj by lia.
      specialize (Hj ltac:(lia) H3). cbn beta iota in Hj. destruct o'; try discriminate. reflexivity.
    + right. split; [reflexivity|]. intros i s' e' o' Hi He.
      pose proof (BEF _ _ _ _ Hi He). pose proof (proj2 (iter_interval _ _ _ _ _) Hi) as H3.
      specialize (H (i - k) (s', e', o')). rewrite NS in H. replace (k + (i - k)) with i in H by lia.
      specialize (H H3). cbn beta iota in H. destruct o'; try discriminate. reflexivity.
Qed.

(** ** Touches skipped from inside a close interval *)

Lemma first_at_unique c y k i s e o : table_wf c -> nan y = false -> first_at c y k ->
  interval c i s e o -> o <> Left -> (key s <= key y < key e)%Z -> k = i.
Proof.
  intros Hwf Ny (F1 & F2) Hi Ho Hy.
  destruct (Nat.lt_trichotomy k i) as [H|[H|H]]; [|exact H|].
  - destruct (interval_exists c k) as (s' & e' & o' & Hk); [apply interval_lt in Hi; lia|].
    destruct (F2 _ _ _ Hk). pose proof (wf_interval_before _ _ _ _ _ _ _ _ _ Hwf H Hk Hi). lia.
  - destruct (F1 _ _ _ _ H Hi) as [?|[? _]]; [lia|contradiction].
Qed.

Lemma no_touch_from_close fuel : forall c y i s e, table_wf c -> nan y = false ->
  (forall j s e, interval c j s e Ish -> ~ zero_height s e) ->
  interval c i s e Ish -> (key s <= key y < key e)%Z ->
  forall h, next_touch_after fuel c y <> TR (Some (Touch h)).
Proof.
  induction fuel as [|fuel IH]; intros c y i s e Hwf Ny Hpos Hi Hy h; [discriminate|].
  destruct (next_touch_unfold fuel c y Hwf Ny) as (k & F & H).
  assert (k = i) as -> by (eapply first_at_unique; eauto; discriminate). clear F.
  destruct H as [(_ & ->)|[(? & ? & _ & ->)|[(? & ? & _ & _ & ->)|[(? & ? & ? & ? & _ & _ & ->)|(s1 & e1 & s' & e' & Hi1 & Hi' & ->)]]]]; try discriminate.
  destruct (interval_fun _ _ _ _ _ _ _ _ Hi Hi1) as (<- & <- & _).
  destruct (wf_iter_nonnan _ _ _ _ _ Hwf Hi), (wf_iter_nonnan _ _ _ _ _ Hwf Hi').
  assert (flt y s = false) as -> by (fk; zb; lia).
  destruct (nth_error (co_iter c) (S (S i))) as [[[s2 e2] o2]|] eqn:E2.
  - apply iter_interval in E2. destruct (wf_alt _ _ _ _ _ _ _ _ Hwf Hi' E2) as (-> & _ & [?|Ho]); [discriminate|]. subst o2.
    apply (IH c e' (S (S i)) e' e2 Hwf); auto.
    pose proof (Hpos _ _ _ E2) as Hz. pose proof (wf_interval_le _ _ _ _ _ Hwf E2).
    destruct (wf_iter_nonnan _ _ _ _ _ Hwf E2). unfold zero_height in Hz. apply not_true_iff_false in Hz. fk. zb. lia.
  - (* nothing after the Left interval *)
    destruct fuel as [|fuel]; [discriminate|].
    destruct (next_touch_unfold fuel c e' Hwf ltac:(assumption)) as (k & (F1 & F2) & H').
    assert (Hk : S i < k).
    { destruct (Nat.lt_ge_cases (S i) k); [assumption|exfalso].
      destruct (interval_exists c k) as (s3 & e3 & o3 & H4'); [apply interval_lt in Hi'; lia|].
      destruct (F2 _ _ _ H4'). destruct H4' as (_ & H4' & _), Hi' as (_ & Hi' & _).
      pose proof (wf_heights_mono c (S k) (S (S i)) _ _ Hwf ltac:(lia) H4' Hi'). lia. }
    assert (NO : ~ exists s e o, interval c k s e o).
    { intros (? & ? & ? & Hk'). apply interval_lt in Hk'. rewrite <- iter_length in Hk'.
      apply nth_error_None in E2. lia. }
    destruct H' as [(_ & ->)|[(? & ? & ? & ->)|[(? & ? & ? & _ & ->)|[(? & ? & ? & ? & ? & _ & ->)|(? & ? & ? & ? & ? & _ & _)]]]]; try discriminate; exfalso; eauto.
Qed.

(** ** with_y_slop *)

Section Slop.
Variables (S0 E slop : f64).
Hypothesis NS0 : nan S0 = false.
Hypothesis NE : nan E = false.
Hypothesis Fslop : fin slop = true.
Hypothesis Gslop : fle fzero slop = true.

Definition nse (s : f64) := if feq s S0 then s else fadd s slop.
Definition nee (e : f64) := if feq e E then e else fsub e slop.

Lemma nse_ok s : nan s = false -> nan (nse s) = false /\ (key s <= key (nse s))%Z.
Proof.
  intros H. unfold nse. destruct (feq s S0); [split; [assumption|lia]|]. apply fadd_ge; assumption.
Qed.
Lemma nee_ok e : nan e = false -> nan (nee e) = false /\ (key (nee e) <= key e)%Z.
Proof.
  intros H. unfold nee. destruct (feq e E); [split; [assumption|lia]|]. apply fsub_le; assumption.
Qed.

Definition contrib (i : f64 * f64 * order) : list entry :=
  let '(s, e, o) := i in
  if negb (order_eqb o Ish) then
    if flt (nse s) (nee e) then
      (if fne (nse s) S0 then [mkEntry (nse s) Ish] else []) ++ [mkEntry (nee e) o]
    else []
  else [].

Lemma slop_fold L acc : fold_left (slop_step S0 E slop) L acc = acc ++ flat_map contrib L.
Proof.
  revert acc. induction L as [|[[s e] o] L IH]; intros acc; [rewrite app_nil_r; reflexivity|].
  cbn [fold_left flat_map]. rewrite IH. rewrite app_assoc. f_equal.
  unfold slop_step, contrib. fold (nee e). fold (nse s).
  destruct (negb (order_eqb o Ish)); [|rewrite app_nil_r; reflexivity].
  destruct (flt (nse s) (nee e)); [|rewrite app_nil_r; reflexivity].
  destruct (fne (nse s) S0); rewrite <- ?app_assoc; reflexivity.
Qed.

(** A chained list of intervals from [s]. *)
Fixpoint chained (s : f64) (L : list (f64 * f64 * order)) : Prop :=
  match L with
  | [] => True
  | (a, e, _) :: L' => a = s /\ nan e = false /\ (key s <= key e)%Z /\ (key e <= key E)%Z /\ chained e L'
  end.

Definition Rok (s : f64) (R : list entry) : Prop :=
  Forall (fun e => nan (e_end e) = false /\ (key s <= key (e_end e) <= key E)%Z) R /\
  nondecreasing (map e_end R) /\ alternating (map e_order R) /\
  (forall e R', R = e :: R' -> e_order e <> Ish -> key s = key S0) /\
  (forall R' e, R = R' ++ [e] -> e_order e <> Ish).

Lemma adjacent_app {A} (P : A -> A -> Prop) l1 l2 : adjacent P l1 -> adjacent P l2 ->
  (forall l1' a b l2', l1 = l1' ++ [a] -> l2 = b :: l2' -> P a b) -> adjacent P (l1 ++ l2).
Proof.
  induction l1 as [|x [|y l1] IH]; intros H1 H2 H; [exact H2| |].
  - destruct l2 as [|b l2]; [apply adjacent_one|]. cbn. apply adjacent_cons. split; [|exact H2].
    apply (H [] x b l2); reflexivity.
  - cbn [app]. apply adjacent_cons. apply adjacent_cons in H1. destruct H1 as [H1 H1']. split; [exact H1|].
    apply IH; auto. intros l1' a b l2' E1 E2. apply (H (x :: l1') a b l2'); [rewrite E1; reflexivity|exact E2].
Qed.

Lemma contrib_ok s e o : nan s = false -> nan e = false -> (key S0 <= key s)%Z -> (key s <= key e)%Z -> (key e <= key E)%Z ->
  contrib (s, e, o) = [] \/
  (o <> Ish /\ (key (nse s) < key (nee e))%Z /\
   ((key (nse s) = key S0 /\ key s = key S0 /\ contrib (s, e, o) = [mkEntry (nee e) o]) \/
    (key (nse s) <> key S0 /\ contrib (s, e, o) = [mkEntry (nse s) Ish; mkEntry (nee e) o]))).
Proof.
  intros Hs He H1 H2 H3. destruct (nse_ok s Hs) as [N1 K1]. destruct (nee_ok e He) as [N2 K2].
  unfold contrib. destruct o; cbn [order_eqb negb]; [|left; reflexivity|].
  all: destruct (flt (nse s) (nee e)) eqn:F; [right|left; reflexivity].
  all: split; [discriminate|]; destruct (fne (nse s) S0) eqn:G; fk; zb; (split; [lia|]).
  all: try (left; split; [lia|]; split; [lia|reflexivity]).
  all: right; split; [lia|reflexivity].
Qed.

Lemma Rok_flat L : forall s, chained s L -> nan s = false -> (key S0 <= key s)%Z ->
  Rok s (flat_map contrib L).
Proof.
  induction L as [|[[a e] o] L IH]; intros s Hc Ns HS.
  - split; [constructor|]. split; [apply adjacent_nil|]. split; [apply adjacent_nil|].
    split; [discriminate|]. intros R' x H. destruct R'; discriminate.
  - cbn in Hc. destruct Hc as (-> & Ne & Hse & HeE & Hc).
    specialize (IH e Hc Ne ltac:(lia)). cbn [flat_map].
    destruct (contrib_ok s e o Ns Ne HS Hse HeE) as [->|(Ho & Hlt & H)].
    + cbn [app]. destruct IH as (I1 & I2 & I3 & I4 & I5). split.
      { eapply Forall_impl; [|exact I1]. cbn. intros x [? ?]. split; [assumption|lia]. }
      split; [exact I2|]. split; [exact I3|]. split; [|exact I5].
      intros x R' Hx Hstr. specialize (I4 _ _ Hx Hstr). lia.
    + destruct IH as (I1 & I2 & I3 & I4 & I5).
      destruct (nse_ok s Ns) as [N1 K1]. destruct (nee_ok e Ne) as [N2 K2].
      set (R' := flat_map contrib L) in *.
      assert (HnIsh : forall b l2, R' = b :: l2 -> e_order b = Ish).
      { intros b l2 Hb. destruct (e_order b) eqn:Eb; [exfalso|reflexivity|exfalso].
        all: specialize (I4 _ _ Hb ltac:(rewrite Eb; discriminate)); lia. }
      assert (HnEnd : forall b l2, R' = b :: l2 -> nan (e_end b) = false /\ (key e <= key (e_end b))%Z).
      { intros b l2 Hb. rewrite Hb in I1. inversion I1; subst. intuition lia. }
      assert (TAIL : forall pre, contrib (s, e, o) = pre ++ [mkEntry (nee e) o] ->
        forall R'' x, contrib (s, e, o) ++ R' = R'' ++ [x] -> e_order x <> Ish).
      { intros pre Hpre R'' x Hx. destruct (snoc_cases R') as [E0|(R1 & x1 & E0)].
        - rewrite E0, app_nil_r, Hpre in Hx. apply app_inj_tail in Hx as [_ <-]. exact Ho.
        - rewrite E0, app_assoc in Hx. apply app_inj_tail in Hx as [_ <-]. eapply I5; exact E0. }
      destruct H as [(Hk & HsS & Hcn)|(Hk & Hcn)];
        [specialize (TAIL [] Hcn)|specialize (TAIL [mkEntry (nse s) Ish] Hcn)]; rewrite Hcn in *.
      * split; [|split; [|split; [|split]]].
        -- apply Forall_app. split.
           ++ constructor; [|constructor]. cbn. split; [assumption|lia].
           ++ eapply Forall_impl; [|exact I1]. cbn. intros x [? ?]. split; [assumption|lia].
        -- rewrite map_app. apply adjacent_app; [apply adjacent_one|exact I2|].
           intros l1' p q l2' E1 E2. destruct l1' as [|? [|? ?]]; try discriminate. injection E1 as <-.
           destruct R' as [|b l2]; [discriminate|]. injection E2 as <- _.
           destruct (HnEnd _ _ eq_refl). fk. zb. lia.
        -- rewrite map_app. apply adjacent_app; [apply adjacent_one|exact I3|].
           intros l1' p q l2' E1 E2. destruct l1' as [|? [|? ?]]; try discriminate. injection E1 as <-.
           destruct R' as [|b l2]; [discriminate|]. injection E2 as <- _.
           rewrite (HnIsh _ _ eq_refl). auto.
        -- intros _ _ _ _. exact HsS.
        -- exact TAIL.
      * split; [|split; [|split; [|split]]].
        -- apply Forall_app. split.
           ++ constructor; [cbn; split; [assumption|lia]|]. constructor; [|constructor]. cbn. split; [assumption|lia].
           ++ eapply Forall_impl; [|exact I1]. cbn. intros x [? ?]. split; [assumption|lia].
        -- rewrite map_app. cbn [map]. apply adjacent_app; [|exact I2|].
           ++ apply adjacent_cons. split; [cbn [e_end]; fk; zb; lia|apply adjacent_one].
           ++ intros l1' p q l2' E1 E2. destruct l1' as [|? [|? [|? ?]]]; try discriminate. injection E1 as _ <-.
              destruct R' as [|b l2]; [discriminate|]. injection E2 as <- _.
              destruct (HnEnd _ _ eq_refl). cbn [e_end]. fk. zb. lia.
        -- rewrite map_app. cbn [map]. apply adjacent_app; [|exact I3|].
           ++ apply adjacent_cons. split; [cbn; auto|apply adjacent_one].
           ++ intros l1' p q l2' E1 E2. destruct l1' as [|? [|? [|? ?]]]; try discriminate. injection E1 as _ <-.
              destruct R' as [|b l2]; [discriminate|]. injection E2 as <- _.
              rewrite (HnIsh _ _ eq_refl). cbn. auto.
        -- intros x R'' Hx Hstr. exfalso. injection Hx as <- _. apply Hstr. reflexivity.
        -- exact TAIL.
Qed.

(** Pointwise: strict answers of the slopped list. *)
Definition slop_covers (y : f64) (i : f64 * f64 * order) (o : order) : Prop :=
  let '(s, e, o') := i in o' = o /\ (key (nse s) < key y)%Z /\ (key y <= key (nee e))%Z.

Lemma flat_sound L : forall s y o, chained s L -> nan s = false -> nan y = false -> (key S0 <= key s)%Z ->
  (key S0 < key y)%Z -> o <> Ish -> entries_at (flat_map contrib L) y = Some o ->
  exists i x, nth_error L i = Some x /\ slop_covers y x o.
Proof.
  induction L as [|[[a e] o'] L IH]; intros s y o Hc Ns Ny HS Hy Ho H; [discriminate|].
  cbn in Hc. destruct Hc as (-> & Ne & Hse & HeE & Hc). cbn [flat_map] in H. rewrite entries_at_app in H.
  destruct (nse_ok s Ns) as [N1 K1]. destruct (nee_ok e Ne) as [N2 K2].
  destruct (contrib_ok s e o' Ns Ne HS Hse HeE) as [E0|(Ho' & Hlt & [(Hk & HsS & Hcn)|(Hk & Hcn)])].
  - rewrite E0 in H. cbn in H. destruct (IH e y o Hc Ne Ny ltac:(lia) Hy Ho H) as (i & x & Hx & Hs). exists (S i), x. auto.
  - rewrite Hcn, entries_at_one in H. destruct (fge (nee e) y) eqn:G.
    + injection H as <-. exists 0, (s, e, o'). split; [reflexivity|]. cbn. split; [reflexivity|]. fk. zb. lia.
    + destruct (IH e y o Hc Ne Ny ltac:(lia) Hy Ho H) as (i & x & Hx & Hs). exists (S i), x. auto.
  - rewrite Hcn in H. change [mkEntry (nse s) Ish; mkEntry (nee e) o'] with ([mkEntry (nse s) Ish] ++ [mkEntry (nee e) o']) in H.
    rewrite entries_at_app, !entries_at_one in H. destruct (fge (nse s) y) eqn:G1; [congruence|].
    destruct (fge (nee e) y) eqn:G.
    + injection H as <-. exists 0, (s, e, o'). split; [reflexivity|]. cbn. split; [reflexivity|]. fk. zb. lia.
    + destruct (IH e y o Hc Ne Ny ltac:(lia) Hy Ho H) as (i & x & Hx & Hs). exists (S i), x. auto.
Qed.

Lemma chained_nth L : forall s i a e o, chained s L -> nan s = false -> nth_error L i = Some (a, e, o) ->
  nan a = false /\ nan e = false /\ (key s <= key a)%Z /\ (key a <= key e)%Z.
Proof.
  induction L as [|[[a' e'] o'] L IH]; intros s i a e o Hc Ns H; [destruct i; discriminate|].
  cbn in Hc. destruct Hc as (-> & Ne & Hse & HeE & Hc). destruct i as [|i].
  - injection H as <- <- <-. repeat split; auto; lia.
  - destruct (IH _ _ _ _ _ Hc Ne H) as (? & ? & ? & ?). repeat split; auto; lia.
Qed.

Lemma flat_complete L : forall s y o, chained s L -> nan s = false -> nan y = false -> (key S0 <= key s)%Z ->
  (key S0 < key y)%Z -> o <> Ish ->
  (exists i x, nth_error L i = Some x /\ slop_covers y x o) -> entries_at (flat_map contrib L) y = Some o.
Proof.
  induction L as [|[[a e] o'] L IH]; intros s y o Hc Ns Ny HS Hy Ho (i & x & Hx & Hs); [destruct i; discriminate|].
  cbn in Hc. destruct Hc as (-> & Ne & Hse & HeE & Hc). cbn [flat_map]. rewrite entries_at_app.
  destruct (nse_ok s Ns) as [N1 K1]. destruct (nee_ok e Ne) as [N2 K2].
  pose proof (contrib_ok s e o' Ns Ne HS Hse HeE) as HC.
  destruct i as [|i].
  - injection Hx as <-. cbn in Hs. destruct Hs as (-> & Hs1 & Hs2).
    destruct HC as [E0|(Ho' & Hlt & [(Hk & HsS & Hcn)|(Hk & Hcn)])].
    + exfalso. unfold contrib in E0. destruct o; cbn [order_eqb negb] in E0; [|congruence|].
      all: assert (flt (nse s) (nee e) = true) as G by (fk; zb; lia); rewrite G in E0.
      all: destruct (fne (nse s) S0); discriminate.
    + rewrite Hcn, entries_at_one. assert (fge (nee e) y = true) as -> by (fk; zb; lia). reflexivity.
    + rewrite Hcn. change [mkEntry (nse s) Ish; mkEntry (nee e) o] with ([mkEntry (nse s) Ish] ++ [mkEntry (nee e) o]).
      rewrite entries_at_app, !entries_at_one.
      assert (fge (nse s) y = false) as -> by (fk; zb; lia).
      assert (fge (nee e) y = true) as -> by (fk; zb; lia). reflexivity.
  - cbn [nth_error] in Hx. destruct x as [[a e2] o2]. cbn in Hs. destruct Hs as (-> & Hs1 & Hs2).
    destruct (chained_nth _ _ _ _ _ _ Hc Ne Hx) as (Na & Ne2 & Hea & _).
    destruct (nse_ok a Na) as [_ K3].
    assert (entries_at (contrib (s, e, o')) y = None) as ->.
    { destruct HC as [E0|(Ho' & Hlt & [(Hk & HsS & Hcn)|(Hk & Hcn)])].
      - rewrite E0. reflexivity.
      - rewrite Hcn, entries_at_one. assert (fge (nee e) y = false) as -> by (fk; zb; lia). reflexivity.
      - rewrite Hcn. change [mkEntry (nse s) Ish; mkEntry (nee e) o'] with ([mkEntry (nse s) Ish] ++ [mkEntry (nee e) o']).
        rewrite entries_at_app, !entries_at_one.
        assert (fge (nse s) y = false) as -> by (fk; zb; lia).
        assert (fge (nee e) y = false) as -> by (fk; zb; lia). reflexivity. }
    apply (IH e y o Hc Ne Ny); [lia|exact Hy|exact Ho|]. exists i, (a, e2, o). split; [exact Hx|]. cbn. auto.
Qed.

End Slop.

Lemma wf_chained c : table_wf c -> chained (table_end c) (co_start c) (co_iter c).
Proof.
  intros Hwf.
  assert (G : forall n, chained (table_end c) (nth n (heights c) fzero) (skipn n (co_iter c))).
  { intros n. remember (length (co_iter c) - n) as m eqn:Em. revert n Em.
    induction m as [|m IH]; intros n Em.
    - rewrite skipn_all2 by lia. exact I.
    - rewrite skipn_nth. destruct (nth_error (co_iter c) n) as [[[s e] o]|] eqn:E; [|exact I].
      apply iter_interval in E. cbn [chained]. destruct (wf_iter_nonnan _ _ _ _ _ Hwf E).
      pose proof (wf_interval_le _ _ _ _ _ Hwf E). pose proof (interval_end_le _ _ _ _ _ Hwf E).
      destruct E as (E1 & E2 & _).
      rewrite (nth_error_nth _ _ fzero E1). split; [reflexivity|]. split; [assumption|]. split; [assumption|].
      split; [assumption|]. rewrite <- (nth_error_nth _ _ fzero E2). apply IH. lia. }
  exact (G 0).
Qed.

Lemma rok_table S0 E R : nan S0 = false -> nan E = false -> (key S0 <= key E)%Z -> Rok S0 E S0 R ->
  let R' := match last_opt R with
            | Some l => if fne (e_end l) E then R ++ [mkEntry E Ish] else R
            | None => R ++ [mkEntry E Ish] end in
  table_wf (mkCO S0 R') /\ feq (table_end (mkCO S0 R')) E = true /\
  forall y, nan y = false -> entries_at R' y =
    match entries_at R y with Some o => Some o | None => if fge E y then Some Ish else None end.
Proof.
  intros N1 N2 H0 (I1 & I2 & I3 & I4 & I5) R'.
  assert (HF : Forall (fun e => nan (e_end e) = false /\ (key S0 <= key (e_end e) <= key E)%Z) R').
  { subst R'. assert (Forall (fun e => nan (e_end e) = false /\ (key S0 <= key (e_end e) <= key E)%Z) (R ++ [mkEntry E Ish])).
    { apply Forall_app. split; [exact I1|]. constructor; [|constructor]. cbn. split; [assumption|lia]. }
    destruct (last_opt R) as [l|]; [destruct (fne (e_end l) E)|]; assumption. }
  assert (HN : R' <> []).
  { subst R'. pose proof (last_opt_spec R) as HR. destruct (last_opt R) as [l|].
    - destruct HR as [p ->]. destruct (fne (e_end l) E); destruct p; discriminate.
    - destruct R; discriminate. }
  assert (HS : nondecreasing (map e_end R')).
  { subst R'. pose proof (last_opt_spec R) as HR. destruct (last_opt R) as [l|]; [destruct (fne (e_end l) E)|]; auto.
    - destruct HR as [p HR]. rewrite HR in *. rewrite map_app in *. cbn [map] in *. rewrite map_app. cbn [map].
      rewrite <- app_assoc. apply adjacent_snoc. split; [exact I2|].
      apply Forall_app in I1 as [_ I1]. inversion I1; subst. destruct H2. cbn [e_end]. fk. zb. lia.
    - rewrite HR. apply adjacent_one. }
  assert (HA : alternating (map e_order R')).
  { subst R'. pose proof (last_opt_spec R) as HR. destruct (last_opt R) as [l|]; [destruct (fne (e_end l) E)|]; auto.
    - destruct HR as [p HR]. specialize (I5 _ _ HR). rewrite HR in *. rewrite map_app in *. cbn [map] in *. rewrite map_app. cbn [map].
      rewrite <- app_assoc. apply adjacent_snoc. split; [exact I3|]. cbn. auto.
    - rewrite HR. apply adjacent_one. }
  split; [|split].
  - split; [exact HN|]. split; [|split].
    + unfold heights. cbn [co_start co_cmps]. constructor; [assumption|].
      apply Forall_forall. intros h Hh. apply in_map_iff in Hh as (x & <- & Hx).
      rewrite Forall_forall in HF. apply HF, Hx.
    + unfold heights. cbn [co_start co_cmps]. destruct R' as [|x R2]; [apply adjacent_one|].
      cbn [map]. apply adjacent_cons. split; [|exact HS]. inversion HF; subst. destruct H2. fk. zb. lia.
    + exact HA.
  - assert (HL : forall p x, R' = p ++ [x] -> feq (e_end x) E = true).
    { intros p x Hp. subst R'. pose proof (last_opt_spec R) as HR. destruct (last_opt R) as [l|].
      - destruct (fne (e_end l) E) eqn:F.
        + apply app_inj_tail in Hp as [_ <-]. cbn. fk. apply Z.eqb_refl.
        + destruct HR as [q HR]. assert (x = l) as -> by (rewrite HR in Hp; apply app_inj_tail in Hp; destruct Hp; congruence).
          unfold fne in F. apply negb_false_iff in F. exact F.
      - apply app_inj_tail in Hp as [_ <-]. cbn. fk. apply Z.eqb_refl. }
    destruct (snoc_cases R') as [?|(p & x & Hp)]; [contradiction|].
    unfold table_end, heights. cbn [co_start co_cmps]. rewrite Hp, map_app. cbn [map].
    rewrite app_comm_cons, last_last. eapply HL; exact Hp.
  - intros y Ny. subst R'. pose proof (last_opt_spec R) as HR. destruct (last_opt R) as [l|].
    + destruct (fne (e_end l) E) eqn:F; [rewrite entries_at_app, entries_at_one; reflexivity|].
      destruct HR as [q HR]. destruct (entries_at R y) eqn:G; [reflexivity|].
      rewrite HR, entries_at_app in G. destruct (entries_at q y); [discriminate|].
      destruct l as [le lo]. rewrite entries_at_one in G. cbn [e_end] in F.
      assert (nan le = false). { rewrite HR in I1. apply Forall_app in I1 as [_ I1]. inversion I1; subst. tauto. }
      destruct (fge le y) eqn:G2; [discriminate|].
      assert (fge E y = false) as -> by (fk; zb; lia). reflexivity.
    + rewrite entries_at_app, entries_at_one. reflexivity.
Qed.

(** Everything about [with_y_slop] in one statement. *)
Lemma with_y_slop_spec c slop : table_wf c -> fin slop = true -> fle fzero slop = true ->
  exists r, co_with_y_slop c slop = Some r /\ table_wf r /\ co_start r = co_start c /\
  feq (table_end r) (table_end c) = true /\
  (forall y, flt (co_start c) y = true ->
    (forall o, strict o ->
       (co_order_at r y = Some o <->
        exists i s e, interval c i s e o /\
          (if feq s (co_start c) then True else flt (fadd s slop) y = true) /\
          (if feq e (table_end c) then fle y e = true else fle y (fsub e slop) = true))) /\
    weakens (co_order_at r y) (co_order_at c y)).
Proof.
  intros Hwf Hfin Hge.
  pose proof (wf_start_nonnan c Hwf) as NS. pose proof (wf_end_nonnan c Hwf) as NEE.
  assert (NSl : nan slop = false) by (apply fin_nonnan; assumption).
  assert (Hse : (key (co_start c) <= key (table_end c))%Z).
  { destruct (wf_last c Hwf) as (n & s & o & _ & Hl). pose proof (interval_start_ge _ _ _ _ _ Hwf Hl).
    pose proof (wf_interval_le _ _ _ _ _ Hwf Hl). lia. }
  (* the pointwise condition in terms of keys *)
  assert (COV : forall y s e o o', nan y = false -> (key (co_start c) < key y)%Z -> nan s = false -> nan e = false ->
    (slop_covers (co_start c) (table_end c) slop y (s, e, o') o <->
     o' = o /\ (if feq s (co_start c) then True else flt (fadd s slop) y = true) /\
          (if feq e (table_end c) then fle y e = true else fle y (fsub e slop) = true))).
  { intros y s e o o' Ny Hy Ns Ne. unfold slop_covers, nse, nee.
    destruct (fadd_ge s slop Ns Hfin Hge) as [? _]. destruct (fsub_le e slop Ne Hfin Hge) as [? _].
    destruct (feq s (co_start c)) eqn:Fs, (feq e (table_end c)) eqn:Fe; fk; zb; intuition lia. }
  (* a strict answer of the slopped table is one of the original *)
  assert (IMP : forall y i s e o, flt (co_start c) y = true -> interval c i s e o ->
     slop_covers (co_start c) (table_end c) slop y (s, e, o) o -> co_order_at c y = Some o).
  { intros y i s e o Hy Hi (_ & H1 & H2). destruct (flt_nonnan _ _ Hy) as [_ Ny].
    destruct (wf_iter_nonnan _ _ _ _ _ Hwf Hi) as [Ns Ne].
    destruct (nse_ok (co_start c) slop Hfin Hge s Ns) as [_ K1].
    destruct (nee_ok (table_end c) slop Hfin Hge e Ne) as [_ K2].
    pose proof (order_at_index c y) as HO. destruct (co_order_at c y) as [o'|].
    - destruct HO as (j & s' & e' & Hj & He' & Hmin). destruct (wf_iter_nonnan _ _ _ _ _ Hwf Hj).
      destruct (Nat.lt_trichotomy j i) as [L|[->|L]].
      + pose proof (wf_interval_before _ _ _ _ _ _ _ _ _ Hwf L Hj Hi). fk. zb. lia.
      + destruct (interval_fun _ _ _ _ _ _ _ _ Hi Hj) as (_ & _ & ->). reflexivity.
      + specialize (Hmin _ _ _ _ L Hi). fk. zb. lia.
    - specialize (HO _ _ _ _ Hi). fk. zb. lia. }
  assert (SELF : (key slop = 0 \/ key (co_start c) = key (table_end c))%Z ->
    forall y, flt (co_start c) y = true -> forall o, strict o ->
       (co_order_at c y = Some o <->
        exists i s e, interval c i s e o /\
          (if feq s (co_start c) then True else flt (fadd s slop) y = true) /\
          (if feq e (table_end c) then fle y e = true else fle y (fsub e slop) = true))).
  { intros Hcase y Hy o Ho. destruct (flt_nonnan _ _ Hy) as [_ Ny]. split.
    - intros H. pose proof (order_at_index c y) as HO. rewrite H in HO.
      destruct HO as (i & s & e & Hi & He & Hmin). destruct (wf_iter_nonnan _ _ _ _ _ Hwf Hi) as [Ns Ne].
      pose proof (interval_end_le _ _ _ _ _ Hwf Hi). assert (Hks : key slop = 0%Z) by (destruct Hcase; [assumption|fk; zb; lia]).
      exists i, s, e. split; [exact Hi|].
      destruct (fadd_ge s slop Ns Hfin Hge) as [? _]. destruct (fadd_le s slop Ns Hfin ltac:(lia)) as [_ ?].
      destruct (fsub_le e slop Ne Hfin Hge) as [? _].
      assert (key e <= key (fsub e slop))%Z.
      { rewrite fsub_fneg. apply fadd_ge; [assumption| |]. { destruct slop; easy. }
        assert (nan (fneg slop) = false) by (rewrite nan_fneg; assumption). fk. rewrite key_fneg. zb. change (key fzero) with 0%Z. lia. }
      split.
      + destruct (feq s (co_start c)) eqn:F; [trivial|].
        assert (key s < key y)%Z; [|fk; zb; lia].
        destruct i as [|i]; [rewrite (interval0_start _ _ _ _ Hi) in *; fk; zb; lia|].
        destruct (interval_exists c i) as (s' & e' & o' & Hi'); [apply interval_lt in Hi; lia|].
        specialize (Hmin _ _ _ _ (Nat.lt_succ_diag_r _) Hi'). destruct (wf_alt _ _ _ _ _ _ _ _ Hwf Hi' Hi) as (-> & _).
        fk. zb. lia.
      + destruct (feq e (table_end c)); [exact He|]. fk. zb. lia.
    - intros (i & s & e & Hi & Hs & He). destruct (wf_iter_nonnan _ _ _ _ _ Hwf Hi) as [Ns Ne].
      eapply IMP; [exact Hy|exact Hi|]. apply COV; auto. fk. zb. lia. }
  assert (WREFL : forall o, weakens o o) by (intros [o|]; cbn; auto).
  unfold co_with_y_slop. destruct (feq slop fzero) eqn:Hz.
  { exists c. split; [reflexivity|]. split; [exact Hwf|]. split; [reflexivity|].
    split; [fk; apply Z.eqb_refl|]. intros y Hy. split; [|apply WREFL].
    apply SELF; [|exact Hy]. left. fk. zb. exact Hz. }
  pose proof (last_opt_spec (co_cmps c)) as HL. destruct (last_opt (co_cmps c)) as [le|] eqn:El.
  2: { destruct Hwf as (? & _). contradiction. }
  rewrite <- (table_end_last _ _ El). clear HL.
  destruct (feq (co_start c) (table_end c)) eqn:Hse0.
  { exists c. split; [reflexivity|]. split; [exact Hwf|]. split; [reflexivity|].
    split; [fk; apply Z.eqb_refl|]. intros y Hy. split; [|apply WREFL].
    apply SELF; [|exact Hy]. right. fk. zb. exact Hse0. }
  rewrite slop_fold. cbn [app].
  pose proof (wf_chained c Hwf) as Hch.
  set (R := flat_map (contrib (co_start c) (table_end c) slop) (co_iter c)).
  assert (HRok : Rok (co_start c) (table_end c) (co_start c) R).
  { apply Rok_flat; auto. lia. }
  destruct (rok_table _ _ R NS NEE Hse HRok) as (T1 & T2 & T3).
  eexists. split; [reflexivity|]. split; [exact T1|]. split; [reflexivity|]. split; [exact T2|].
  intros y Hy. destruct (flt_nonnan _ _ Hy) as [_ Ny]. rewrite !order_at_entries. cbn [co_cmps]. rewrite T3 by exact Ny.
  assert (Hyk : (key (co_start c) < key y)%Z) by (fk; zb; exact Hy).
  assert (IFF : forall o, strict o -> (entries_at R y = Some o <->
     exists i s e, interval c i s e o /\ slop_covers (co_start c) (table_end c) slop y (s, e, o) o)).
  { intros o Ho. split.
    - intros H. destruct (flat_sound (co_start c) (table_end c) slop) with (L := co_iter c) (s := co_start c) (y := y) (o := o)
        as (i & [[s e] o'] & Hx & Hs); auto; [lia|].
      apply iter_interval in Hx. assert (o' = o) as -> by (cbn in Hs; tauto). eauto 6.
    - intros (i & s & e & Hi & Hs). apply iter_interval in Hi. eapply (flat_complete (co_start c) (table_end c) slop); eauto. lia. }
  split.
  - intros o Ho. transitivity (entries_at R y = Some o).
    + destruct (entries_at R y); [reflexivity|]. destruct (fge (table_end c) y); [|split; discriminate].
      split; [intros H; injection H as <-; exfalso; apply Ho; reflexivity|discriminate].
    + rewrite (IFF o Ho). split; intros (i & s & e & Hi & H); exists i, s, e; (split; [exact Hi|]);
        destruct (wf_iter_nonnan _ _ _ _ _ Hwf Hi); apply (COV y s e o o) in H || apply (COV y s e o o); auto; tauto.
  - pose proof (order_at_none c y Hwf Ny) as Hnone. rewrite order_at_entries in Hnone.
    assert (Hdom : fge (table_end c) y = negb (flt (table_end c) y)).
    { fk. destruct (Z.leb_spec (key y) (key (table_end c))), (Z.ltb_spec (key (table_end c)) (key y)); try reflexivity; lia. }
    rewrite Hdom. destruct (entries_at R y) as [o|] eqn:ER.
    + destruct (entries_at (co_cmps c) y) as [o2|] eqn:EC.
      * cbn. destruct (order_eqb o Ish) eqn:Eo; [right; destruct o; try discriminate; reflexivity|left].
        assert (Ho : strict o) by (intros ->; discriminate).
        destruct (proj1 (IFF o Ho) eq_refl) as (i & s & e & Hi & Hs).
        pose proof (IMP y i s e o Hy Hi Hs) as H. rewrite order_at_entries in H. congruence.
      * exfalso. pose proof (proj1 Hnone eq_refl) as EC2.
        (* some entry of R reaches y > end *)
        unfold entries_at in ER. destruct (find _ R) as [x|] eqn:F; [|discriminate].
        apply find_some in F as [F1 F2]. destruct HRok as (I1 & _). rewrite Forall_forall in I1.
        destruct (I1 _ F1). fk. zb. lia.
    + destruct (flt (table_end c) y) eqn:F; cbn [negb].
      * rewrite (proj2 Hnone eq_refl). exact I.
      * destruct (entries_at (co_cmps c) y) eqn:EC; [cbn; auto|]. discriminate (proj1 Hnone eq_refl).
Qed.
