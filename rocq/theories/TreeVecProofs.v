(** Proofs about the TreeVec model. *)
From Coq Require Import List Arith Bool ZArith Lia ZifyBool ZifyNat.
From Verif Require Import TreeVecModel TreeVecSpec.
Import ListNotations.

Ltac Zify.zify_post_hook ::= Z.div_mod_to_equations.
Local Arguments Nat.div : simpl never.

(** [lia] that sees through [ln]. *)
Ltac lia := unfold ln in *; Lia.lia.

Definition ins {A} (i : nat) (x : A) (l : list A) : list A := firstn i l ++ x :: skipn i l.
Definition del {A} (i : nat) (l : list A) : list A := firstn i l ++ skipn (S i) l.
Definition upd {A} (i : nat) (x : A) (l : list A) : list A := firstn i l ++ x :: skipn (S i) l.

Definition entries {T} (n : node T) : nat :=
  match n with Leaf d => length d | Internal _ cs => length cs end.

(** ** List lemmas *)

Lemma ins_app_l {A} i (x : A) a b : i <= length a -> ins i x (a ++ b) = ins i x a ++ b.
Proof.
  intros H. unfold ins. rewrite firstn_app, skipn_app.
  replace (i - length a) with 0 by lia. simpl. rewrite app_nil_r, <- app_assoc. reflexivity.
Qed.

Lemma ins_app_r {A} i (x : A) a b : length a <= i -> ins i x (a ++ b) = a ++ ins (i - length a) x b.
Proof.
  intros H. unfold ins. rewrite firstn_app, skipn_app.
  rewrite firstn_all2 by lia. rewrite (skipn_all2 a) by lia.
  rewrite <- app_assoc. reflexivity.
Qed.

Lemma del_app_l {A} i (a b : list A) : i < length a -> del i (a ++ b) = del i a ++ b.
Proof.
  intros H. unfold del. rewrite firstn_app, skipn_app.
  replace (i - length a) with 0 by lia. replace (S i - length a) with 0 by lia.
  simpl firstn. simpl (skipn 0 b). rewrite app_nil_r, <- app_assoc. reflexivity.
Qed.

Lemma del_app_r {A} i (a b : list A) : length a <= i -> del i (a ++ b) = a ++ del (i - length a) b.
Proof.
  intros H. unfold del. rewrite firstn_app, skipn_app.
  rewrite firstn_all2 by lia. rewrite (skipn_all2 a) by lia.
  replace (S i - length a) with (S (i - length a)) by lia.
  rewrite <- app_assoc. reflexivity.
Qed.

Lemma upd_app_l {A} i (x : A) a b : i < length a -> upd i x (a ++ b) = upd i x a ++ b.
Proof.
  intros H. unfold upd. rewrite firstn_app, skipn_app.
  replace (i - length a) with 0 by lia. replace (S i - length a) with 0 by lia.
  simpl firstn. simpl (skipn 0 b). rewrite app_nil_r, <- app_assoc. reflexivity.
Qed.

Lemma upd_app_r {A} i (x : A) a b : length a <= i -> upd i x (a ++ b) = a ++ upd (i - length a) x b.
Proof.
  intros H. unfold upd. rewrite firstn_app, skipn_app.
  rewrite firstn_all2 by lia. rewrite (skipn_all2 a) by lia.
  replace (S i - length a) with (S (i - length a)) by lia.
  rewrite <- app_assoc. reflexivity.
Qed.

Lemma length_ins {A} i (x : A) l : length (ins i x l) = S (length l).
Proof. unfold ins. rewrite app_length. cbn [length]. rewrite firstn_length, skipn_length. lia. Qed.

Lemma length_del {A} i (l : list A) : i < length l -> length (del i l) = length l - 1.
Proof. unfold del. rewrite app_length, firstn_length, skipn_length. lia. Qed.

Lemma length_upd {A} i (x : A) l : i < length l -> length (upd i x l) = length l.
Proof. unfold upd. rewrite app_length. cbn [length]. rewrite firstn_length, skipn_length. lia. Qed.

Lemma map_ins {A C} (f : A -> C) i x l : map f (ins i x l) = ins i (f x) (map f l).
Proof. unfold ins. rewrite map_app. simpl. rewrite firstn_map, skipn_map. reflexivity. Qed.

Lemma map_del {A C} (f : A -> C) i l : map f (del i l) = del i (map f l).
Proof. unfold del. rewrite map_app, firstn_map, skipn_map. reflexivity. Qed.

Lemma Forall_ins {A} (P : A -> Prop) i x l : Forall P l -> P x -> Forall P (ins i x l).
Proof.
  intros H Hx. unfold ins. rewrite <- (firstn_skipn i l) in H. apply Forall_app in H.
  apply Forall_app; split; [tauto | constructor; tauto].
Qed.

Lemma ins_mid {A} (l1 l2 : list A) c x :
  ins (length l1 + 1) x (l1 ++ c :: l2) = l1 ++ c :: x :: l2.
Proof.
  rewrite ins_app_r by lia. replace (length l1 + 1 - length l1) with 1 by lia. reflexivity.
Qed.

Lemma del_mid {A} (l1 l2 : list A) c : del (length l1) (l1 ++ c :: l2) = l1 ++ l2.
Proof. rewrite del_app_r by lia. rewrite Nat.sub_diag. reflexivity. Qed.

Lemma nth_error_mid {A} (l1 l2 : list A) c : nth_error (l1 ++ c :: l2) (length l1) = Some c.
Proof. rewrite nth_error_app2 by lia. rewrite Nat.sub_diag. reflexivity. Qed.

Lemma slice_set_mid {A} (l1 l2 : list A) c x :
  slice_set (l1 ++ c :: l2) (length l1) x = Some (l1 ++ x :: l2).
Proof.
  unfold slice_set. rewrite app_length. simpl length.
  replace (length l1 <? length l1 + S (length l2)) with true by (symmetry; apply Nat.ltb_lt; lia).
  f_equal. change (upd (length l1) x (l1 ++ c :: l2) = l1 ++ x :: l2).
  rewrite upd_app_r by lia. rewrite Nat.sub_diag. reflexivity.
Qed.

Lemma with_nth_spec {A R} (f : A -> option R) l i :
  with_nth f l i = match nth_error l i with Some c => f c | None => None end.
Proof. revert i; induction l as [|a l IH]; intros [|i]; simpl; auto. Qed.

Lemma with_nth_mid {A R} (f : A -> option R) l1 c l2 : with_nth f (l1 ++ c :: l2) (length l1) = f c.
Proof. rewrite with_nth_spec, nth_error_mid. reflexivity. Qed.

Lemma av_insert_ok {A} B (l : list A) i x :
  length l < B -> i <= length l -> av_insert B l i x = Some (ins i x l).
Proof.
  intros H1 H2. unfold av_insert.
  destruct (length l <? B) eqn:E1; [|lia]. destruct (i <=? length l) eqn:E2; [|lia]. reflexivity.
Qed.

Lemma av_extend_ok {A} B (l m : list A) : length l + length m <= B -> av_extend B l m = Some (l ++ m).
Proof. intros H. unfold av_extend. destruct (_ <=? _) eqn:E; [reflexivity|lia]. Qed.

Lemma av_split_ok {A} (l : list A) i : i <= length l -> av_split l i = Some (firstn i l, skipn i l).
Proof. intros H. unfold av_split. destruct (_ <=? _) eqn:E; [reflexivity|lia]. Qed.

Lemma av_remove_mid {A} (l1 l2 : list A) c : av_remove (l1 ++ c :: l2) (length l1) = Some (c, l1 ++ l2).
Proof.
  unfold av_remove. rewrite nth_error_mid. f_equal. f_equal.
  apply (del_mid l1 l2 c).
Qed.

Lemma pop_last_snoc {A} (l : list A) x : pop_last (l ++ [x]) = Some (l, x).
Proof. unfold pop_last. rewrite rev_app_distr. simpl. rewrite rev_involutive. reflexivity. Qed.

Lemma list_snoc {A} (l : list A) : 0 < length l -> exists l' x, l = l' ++ [x].
Proof.
  destruct l as [|a l] using rev_ind; simpl; intros H; [lia|]. eauto.
Qed.

Lemma flat_map_length {T} (l : list (node T)) :
  length (flat_map elems l) = sum (map ln l).
Proof. induction l as [|a l IH]; simpl; [reflexivity|]. rewrite app_length, IH. reflexivity. Qed.

Lemma sum_app l m : sum (l ++ m) = sum l + sum m.
Proof. unfold sum. induction l as [|a l IH]; simpl; lia. Qed.

(** ** child_idx *)

Lemma child_idx_lt {A} (f : A -> nat) l off :
  off < sum (map f l) ->
  exists l1 c l2 o, l = l1 ++ c :: l2 /\ child_idx (map f l) off = Some (length l1, o) /\
    off = sum (map f l1) + o /\ o < f c.
Proof.
  revert off; induction l as [|a l IH]; simpl; intros off H; [lia|].
  destruct (off <? f a) eqn:E.
  - exists [], a, l, off. simpl. repeat split; lia.
  - destruct (IH (off - f a)) as (l1 & c & l2 & o & -> & Hc & Ho & Hlt); [lia|].
    rewrite Hc. exists (a :: l1), c, l2, o. simpl. repeat split; lia.
Qed.

Lemma child_idx_ge {A} (f : A -> nat) l off :
  sum (map f l) <= off -> child_idx (map f l) off = None.
Proof.
  revert off; induction l as [|a l IH]; simpl; intros off H; [reflexivity|].
  destruct (off <? f a) eqn:E; [lia|]. rewrite IH by lia. reflexivity.
Qed.

Section WithB.
Context {T : Type} (B : nat) (HB : 4 <= B).
Implicit Types n m c t : node T.


Lemma wf_size lo h n : wf B lo h n -> subtree_size n = length (elems n).
Proof.
  destruct h as [|h], n as [d|sz cs]; simpl; try tauto.
  intros (_ & -> & _). rewrite flat_map_length. reflexivity.
Qed.

Lemma wf_weaken lo lo' h n : wf B lo h n -> lo' <= lo -> wf B lo' h n.
Proof. destruct h, n; simpl; intuition lia. Qed.

Lemma wf_entries lo h n : wf B lo h n -> lo <= entries n <= B.
Proof. destruct h, n; simpl; tauto. Qed.

Lemma wf_lo lo lo' h n : wf B lo h n -> lo' <= entries n -> wf B lo' h n.
Proof. destruct h, n; simpl; intuition lia. Qed.

Lemma wf_internal h size (children : list (node T)) lo :
  lo <= length children <= B -> size = map ln children ->
  Forall (wf B (B/2) h) children -> wf B lo (S h) (Internal size children).
Proof. simpl; tauto. Qed.

Lemma wf_nonempty h n lo : wf B lo h n -> 1 <= lo -> 0 < length (elems n).
Proof.
  revert n lo; induction h as [|h IH]; intros [d|sz cs] lo; simpl; try tauto; [lia|].
  intros (Hl & _ & Hf) Hlo. destruct cs as [|c cs]; simpl in *; [lia|].
  apply Forall_cons_iff in Hf. destruct Hf as [Hc _].
  rewrite app_length. specialize (IH c (B/2) Hc). lia.
Qed.

Lemma flat_mid (l1 l2 : list (node T)) c :
  flat_map elems (l1 ++ c :: l2) = flat_map elems l1 ++ elems c ++ flat_map elems l2.
Proof. rewrite flat_map_app. reflexivity. Qed.

(** ** insert *)

Lemma node_insert_ok h : forall n lo off x,
  wf B lo h n -> (h <> 0 -> 1 <= lo) -> off <= length (elems n) ->
  exists n' r, node_insert B n off x = Some (n', r) /\
    match r with
    | None => wf B lo h n' /\ elems n' = ins off x (elems n)
    | Some m => wf B (B/2) h n' /\ wf B (B/2) h m /\ elems n' ++ elems m = ins off x (elems n)
    end.
Proof.
  induction h as [|h IH]; intros [d|sz cs] lo off x Hwf Hlo Hoff; simpl in Hwf; try tauto.
  - cbn [elems] in Hoff. cbn [node_insert].
    destruct (length d =? B) eqn:Efull.
    + rewrite av_split_ok by lia. cbn [option_bind].
      pose proof (firstn_length (B/2) d) as L1. pose proof (skipn_length (B/2) d) as L2.
      destruct (off <=? B/2) eqn:E.
      * rewrite av_insert_ok by lia. cbn [option_bind]. eexists _, _. split; [reflexivity|].
        cbn [wf elems]. rewrite length_ins. repeat split; try lia.
        rewrite <- ins_app_l by lia. rewrite firstn_skipn. reflexivity.
      * rewrite av_insert_ok by lia. cbn [option_bind]. eexists _, _. split; [reflexivity|].
        cbn [wf elems]. rewrite length_ins. repeat split; try lia.
        replace (off - B/2) with (off - length (firstn (B/2) d)) by lia.
        rewrite <- ins_app_r by lia. rewrite firstn_skipn. reflexivity.
    + rewrite av_insert_ok by lia. cbn [option_bind]. eexists _, _. split; [reflexivity|].
      cbn [wf elems]. rewrite length_ins. repeat split; lia.
  - destruct Hwf as (Hlen & -> & Hf). specialize (Hlo ltac:(lia)).
    cbn [elems] in Hoff. rewrite flat_map_length in Hoff.
    (* locate the child *)
    assert (exists l1 c l2 o, cs = l1 ++ c :: l2 /\
       (if 0 <? off then match child_idx (map ln cs) (off - 1) with
           | Some (idx, o) => Some (idx, o + 1) | None => None end else Some (0, 0))
        = Some (length l1, o) /\ off = length (flat_map elems l1) + o /\ o <= length (elems c))
      as (l1 & c & l2 & o & -> & Hidx & Ho & Hole).
    { destruct (0 <? off) eqn:E.
      - destruct (child_idx_lt ln cs (off - 1)) as (l1 & c & l2 & o & -> & Hc & Ho & Hlt); [lia|].
        rewrite Hc. exists l1, c, l2, (o + 1). rewrite flat_map_length. repeat split; unfold ln in *; lia.
      - destruct cs as [|c cs]; simpl in Hlen; [lia|].
        exists [], c, cs, 0. simpl. repeat split; lia. }
    cbn [node_insert]. rewrite Hidx. cbn [option_bind]. rewrite with_nth_mid.
    apply Forall_app in Hf. destruct Hf as [Hf1 Hf2]. apply Forall_cons_iff in Hf2. destruct Hf2 as [Hfc Hf2].
    destruct (IH c (B/2) o x Hfc ltac:(lia) Hole) as (c' & r & Hins & Hr).
    rewrite Hins. cbn [option_bind]. rewrite slice_set_mid. cbn [option_bind].
    rewrite map_app. cbn [map].
    assert (Hnth : nth_error (map ln l1 ++ ln c :: map ln l2) (length l1) = Some (ln c))
      by (replace (length l1) with (length (map ln l1)) by apply map_length; apply nth_error_mid).
    assert (Hset : forall a b, slice_set (map ln l1 ++ a :: map ln l2) (length l1) b = Some (map ln l1 ++ b :: map ln l2))
      by (intros a b; replace (length l1) with (length (map ln l1)) by apply map_length; apply slice_set_mid).
    rewrite app_length in Hlen. cbn [length] in Hlen.
    cbn [elems].
    rewrite flat_mid. subst off.
    rewrite ins_app_r by lia.
    rewrite (Nat.add_comm (length (flat_map elems l1)) o), Nat.add_sub, ins_app_l by lia.
    destruct r as [m|].
    + destruct Hr as (Hw1 & Hw2 & He).
      rewrite Hset. cbn [option_bind].
      rewrite (wf_size _ _ _ Hw1), (wf_size _ _ _ Hw2). fold (ln c') (ln m).
      replace (map ln l1 ++ ln c' :: map ln l2) with (map ln (l1 ++ c' :: l2)) by (rewrite map_app; reflexivity).
      rewrite <- He.
      assert (Hall : flat_map elems l1 ++ (elems c' ++ elems m) ++ flat_map elems l2 =
                     flat_map elems (ins (length l1 + 1) m (l1 ++ c' :: l2))).
      { rewrite ins_mid, flat_map_app. simpl. rewrite <- !app_assoc. reflexivity. }
      rewrite Hall.
      assert (HF : Forall (wf B (B/2) h) (l1 ++ c' :: l2)).
      { apply Forall_app; split; [assumption|constructor; assumption]. }
      set (cs' := l1 ++ c' :: l2) in *.
      assert (Hcs' : length cs' = length l1 + S (length l2)) by (unfold cs'; rewrite app_length; reflexivity).
      destruct (length cs' =? B) eqn:Efull.
      * rewrite !av_split_ok by (rewrite ?map_length; lia). cbn [option_bind].
        pose proof (firstn_length (B/2) cs') as L1. pose proof (skipn_length (B/2) cs') as L2.
        rewrite firstn_map, skipn_map.
        assert (HF' := HF). rewrite <- (firstn_skipn (B/2) cs') in HF'. apply Forall_app in HF'.
        destruct HF' as [HFa HFb].
        destruct (length l1 <? B/2) eqn:E.
        -- rewrite !av_insert_ok by (rewrite ?map_length; lia). cbn [option_bind].
           eexists _, _. split; [reflexivity|]. rewrite <- map_ins. repeat split.
           ++ rewrite length_ins; lia.
           ++ rewrite length_ins; lia.
           ++ apply Forall_ins; assumption.
           ++ lia.
           ++ lia.
           ++ assumption.
           ++ cbn [elems]. rewrite <- flat_map_app, <- ins_app_l by lia.
              rewrite firstn_skipn. reflexivity.
        -- rewrite !av_insert_ok by (rewrite ?map_length; lia). cbn [option_bind].
           eexists _, _. split; [reflexivity|]. rewrite <- map_ins. repeat split.
           ++ lia.
           ++ lia.
           ++ assumption.
           ++ rewrite length_ins; lia.
           ++ rewrite length_ins; lia.
           ++ apply Forall_ins; assumption.
           ++ cbn [elems]. rewrite <- flat_map_app.
              replace (length l1 + 1 - B/2) with (length l1 + 1 - length (firstn (B/2) cs')) by lia.
              rewrite <- ins_app_r by lia.
              rewrite firstn_skipn. reflexivity.
      * rewrite !av_insert_ok by (rewrite ?map_length; lia). cbn [option_bind].
        eexists _, _. split; [reflexivity|]. rewrite <- map_ins. repeat split.
        -- rewrite length_ins; lia.
        -- rewrite length_ins; lia.
        -- apply Forall_ins; assumption.
    + destruct Hr as (Hw & He).
      rewrite Hnth. cbn [option_bind]. rewrite Hset. cbn [option_bind].
      eexists _, _. split; [reflexivity|]. split.
      * apply wf_internal.
        -- rewrite !app_length; cbn [length]; lia.
        -- rewrite map_app. simpl. replace (ln c') with (ln c + 1); [reflexivity|].
           unfold ln. rewrite He, length_ins. lia.
        -- apply Forall_app; split; [assumption|constructor; assumption].
      * cbn [elems]. rewrite flat_mid, He. reflexivity.
Qed.

Lemma node_insert_oob h : forall n lo off x,
  wf B lo h n -> length (elems n) < off -> node_insert B n off x = None.
Proof.
  intros n lo off x Hwf Hoff. destruct h, n as [d|sz cs]; simpl in Hwf; try tauto.
  - cbn [elems] in Hoff. cbn [node_insert]. destruct (length d =? B) eqn:E.
    + rewrite av_split_ok by lia. cbn [option_bind].
      destruct (off <=? B/2) eqn:E2; [lia|].
      unfold av_insert. rewrite skipn_length.
      destruct (off - B/2 <=? length d - B/2) eqn:E3; [lia|].
      rewrite andb_false_r. reflexivity.
    + unfold av_insert. destruct (off <=? length d) eqn:E3; [lia|]. rewrite andb_false_r. reflexivity.
  - destruct Hwf as (_ & -> & _). cbn [elems] in Hoff. rewrite flat_map_length in Hoff.
    cbn [node_insert]. destruct (0 <? off) eqn:E; [|lia].
    rewrite child_idx_ge by lia. reflexivity.
Qed.

Lemma tv_insert_ok h t i x : tv_wf B h t -> i <= length (elems t) ->
  exists t' h', tv_insert B t i x = Some t' /\ tv_wf B h' t' /\ elems t' = ins i x (elems t).
Proof.
  intros Hwf Hi. unfold tv_insert.
  destruct (node_insert_ok h t _ i x Hwf) as (n' & r & -> & Hr); [destruct h; lia|assumption|].
  cbn [option_bind]. destruct r as [m|].
  - destruct Hr as (H1 & H2 & He).
    rewrite !av_insert_ok by (cbn; lia). cbn.
    rewrite !av_insert_ok by (cbn; lia). cbn.
    eexists _, (S h). split; [reflexivity|]. split.
    + split; [simpl; lia|]. split.
      * simpl. rewrite (wf_size _ _ _ H1), (wf_size _ _ _ H2). reflexivity.
      * repeat constructor; assumption.
    + simpl. rewrite app_nil_r. exact He.
  - destruct Hr as (H1 & He). exists n', h. auto.
Qed.

Lemma tv_insert_oob h t i x : tv_wf B h t -> length (elems t) < i -> tv_insert B t i x = None.
Proof. intros Hwf Hi. unfold tv_insert. rewrite (node_insert_oob h t _ i x Hwf Hi). reflexivity. Qed.

(** ** get / set *)

Lemma node_get_ok h : forall n lo off, wf B lo h n -> node_get n off = Some (nth_error (elems n) off).
Proof.
  induction h as [|h IH]; intros [d|sz cs] lo off Hwf; simpl in Hwf; try tauto.
  destruct Hwf as (_ & -> & Hf). cbn [node_get elems].
  destruct (Nat.lt_ge_cases off (sum (map ln cs))) as [Hlt|Hge].
  - destruct (child_idx_lt ln cs off Hlt) as (l1 & c & l2 & o & -> & -> & Ho & Hlo).
    rewrite with_nth_mid. apply Forall_app in Hf. destruct Hf as [_ Hf]. apply Forall_cons_iff in Hf.
    rewrite (IH c (B/2) o (proj1 Hf)). rewrite flat_mid.
    rewrite nth_error_app2 by (rewrite flat_map_length; lia).
    rewrite nth_error_app1 by (rewrite flat_map_length; lia).
    rewrite flat_map_length. do 2 f_equal. lia.
  - rewrite child_idx_ge by assumption. rewrite <- flat_map_length in Hge.
    f_equal. symmetry. apply nth_error_None. exact Hge.
Qed.

Lemma node_set_ok h : forall n lo off x, wf B lo h n ->
  (off < length (elems n) -> exists n', node_set n off x = Some (Some n') /\ wf B lo h n' /\
      elems n' = upd off x (elems n)) /\
  (length (elems n) <= off -> node_set n off x = Some None).
Proof.
  induction h as [|h IH]; intros [d|sz cs] lo off x Hwf; simpl in Hwf; try tauto.
  - cbn [node_set elems]. unfold slice_set. split; intros H.
    + destruct (off <? length d) eqn:E; [|lia]. eexists. split; [reflexivity|].
      fold (upd off x d). cbn [wf elems]. rewrite length_upd by lia. split; [lia|reflexivity].
    + destruct (off <? length d) eqn:E; [lia|reflexivity].
  - destruct Hwf as (Hl & -> & Hf). cbn [node_set elems]. rewrite flat_map_length. split; intros H.
    + destruct (child_idx_lt ln cs off H) as (l1 & c & l2 & o & -> & -> & Ho & Hlo).
      rewrite with_nth_mid. apply Forall_app in Hf. destruct Hf as [Hf1 Hf]. apply Forall_cons_iff in Hf.
      destruct Hf as [Hc Hf2].
      destruct (IH c (B/2) o x Hc) as [IH1 _]. destruct (IH1 Hlo) as (c' & -> & Hw & He).
      cbn [option_bind]. rewrite slice_set_mid. cbn [option_bind]. eexists. split; [reflexivity|]. split.
      * apply wf_internal.
        -- rewrite app_length in *. simpl in *. lia.
        -- rewrite !map_app. simpl. replace (ln c') with (ln c); [reflexivity|].
           unfold ln. rewrite He, length_upd by lia. reflexivity.
        -- apply Forall_app; split; [assumption|constructor; assumption].
      * cbn [elems]. rewrite !flat_mid, He. rewrite upd_app_r, upd_app_l by (rewrite ?flat_map_length; lia).
        rewrite flat_map_length. do 2 f_equal. f_equal. lia.
    + rewrite child_idx_ge by lia. reflexivity.
Qed.

(** ** remove *)

Lemma merge_from_right_ok h (l r : node T) :
  wf B (B/2 - 1) h l -> entries l = B/2 - 1 -> wf B (B/2) h r ->
  exists l' r' a, merge_from_right B l r = Some (l', r', a) /\ wf B (B/2) h l' /\
    if a : bool then elems l' = elems l ++ elems r
    else wf B (B/2) h r' /\ elems l' ++ elems r' = elems l ++ elems r.
Proof.
  destruct h as [|h], l as [ld|lsz lcs], r as [rd|rsz rcs]; simpl; try tauto; intros Hl Hel Hr.
  - unfold merge_from_right.
    destruct (length rd <? length ld) eqn:E0; [lia|].
    destruct (length ld + length rd <=? B) eqn:E1.
    + rewrite av_extend_ok by lia. cbn [option_bind]. do 3 eexists. split; [reflexivity|].
      cbn [elems]. rewrite app_length. split; [lia|reflexivity].
    + destruct ((length rd - length ld) / 2 =? 0) eqn:E2; [lia|].
      pose proof (firstn_length ((length rd - length ld) / 2) rd) as L1.
      pose proof (skipn_length ((length rd - length ld) / 2) rd) as L2.
      rewrite av_extend_ok by lia. cbn [option_bind]. do 3 eexists. split; [reflexivity|].
      cbn [elems]. rewrite app_length. split; [lia|]. split; [lia|].
      rewrite <- app_assoc, firstn_skipn. reflexivity.
  - destruct Hl as (Hl & -> & Hlf), Hr as (Hr & -> & Hrf).
    destruct (length lcs + length rcs <=? B) eqn:E1.
    + rewrite !av_extend_ok by (rewrite ?map_length; lia). cbn [option_bind].
      do 3 eexists. split; [reflexivity|]. split.
      * rewrite app_length. split; [lia|]. split; [rewrite map_app; reflexivity|].
        apply Forall_app; auto.
      * simpl. apply flat_map_app.
    + destruct (length rcs <? length lcs) eqn:E0; [lia|].
      set (k := (length rcs - length lcs) / 2) in *.
      destruct (k =? 0) eqn:E2; [lia|].
      pose proof (firstn_length k rcs) as L1.
      pose proof (skipn_length k rcs) as L2.
      rewrite !av_split_ok by (rewrite ?map_length; lia). cbn [option_bind].
      rewrite firstn_map, skipn_map.
      rewrite !av_extend_ok by (rewrite ?map_length; lia). cbn [option_bind].
      rewrite <- (firstn_skipn k rcs) in Hrf. apply Forall_app in Hrf.
      do 3 eexists. split; [reflexivity|]. split; [|split].
      * rewrite app_length. split; [lia|]. split; [rewrite map_app; reflexivity|].
        apply Forall_app; tauto.
      * split; [lia|]. split; [reflexivity|tauto].
      * cbn [elems]. rewrite <- (firstn_skipn k rcs) at 3. rewrite !flat_map_app, <- app_assoc. reflexivity.
Qed.

Lemma merge_from_left_ok h (l r : node T) :
  wf B (B/2 - 1) h r -> entries r = B/2 - 1 -> wf B (B/2) h l ->
  exists l' r' a, merge_from_left B l r = Some (l', r', a) /\ wf B (B/2) h r' /\
    if a : bool then elems r' = elems l ++ elems r
    else wf B (B/2) h l' /\ elems l' ++ elems r' = elems l ++ elems r.
Proof.
  destruct h as [|h], l as [ld|lsz lcs], r as [rd|rsz rcs]; simpl; try tauto; intros Hr Her Hl.
  - destruct (length ld <? length rd) eqn:E0; [lia|].
    destruct (length ld + length rd <=? B) eqn:E1.
    + rewrite av_extend_ok by lia. cbn [option_bind]. do 3 eexists. split; [reflexivity|].
      cbn [elems]. rewrite app_length. split; [lia|reflexivity].
    + destruct (list_snoc ld) as (ld' & x & ->); [lia|]. rewrite pop_last_snoc. cbn [option_bind].
      rewrite app_length in *. simpl length in *.
      rewrite av_insert_ok by lia. cbn [option_bind]. do 3 eexists. split; [reflexivity|].
      cbn [elems]. rewrite length_ins. split; [lia|]. split; [lia|].
      unfold ins. simpl. rewrite <- app_assoc. reflexivity.
  - destruct Hl as (Hl & -> & Hlf), Hr as (Hr & -> & Hrf).
    destruct (length lcs + length rcs <=? B) eqn:E1.
    + rewrite !av_extend_ok by (rewrite ?map_length; lia). cbn [option_bind].
      do 3 eexists. split; [reflexivity|]. split.
      * rewrite app_length. split; [lia|]. split; [rewrite map_app; reflexivity|].
        apply Forall_app; auto.
      * simpl. apply flat_map_app.
    + destruct (list_snoc lcs) as (lcs' & c & ->); [lia|].
      rewrite map_app. simpl map. rewrite !pop_last_snoc. cbn [option_bind].
      rewrite app_length in *. simpl length in *.
      rewrite !av_insert_ok by (rewrite ?map_length; lia). cbn [option_bind].
      apply Forall_app in Hlf. destruct Hlf as [Hlf Hc]. apply Forall_cons_iff in Hc.
      do 3 eexists. split; [reflexivity|]. split; [|split].
      * rewrite length_ins. split; [lia|]. split; [rewrite map_ins; reflexivity|].
        apply Forall_ins; tauto.
      * split; [lia|]. split; [reflexivity|tauto].
      * cbn [elems]. unfold ins. simpl. rewrite flat_map_app. simpl. rewrite app_nil_r, <- app_assoc. reflexivity.
Qed.

Lemma node_remove_ok h : forall n lo off,
  wf B lo h n -> (h <> 0 -> 2 <= lo) -> off < length (elems n) ->
  exists n' x u, node_remove B n off = Some (n', x, u) /\
    nth_error (elems n) off = Some x /\ elems n' = del off (elems n) /\
    wf B (entries n - 1) h n' /\
    if u : bool then entries n' < B/2 else entries n' = entries n \/ B/2 <= entries n'.
Proof.
  induction h as [|h IH]; intros [d|sz cs] lo off Hwf Hlo Hoff; simpl in Hwf; try tauto.
  - cbn [node_remove elems] in *. unfold av_remove.
    destruct (nth_error d off) as [x|] eqn:Ex.
    2: { apply nth_error_None in Ex. lia. }
    cbn [option_bind]. fold (del off d). do 3 eexists. split; [reflexivity|].
    split; [reflexivity|]. split; [reflexivity|]. cbn [wf entries]. rewrite length_del by lia.
    split; [lia|]. destruct (length d - 1 <? B/2) eqn:E; lia.
  - destruct Hwf as (Hlen & -> & Hf). specialize (Hlo ltac:(lia)).
    cbn [elems entries] in *. rewrite flat_map_length in Hoff.
    cbn [node_remove].
    destruct (child_idx_lt ln cs off Hoff) as (l1 & c & l2 & o & -> & -> & Ho & Hoc).
    cbn [option_bind].
    apply Forall_app in Hf. destruct Hf as [Hf1 Hf2]. apply Forall_cons_iff in Hf2. destruct Hf2 as [Hfc Hf2].
    destruct (IH c (B/2) o Hfc ltac:(lia) Hoc) as (c' & x & u & Hrm & Hx & He & Hw & Hu).
    pose proof (wf_entries _ _ _ Hfc) as Hec.
    rewrite map_app. cbn [map].
    assert (Hnth : nth_error (map ln l1 ++ ln c :: map ln l2) (length l1) = Some (ln c))
      by (replace (length l1) with (length (map ln l1)) by apply map_length; apply nth_error_mid).
    assert (Hset : forall a b, slice_set (map ln l1 ++ a :: map ln l2) (length l1) b = Some (map ln l1 ++ b :: map ln l2))
      by (intros a b; replace (length l1) with (length (map ln l1)) by apply map_length; apply slice_set_mid).
    rewrite Hnth. cbn [option_bind]. destruct (ln c =? 0) eqn:Ez; [unfold ln in *; lia|].
    rewrite Hset. cbn [option_bind]. rewrite with_nth_mid, Hrm. cbn [option_bind].
    rewrite slice_set_mid. cbn [option_bind].
    assert (Hlnc' : ln c - 1 = ln c') by (unfold ln; rewrite He, length_del by lia; reflexivity).
    rewrite Hlnc'.
    rewrite flat_mid. fold (flat_map (@elems T) l1).
    assert (Hnx : nth_error (flat_map elems l1 ++ elems c ++ flat_map elems l2) off = Some x).
    { rewrite nth_error_app2 by (rewrite flat_map_length; lia).
      rewrite flat_map_length; replace (off - sum (map ln l1)) with o by lia.
      rewrite nth_error_app1 by lia. exact Hx. }
    assert (Hdel : del off (flat_map elems l1 ++ elems c ++ flat_map elems l2) =
                   flat_map elems l1 ++ elems c' ++ flat_map elems l2).
    { rewrite del_app_r by (rewrite flat_map_length; lia).
      rewrite flat_map_length; replace (off - sum (map ln l1)) with o by lia.
      rewrite del_app_l by lia. rewrite He. reflexivity. }
    rewrite Hdel.
    rewrite app_length in *. cbn [length] in *.
    destruct u; cbn [negb].
    + (* undersize *)
      assert (Hec' : entries c' = B/2 - 1) by (pose proof (wf_entries _ _ _ Hw); lia).
      assert (Hwc' : wf B (B/2-1) h c') by (eapply wf_lo; [exact Hw|lia]).
      destruct (length l1 + 1 <? length l1 + S (length l2)) eqn:Eidx.
      * destruct l2 as [|nx l2]; [simpl in *; lia|].
        apply Forall_cons_iff in Hf2. destruct Hf2 as [Hfn Hf2].
        assert (Hn1 : forall {A} (a : list A) p q r, nth_error (a ++ p :: q :: r) (length a + 1) = Some q).
        { intros A a p q r. rewrite nth_error_app2 by lia.
          replace (length a + 1 - length a) with 1 by lia. reflexivity. }
        rewrite Hn1. cbn [option_bind].
        destruct (merge_from_right_ok h c' nx Hwc' Hec' Hfn) as (cl & cr & a & -> & Hwl & Ha).
        cbn [option_bind]. rewrite slice_set_mid. cbn [option_bind].
        assert (Hs1 : forall {A} (a : list A) p q r z, slice_set (a ++ p :: q :: r) (length a + 1) z = Some (a ++ p :: z :: r)).
        { intros A b p q r z. replace (b ++ p :: q :: r) with ((b ++ [p]) ++ q :: r) by (rewrite <- app_assoc; reflexivity).
          replace (length b + 1) with (length (b ++ [p])) by (rewrite app_length; reflexivity).
          rewrite slice_set_mid, <- app_assoc. reflexivity. }
        rewrite Hs1. cbn [option_bind]. rewrite Hset. cbn [option_bind].
        rewrite (wf_size _ _ _ Hwl). fold (ln cl).
        destruct a.
        -- assert (Hr1 : forall {A} (a : list A) p q r, av_remove (a ++ p :: q :: r) (length a + 1) = Some (q, a ++ p :: r)).
           { intros A b p q r. replace (b ++ p :: q :: r) with ((b ++ [p]) ++ q :: r) by (rewrite <- app_assoc; reflexivity).
             replace (length b + 1) with (length (b ++ [p])) by (rewrite app_length; reflexivity).
             rewrite av_remove_mid, <- app_assoc. reflexivity. }
           rewrite Hr1. cbn [option_bind map].
           replace (length l1 + 1) with (length (map ln l1) + 1) by (rewrite map_length; reflexivity).
           rewrite Hr1. cbn [option_bind].
           do 3 eexists. split; [reflexivity|]. split; [exact Hnx|]. split; [|split].
           ++ cbn [elems]. rewrite flat_mid, Ha. simpl. rewrite <- !app_assoc. reflexivity.
           ++ apply wf_internal.
              ** rewrite !app_length; cbn [length] in *; lia.
              ** rewrite map_app. reflexivity.
              ** apply Forall_app; split; [assumption|constructor; assumption].
           ++ cbn [entries]. rewrite !app_length. cbn [length] in *.
              destruct (length l1 + S (length l2) <? B/2) eqn:E; lia.
        -- destruct Ha as [Hwr Ha]. cbn [map].
           replace (length l1 + 1) with (length (map ln l1) + 1) by (rewrite map_length; reflexivity).
           rewrite Hs1. cbn [option_bind]. rewrite (wf_size _ _ _ Hwr). fold (ln cr).
           do 3 eexists. split; [reflexivity|]. split; [exact Hnx|]. split; [|split].
           ++ cbn [elems]. rewrite flat_mid. simpl. rewrite (app_assoc (elems cl)), Ha, <- !app_assoc. reflexivity.
           ++ apply wf_internal.
              ** rewrite !app_length; cbn [length] in *; lia.
              ** rewrite map_app. reflexivity.
              ** apply Forall_app; split; [assumption|repeat constructor; assumption].
           ++ left. cbn [entries]. rewrite !app_length. cbn [length]. lia.
      * destruct l2 as [|? ?]; [|simpl in *; lia]. clear Hf2.
        destruct (length l1 =? 0) eqn:E0; [simpl in *; lia|].
        destruct (list_snoc l1) as (l0 & pv & ->); [lia|].
        rewrite app_length in *. cbn [length] in *.
        replace (length l0 + 1 - 1) with (length l0) by lia.
        apply Forall_app in Hf1. destruct Hf1 as [Hf0 Hfp]. apply Forall_cons_iff in Hfp. destruct Hfp as [Hfp _].
        rewrite <- app_assoc. cbn [app]. rewrite nth_error_mid. cbn [option_bind].
        destruct (merge_from_left_ok h pv c' Hwc' Hec' Hfp) as (cl & cr & a & -> & Hwr & Ha).
        cbn [option_bind].
        assert (Hs1 : forall {A} (a : list A) p q r z, slice_set (a ++ p :: q :: r) (length a + 1) z = Some (a ++ p :: z :: r)).
        { intros A b p q r z. replace (b ++ p :: q :: r) with ((b ++ [p]) ++ q :: r) by (rewrite <- app_assoc; reflexivity).
          replace (length b + 1) with (length (b ++ [p])) by (rewrite app_length; reflexivity).
          rewrite slice_set_mid, <- app_assoc. reflexivity. }
        rewrite Hs1. cbn [option_bind]. rewrite slice_set_mid. cbn [option_bind].
        rewrite map_app in *. cbn [map] in *. rewrite <- app_assoc in *. cbn [app] in *.
        rewrite (wf_size _ _ _ Hwr). fold (ln cr).
        destruct a.
        -- replace (length l0 + 1) with (length (map ln l0) + 1) by (rewrite map_length; reflexivity).
           rewrite Hs1. cbn [option_bind]. rewrite av_remove_mid. cbn [option_bind].
           replace (length l0) with (length (map ln l0)) by (rewrite map_length; reflexivity).
           rewrite av_remove_mid. cbn [option_bind].
           do 3 eexists. split; [reflexivity|]. split; [exact Hnx|]. split; [|split].
           ++ cbn [elems]. rewrite !flat_map_app. simpl. rewrite !app_nil_r, Ha, <- !app_assoc. reflexivity.
           ++ apply wf_internal.
              ** rewrite !app_length; cbn [length] in *; lia.
              ** rewrite map_app. reflexivity.
              ** apply Forall_app; split; [assumption|repeat constructor; assumption].
           ++ cbn [entries]. rewrite !app_length. cbn [length] in *.
              destruct (length l0 + 1 <? B/2) eqn:E; lia.
        -- destruct Ha as [Hwl Ha]. rewrite (wf_size _ _ _ Hwl). fold (ln cl).
           rewrite <- (map_length ln l0).
           rewrite slice_set_mid. cbn [option_bind].
           rewrite Hs1. cbn [option_bind].
           do 3 eexists. split; [reflexivity|]. split; [exact Hnx|]. split; [|split].
           ++ cbn [elems]. rewrite !flat_map_app. simpl. rewrite !app_nil_r, Ha, <- !app_assoc. reflexivity.
           ++ apply wf_internal.
              ** rewrite !app_length; cbn [length] in *; lia.
              ** rewrite map_app. reflexivity.
              ** apply Forall_app; split; [assumption|repeat constructor; assumption].
           ++ left. cbn [entries]. rewrite !app_length. cbn [length]. lia.
    + do 3 eexists. split; [reflexivity|]. split; [exact Hnx|]. split; [|split].
      * cbn [elems]. rewrite flat_mid. reflexivity.
      * apply wf_internal.
        -- rewrite !app_length; cbn [length]; lia.
        -- rewrite map_app. reflexivity.
        -- apply Forall_app; split; [assumption|constructor; [|assumption]].
           eapply wf_lo; [exact Hw|lia].
      * left. cbn [entries]. rewrite !app_length. cbn [length]. lia.
Qed.

Lemma node_remove_oob h : forall n lo off,
  wf B lo h n -> length (elems n) <= off -> node_remove B n off = None.
Proof.
  intros n lo off Hwf Hoff. destruct h, n as [d|sz cs]; simpl in Hwf; try tauto.
  - cbn [elems node_remove] in *. unfold av_remove.
    destruct (nth_error d off) eqn:E; [|reflexivity].
    assert (nth_error d off <> None) by congruence. apply nth_error_Some in H. lia.
  - destruct Hwf as (_ & -> & _). cbn [elems node_remove] in *. rewrite flat_map_length in Hoff.
    rewrite child_idx_ge by lia. reflexivity.
Qed.

Lemma tv_remove_ok h t i : tv_wf B h t -> i < length (elems t) ->
  exists x t' h', tv_remove B t i = Some (x, t') /\ tv_wf B h' t' /\
    nth_error (elems t) i = Some x /\ elems t' = del i (elems t).
Proof.
  intros Hwf Hi. unfold tv_remove.
  destruct (node_remove_ok h t _ i Hwf) as (n' & x & u & -> & Hx & He & Hw & Hu);
    [destruct h; lia|assumption|].
  cbn [option_bind]. unfold tv_wf in *. pose proof (wf_entries _ _ _ Hwf) as Hent.
  destruct h as [|h], n' as [d|sz cs]; simpl in Hw; try tauto.
  - exists x, (Leaf d), 0. cbn [wf]. repeat split; try assumption; lia.
  - destruct Hw as (Hl & Hs & Hf). destruct cs as [|c [|c2 cs]].
    + simpl in *. lia.
    + apply Forall_cons_iff in Hf. destruct Hf as [Hf _].
      exists x, c, h. split; [reflexivity|]. split.
      * eapply wf_weaken; [exact Hf|]. destruct h; lia.
      * split; [assumption|]. rewrite <- He. simpl. rewrite app_nil_r. reflexivity.
    + exists x, (Internal sz (c :: c2 :: cs)), (S h). split; [reflexivity|]. split.
      * split; [|tauto]. simpl in *. lia.
      * auto.
Qed.

Lemma tv_remove_oob h t i : tv_wf B h t -> length (elems t) <= i -> tv_remove B t i = None.
Proof. intros Hwf Hi. unfold tv_remove. rewrite (node_remove_oob h t _ i Hwf Hi). reflexivity. Qed.

(** ** len, is_empty *)

Lemma tv_len_ok h t : tv_wf B h t -> tv_len t = length (elems t).
Proof. apply wf_size. Qed.

Lemma tv_is_empty_ok h t : tv_wf B h t -> tv_is_empty t = (length (elems t) =? 0).
Proof.
  intros Hwf. unfold tv_wf in Hwf. destruct t as [d|sz cs]; [reflexivity|].
  destruct h as [|h]; [simpl in Hwf; tauto|].
  assert (0 < length (elems (Internal sz cs))) by (eapply (wf_nonempty (S h)); [exact Hwf|lia]).
  cbn [tv_is_empty]. symmetry. apply Nat.eqb_neq. lia.
Qed.

(** ** check_invariants *)

Lemma node_check_ok h : forall n lo root, wf B lo h n -> (root = false -> B/2 <= lo) -> node_check B root n = true.
Proof.
  induction h as [|h IH]; intros [d|sz cs] lo root Hwf Hr; simpl in Hwf; try tauto.
  - simpl. destruct root; [reflexivity|]. specialize (Hr eq_refl). simpl. apply Nat.leb_le. lia.
  - destruct Hwf as (Hl & -> & Hf). cbn [node_check]. rewrite map_length, Nat.eqb_refl. cbn [andb].
    apply andb_true_intro. split.
    + destruct root; [reflexivity|]. specialize (Hr eq_refl). simpl. apply Nat.leb_le. lia.
    + clear Hl. induction Hf as [|c cs Hc Hf IHf]; [reflexivity|]. cbn [map].
      rewrite (wf_size _ _ _ Hc), Nat.eqb_refl, (IH c (B/2) false Hc) by lia. exact IHf.
Qed.

Lemma wf_height_bound h : forall n lo, wf B lo (S h) n -> lo * (B/2)^(S h) <= length (elems n).
Proof.
  induction h as [|h IH]; intros [d|sz cs] lo Hwf; simpl in Hwf; try tauto.
  - destruct Hwf as (Hl & _ & Hf). cbn [elems]. rewrite Nat.pow_1_r.
    enough (length cs * (B/2) <= length (flat_map elems cs)) by (transitivity (length cs * (B/2)); [apply Nat.mul_le_mono_r; lia|lia]).
    clear Hl. induction Hf as [|c cs Hc Hf IHf]; [simpl; lia|]. cbn [flat_map length]. rewrite app_length.
    destruct c as [d|]; simpl in Hc; [|tauto]. simpl. lia.
  - destruct Hwf as (Hl & _ & Hf). change (wf B (B/2) (S h)) in Hf || idtac. cbn [elems].
    transitivity (length cs * (B/2)^(S (S h))); [apply Nat.mul_le_mono_r; lia|].
    clear Hl. induction cs as [|c cs IHf]; [simpl; lia|]. apply Forall_cons_iff in Hf. destruct Hf as [Hc Hf].
    cbn [flat_map length]. rewrite app_length.
    pose proof (IH c (B/2) Hc) as H1. specialize (IHf Hf).
    change (S (length cs) * (B/2)^(S (S h))) with ((B/2)^(S (S h)) + length cs * (B/2)^(S (S h))).
    change ((B/2)^(S (S h))) with ((B/2) * (B/2)^(S h)) at 1. lia.
Qed.

(** ** Iteration *)

(** What a stack of partially consumed child iterators still has to yield. *)
Definition stack_elems (st : list (list (node T))) : list T := flat_map (flat_map elems) st.

(** Every node on the stack is non-empty and iterable. *)
Definition good (c : node T) : Prop := exists h, wf B (B/2) h c.
Definition good_stack (st : list (list (node T))) : Prop := Forall (Forall good) st.

Lemma descend_ok h : forall n lo st, wf B lo h n -> 1 <= lo -> good_stack st ->
  exists st' d, descend n st = Some (st', d) /\ good_stack st' /\ d <> [] /\
    d ++ stack_elems st' = elems n ++ stack_elems st.
Proof.
  induction h as [|h IH]; intros [d|sz cs] lo st Hwf Hlo Hst; simpl in Hwf; try tauto.
  - exists st, d. repeat split; [assumption|]. destruct d; simpl in *; [lia|discriminate].
  - destruct Hwf as (Hl & _ & Hf). destruct cs as [|c cs]; simpl in Hl; [lia|].
    apply Forall_cons_iff in Hf. destruct Hf as [Hc Hf]. cbn [descend].
    destruct (IH c (B/2) (cs :: st) Hc) as (st' & d & -> & Hg & Hd & He); [lia| |].
    + constructor; [|assumption]. eapply Forall_impl; [|exact Hf]. intros a Ha. exists h. exact Ha.
    + exists st', d. repeat split; try assumption. rewrite He. simpl. rewrite <- app_assoc. reflexivity.
Qed.

Lemma next_loop_ok st : good_stack st ->
  match stack_elems st with
  | [] => exists st', next_loop st = Some (None, (st', [])) /\ good_stack st' /\ stack_elems st' = []
  | x :: l => exists st' d, next_loop st = Some (Some x, (st', d)) /\ good_stack st' /\ d ++ stack_elems st' = l
  end.
Proof.
  induction st as [|[|c cs] st IH]; intros Hg.
  - simpl. exists []. repeat split; constructor.
  - simpl. apply IH. inversion Hg; assumption.
  - apply Forall_cons_iff in Hg. destruct Hg as [Hc Hg]. apply Forall_cons_iff in Hc. destruct Hc as [[h Hc] Hcs].
    destruct (descend_ok h c (B/2) (cs :: st) Hc) as (st' & d & Hd & Hg' & Hne & He); [lia|constructor; assumption|].
    destruct d as [|x d]; [contradiction|].
    cbn [next_loop]. rewrite Hd. cbn [option_bind].
    assert (E : stack_elems ((c :: cs) :: st) = x :: d ++ stack_elems st').
    { rewrite <- app_comm_cons in He. rewrite He. unfold stack_elems. simpl. rewrite <- app_assoc. reflexivity. }
    rewrite E. exists st', d. auto.
Qed.

(** What an iterator still has to yield, and its well-formedness. *)
Definition iter_rest (it : iter T) : list T :=
  match it with
  | Simple l => l
  | Tree st leaf r => firstn r (leaf ++ stack_elems st)
  end.
Definition iter_good (it : iter T) : Prop :=
  match it with Simple _ => True | Tree st _ _ => good_stack st end.

Lemma iter_next_ok it : iter_good it ->
  match iter_rest it with
  | [] => exists it', iter_next it = Some (None, it') /\ iter_good it' /\ iter_rest it' = []
  | x :: l => exists it', iter_next it = Some (Some x, it') /\ iter_good it' /\ iter_rest it' = l
  end.
Proof.
  destruct it as [l|st leaf r]; simpl; intros Hg.
  - destruct l as [|x l]; simpl; eexists; repeat split; try reflexivity.
  - destruct r as [|r].
    + simpl. eexists. split; [reflexivity|]. split; [exact Hg|reflexivity].
    + destruct leaf as [|x leaf].
      * pose proof (next_loop_ok st Hg) as H. simpl app. destruct (stack_elems st) as [|y l] eqn:E.
        -- destruct H as (st' & -> & Hg' & He). cbn. eexists. split; [reflexivity|]. split; [exact Hg'|].
           simpl. rewrite He. apply firstn_nil.
        -- destruct H as (st' & d & -> & Hg' & He). cbn. eexists. split; [reflexivity|]. split; [exact Hg'|].
           simpl. rewrite He. reflexivity.
      * cbn. eexists. split; [reflexivity|]. split; [exact Hg|]. reflexivity.
Qed.

Lemma iter_collect_ok it fuel : iter_good it -> length (iter_rest it) < fuel ->
  iter_collect fuel it = Some (iter_rest it).
Proof.
  revert it; induction fuel as [|f IH]; intros it Hg Hf; [lia|].
  cbn [iter_collect]. pose proof (iter_next_ok it Hg) as H.
  destruct (iter_rest it) as [|x l].
  - destruct H as (it' & -> & _). reflexivity.
  - destruct H as (it' & -> & Hg' & He). cbn [option_bind]. simpl in Hf.
    rewrite IH by (rewrite ?He; auto; lia). cbn. rewrite He. reflexivity.
Qed.

Lemma tv_iter_ok h t : tv_wf B h t ->
  exists it, tv_iter t = Some it /\ iter_good it /\ iter_rest it = elems t.
Proof.
  intros Hwf. unfold tv_wf in Hwf. destruct h as [|h], t as [d|sz cs]; simpl in Hwf; try tauto.
  - exists (Simple d). simpl; auto.
  - unfold tv_iter. destruct (descend_ok (S h) (Internal sz cs) 2 [] Hwf) as (st & d & -> & Hg & _ & He); [lia|constructor|].
    cbn [option_bind]. eexists. split; [reflexivity|]. split; [exact Hg|].
    cbn [iter_rest]. rewrite He. unfold stack_elems at 1. simpl (flat_map _ []). rewrite app_nil_r.
    apply firstn_all2. unfold tv_len. rewrite (wf_size 2 (S h) (Internal sz cs) Hwf). lia.
Qed.

Lemma descend_to_ok h : forall n lo off st leaf, wf B lo h n -> off < length (elems n) -> good_stack st ->
  exists st' d, descend_to n off st leaf = Some (st', d) /\ good_stack st' /\
    d ++ stack_elems st' = skipn off (elems n) ++ stack_elems st.
Proof.
  induction h as [|h IH]; intros [d|sz cs] lo off st leaf Hwf Hoff Hst; simpl in Hwf; try tauto.
  - cbn [descend_to elems] in *. destruct (off <=? length d) eqn:E; [|lia].
    exists st, (skipn off d). auto.
  - destruct Hwf as (_ & -> & Hf). cbn [descend_to elems] in *. rewrite flat_map_length in Hoff.
    destruct (child_idx_lt ln cs off Hoff) as (l1 & c & l2 & o & -> & -> & Ho & Hoc).
    rewrite with_nth_mid.
    apply Forall_app in Hf. destruct Hf as [Hf1 Hf2]. apply Forall_cons_iff in Hf2. destruct Hf2 as [Hfc Hf2].
    replace (skipn (S (length l1)) (l1 ++ c :: l2)) with l2.
    2: { rewrite skipn_app. rewrite skipn_all2 by lia. replace (S (length l1) - length l1) with 1 by lia. reflexivity. }
    destruct (IH c (B/2) o (l2 :: st) leaf Hfc Hoc) as (st' & d & Hd & Hg & He).
    + constructor; [|assumption]. eapply Forall_impl; [|exact Hf2]. intros a Ha. exists h. exact Ha.
    + exists st', d. split; [exact Hd|]. split; [exact Hg|]. rewrite He.
      rewrite flat_mid, skipn_app, (skipn_all2 (flat_map elems l1)) by (rewrite flat_map_length; lia).
      rewrite flat_map_length. replace (off - sum (map ln l1)) with o by lia.
      rewrite skipn_app. replace (o - length (elems c)) with 0 by lia. simpl.
      rewrite <- app_assoc. reflexivity.
Qed.

Lemma tv_range_ok h t a b : tv_wf B h t -> a <= b -> b <= length (elems t) ->
  exists it, tv_range t a b = Some it /\ iter_good it /\ iter_rest it = firstn (b - a) (skipn a (elems t)).
Proof.
  intros Hwf Hab Hb. unfold tv_wf in Hwf. destruct h as [|h], t as [d|sz cs]; simpl in Hwf; try tauto.
  - cbn [tv_range elems] in *. destruct ((a <=? b) && (b <=? length d)) eqn:E; [|lia].
    exists (Simple (firstn (b - a) (skipn a d))). simpl; auto.
  - unfold tv_range, tv_len. rewrite (wf_size 2 (S h) (Internal sz cs) Hwf).
    destruct (length (elems (Internal sz cs)) <? b) eqn:E1; [lia|].
    destruct (b <? a) eqn:E2; [lia|].
    destruct (Nat.lt_ge_cases a (length (elems (Internal sz cs)))) as [Hlt|Hge].
    + destruct (descend_to_ok (S h) (Internal sz cs) 2 a [] [] Hwf Hlt) as (st & d & -> & Hg & He); [constructor|].
      cbn [option_bind]. eexists. split; [reflexivity|]. split; [exact Hg|].
      cbn [iter_rest]. rewrite He. unfold stack_elems. simpl (flat_map _ []). rewrite app_nil_r. reflexivity.
    + assert (b - a = 0) by lia. rewrite H.
      assert (descend_to (Internal sz cs) a [] [] = Some ([], [])) as ->.
      { destruct Hwf as (_ & -> & _). cbn [descend_to elems] in *. rewrite flat_map_length in Hge.
        rewrite child_idx_ge by lia. reflexivity. }
      cbn. eexists. split; [reflexivity|]. split; [constructor|reflexivity].
Qed.

Lemma tv_range_oob h t a b : tv_wf B h t -> ~ (a <= b <= length (elems t)) -> tv_range t a b = None.
Proof.
  intros Hwf Hn. unfold tv_wf in Hwf. destruct h as [|h], t as [d|sz cs]; simpl in Hwf; try tauto.
  - cbn [tv_range elems] in *. destruct ((a <=? b) && (b <=? length d)) eqn:E; [lia|reflexivity].
  - unfold tv_range, tv_len. rewrite (wf_size 2 (S h) (Internal sz cs) Hwf).
    destruct (length (elems (Internal sz cs)) <? b) eqn:E1; [reflexivity|].
    destruct (b <? a) eqn:E2; [reflexivity|lia].
Qed.

(** ** partition_point *)

Lemma map_first_ok cs : Forall good cs ->
  exists fs, map_first cs = Some fs /\ length fs = length cs /\
    forall i c, nth_error cs i = Some c -> exists x, nth_error fs i = Some x /\ nth_error (elems c) 0 = Some x.
Proof.
  induction cs as [|c cs IH]; intros H.
  - exists []. repeat split. intros [|i] c; discriminate.
  - apply Forall_cons_iff in H. destruct H as [[h Hc] H]. destruct (IH H) as (fs & Hfs & Hl & Hi).
    assert (exists x, node_first c = Some x /\ nth_error (elems c) 0 = Some x) as (x & Hx & Hx').
    { clear -Hc HB. assert (1 <= B/2) by lia. revert c Hc. induction h as [|h IHh]; intros [d|sz cs] Hc; simpl in Hc; try tauto.
      - simpl. destruct d as [|x d]; simpl in *; [lia|eauto].
      - destruct Hc as (Hl & _ & Hf). destruct cs as [|c cs]; simpl in Hl; [lia|].
        apply Forall_cons_iff in Hf. destruct Hf as [Hc _]. destruct (IHh c Hc) as (x & H1 & H2).
        exists x. split; [exact H1|]. cbn [elems flat_map]. rewrite nth_error_app1; [exact H2|].
        assert (nth_error (elems c) 0 <> None) as Hn by congruence. apply nth_error_Some in Hn. exact Hn. }
    exists (x :: fs). cbn [map_first]. rewrite Hx, Hfs. cbn. repeat split; [lia|].
    intros [|i] c0; simpl; intros E; [injection E as <-; eauto|eauto].
Qed.

Lemma node_pp_ok pp (p : T -> bool) : pp_ok pp -> forall h n lo, wf B lo h n ->
  exists o, node_pp pp p n = Some o /\ boundary p (elems n) o.
Proof.
  intros Hpp. induction h as [|h IH]; intros [d|sz cs] lo Hwf; simpl in Hwf; try tauto.
  - apply Hpp.
  - destruct Hwf as (Hl & -> & Hf). cbn [node_pp elems].
    destruct (map_first_ok cs) as (fs & -> & Hfl & Hfs).
    { eapply Forall_impl; [|exact Hf]. intros a Ha. exists h. exact Ha. }
    cbn [option_bind]. destruct (Hpp T p fs) as (ci & -> & Hle & Hb1 & Hb2). cbn [option_bind].
    destruct (0 <? ci) eqn:E.
    + destruct ci as [|k]; [lia|]. replace (S k - 1) with k by lia.
      destruct (nth_error cs k) as [c|] eqn:Ec.
      2: { apply nth_error_None in Ec. lia. }
      destruct (nth_error_split _ _ Ec) as (l1 & l2 & -> & <-).
      rewrite with_nth_mid.
      apply Forall_app in Hf. destruct Hf as [Hf1 Hf2]. apply Forall_cons_iff in Hf2. destruct Hf2 as [Hfc Hf2].
      destruct (IH c (B/2) Hfc) as (o & -> & Ho & Ho1 & Ho2). cbn [option_bind].
      rewrite map_length. destruct (_ <=? _) eqn:E2; [|rewrite app_length in *; simpl in *; lia].
      rewrite map_app, firstn_app, firstn_all2 by (rewrite map_length; lia).
      rewrite map_length, Nat.sub_diag. simpl (firstn 0 _). rewrite app_nil_r, <- flat_map_length.
      eexists. split; [reflexivity|].
      destruct (Hfs _ _ Ec) as (x & Hx1 & Hx2). specialize (Hb2 _ _ eq_refl Hx1).
      assert (Hopos : o <> 0). { intros ->. specialize (Ho1 _ Hx2). congruence. }
      rewrite flat_mid. split; [rewrite !app_length; lia|]. split.
      * intros y Hy. rewrite nth_error_app2 in Hy by lia.
        replace (o + length (flat_map elems l1) - length (flat_map elems l1)) with o in Hy by lia.
        destruct (Nat.eq_dec o (length (elems c))) as [->|Hne].
        -- rewrite nth_error_app2, Nat.sub_diag in Hy by lia.
           destruct l2 as [|c2 l2]; [discriminate|].
           assert (Ec2 : nth_error (l1 ++ c :: c2 :: l2) (S (length l1)) = Some c2).
           { rewrite nth_error_app2 by lia. replace (S (length l1) - length l1) with 1 by lia. reflexivity. }
           destruct (Hfs _ _ Ec2) as (z & Hz1 & Hz2). specialize (Hb1 _ Hz1).
           cbn [flat_map] in Hy. rewrite nth_error_app1 in Hy.
           2: { assert (nth_error (elems c2) 0 <> None) as Hn by congruence. apply nth_error_Some in Hn. exact Hn. }
           congruence.
        -- rewrite nth_error_app1 in Hy by lia. eauto.
      * intros o' y Ho' Hy. destruct o as [|o1]; [lia|]. rewrite nth_error_app2 in Hy by lia.
        replace (o' - length (flat_map elems l1)) with o1 in Hy by lia.
        rewrite nth_error_app1 in Hy by lia. eauto.
    + assert (ci = 0) by lia. subst ci. exists 0. split; [reflexivity|]. split; [lia|]. split; [|discriminate].
      intros y Hy. destruct cs as [|c cs]; [discriminate|].
      destruct (Hfs 0 c eq_refl) as (x & Hx1 & Hx2). specialize (Hb1 _ Hx1).
      cbn [flat_map] in Hy. rewrite nth_error_app1 in Hy.
      2: { assert (nth_error (elems c) 0 <> None) as Hn by congruence. apply nth_error_Some in Hn. exact Hn. }
      congruence.
Qed.

End WithB.

(** The two std implementations find a boundary. *)
Lemma std_pp_old_loop_ok {A} (p : A -> bool) l fuel : forall left right,
  right - left < fuel -> left <= right <= length l ->
  (forall x, nth_error l right = Some x -> p x = false) ->
  (forall o' x, left = S o' -> nth_error l o' = Some x -> p x = true) ->
  exists o, std_pp_old_loop fuel p l left right = Some o /\ boundary p l o.
Proof.
  induction fuel as [|f IH]; intros left right Hf Hb H1 H2; [lia|]. cbn [std_pp_old_loop].
  destruct (left <? right) eqn:E.
  - set (mid := left + (right - left) / 2). assert (left <= mid < right) by (unfold mid; lia).
    destruct (nth_error l mid) as [x|] eqn:Ex; [|apply nth_error_None in Ex; lia].
    cbn [option_bind]. destruct (p x) eqn:Ep.
    + apply IH; [lia|lia|assumption|]. intros o' y Ho Hy. assert (o' = mid) by lia. subst o'. congruence.
    + apply IH; [lia|lia| |assumption]. intros y Hy. congruence.
  - assert (left = right) by lia. subst right. exists left. split; [reflexivity|].
    repeat split; [lia|assumption|assumption].
Qed.

Lemma std_pp_old_ok : pp_ok (@std_pp_old).
Proof.
  intros A p l. unfold std_pp_old. apply std_pp_old_loop_ok; try lia.
  - intros x Hx. assert (nth_error l (length l) <> None) as Hn by congruence. apply nth_error_Some in Hn. lia.
Qed.

Lemma std_pp_new_loop_ok {A} (p : A -> bool) l fuel : forall base size,
  size < fuel -> 1 <= size -> base + size <= length l ->
  (forall x, nth_error l (base + size) = Some x -> p x = false) \/
  (2 <= size /\ forall x, nth_error l (base + size - 1) = Some x -> p x = false) ->
  (0 < base -> forall x, nth_error l base = Some x -> p x = true) ->
  exists o, std_pp_new_loop fuel p l base size = Some o /\ boundary p l o.
Proof.
  induction fuel as [|f IH]; intros base size Hf Hs Hb H1 H2; [lia|]. cbn [std_pp_new_loop].
  destruct (1 <? size) eqn:E.
  - set (half := size / 2). assert (1 <= half < size) by (unfold half; lia).
    destruct (nth_error l (base + half)) as [x|] eqn:Ex; [|apply nth_error_None in Ex; lia].
    cbn [option_bind]. destruct (p x) eqn:Ep.
    + apply IH; try lia.
      * destruct H1 as [H1|[H0 H1]].
        -- left. intros y Hy. apply H1. rewrite <- Hy. f_equal. lia.
        -- right. destruct (Nat.eq_dec (size - half) 1) as [E1|E1].
           ++ specialize (H1 x). rewrite <- Ex in H1. replace (base + size - 1) with (base + half) in H1 by lia.
              specialize (H1 eq_refl). congruence.
           ++ split; [lia|]. intros y Hy. apply H1. rewrite <- Hy. f_equal. lia.
      * intros _ y Hy. congruence.
    + assert (Hhalf : size - half = half \/ size - half = half + 1) by (unfold half; lia).
      apply IH; try lia; [|exact H2].
      destruct Hhalf as [Hh|Hh].
      * left. rewrite Hh. intros y Hy. congruence.
      * right. split; [lia|]. replace (base + (size - half) - 1) with (base + half) by lia. intros y Hy. congruence.
  - assert (size = 1) by lia. subst size. destruct H1 as [H1|[H1 _]]; [|lia].
    destruct (nth_error l base) as [x|] eqn:Ex; [|apply nth_error_None in Ex; lia].
    cbn [option_bind]. eexists. split; [reflexivity|]. destruct (p x) eqn:Ep.
    + repeat split; [lia|exact H1|]. intros o' y Ho Hy. assert (o' = base) by lia. subst o'. congruence.
    + rewrite Nat.add_0_r. repeat split; [lia| |].
      * intros y Hy. congruence.
      * intros o' y Ho Hy. specialize (H2 ltac:(lia) x eq_refl). congruence.
Qed.

Lemma std_pp_new_ok : pp_ok (@std_pp_new).
Proof.
  intros A p l. unfold std_pp_new. destruct l as [|a l].
  - exists 0. split; [reflexivity|]. repeat split; [simpl; lia| |discriminate]. intros x Hx; discriminate.
  - apply std_pp_new_loop_ok; try (simpl; lia).
    left. intros x Hx. assert (nth_error (a :: l) (0 + length (a :: l)) <> None) as Hn by congruence.
    apply nth_error_Some in Hn. simpl in Hn. lia.
Qed.

(** For a monotone predicate a boundary is the length of the true prefix. *)
Lemma boundary_monotone {A} (p : A -> bool) l1 l2 o :
  Forall (fun x => p x = true) l1 -> Forall (fun x => p x = false) l2 ->
  boundary p (l1 ++ l2) o -> o = length l1.
Proof.
  intros H1 H2 (Hle & Hb1 & Hb2). rewrite Forall_forall in *.
  destruct (Nat.lt_trichotomy o (length l1)) as [Hlt|[->|Hgt]]; [|reflexivity|].
  - destruct (nth_error (l1 ++ l2) o) as [x|] eqn:E.
    + specialize (Hb1 x eq_refl). rewrite nth_error_app1 in E by lia. apply nth_error_In in E.
      specialize (H1 _ E). congruence.
    + apply nth_error_None in E. rewrite app_length in *. lia.
  - destruct o as [|o']; [lia|].
    destruct (nth_error (l1 ++ l2) o') as [x|] eqn:E.
    + specialize (Hb2 o' x eq_refl E). rewrite nth_error_app2 in E by lia. apply nth_error_In in E.
      specialize (H2 _ E). congruence.
    + apply nth_error_None in E. lia.
Qed.
