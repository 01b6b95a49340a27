(** Lifting the single-operation lemmas to operation histories. *)
From Coq Require Import List Arith Bool ZArith Lia ZifyBool ZifyNat.
From Verif Require Import TreeVecModel TreeVecSpec TreeVecProofs TreeVecMut.
Import ListNotations.
Local Arguments Nat.div : simpl never.

Section Refine.
Context {T : Type} (B : nat) (HB : 4 <= B).

Lemma tree_step_refines h (t : node T) o : tv_wf B h t ->
  match vec_step (elems t) o with
  | None => tree_step B t o = None
  | Some (l', r) => exists t' h', tree_step B t o = Some (t', r) /\ tv_wf B h' t' /\ elems t' = l'
  end.
Proof.
  intros Hwf. destruct o as [i x|i|i|i x|i|i x| | | |a b| |f|a b f]; cbn [vec_step tree_step].
  - destruct (i <=? length (elems t)) eqn:E.
    + destruct (tv_insert_ok B HB h t i x Hwf) as (t' & h' & -> & Hw & He); [lia|].
      cbn. exists t', h'. auto.
    + rewrite (tv_insert_oob B HB h t i x Hwf) by lia. reflexivity.
  - destruct (nth_error (elems t) i) as [x|] eqn:E.
    + assert (i < length (elems t)) by (apply nth_error_Some; congruence).
      destruct (tv_remove_ok B HB h t i Hwf) as (y & t' & h' & -> & Hw & Hy & He); [lia|].
      cbn. assert (x = y) by congruence. subst y. exists t', h'. auto.
    + apply nth_error_None in E. rewrite (tv_remove_oob B HB h t i Hwf) by lia. reflexivity.
  - unfold tv_get. rewrite (node_get_ok B HB h t _ i Hwf). cbn. exists t, h. auto.
  - destruct (node_set_ok B HB h t _ i x Hwf) as [H1 H2].
    destruct (i <? length (elems t)) eqn:E.
    + destruct H1 as (t' & -> & Hw & He); [lia|]. cbn. exists t', h. auto.
    + rewrite H2 by lia. cbn. exists t, h. auto.
  - unfold tv_index, tv_get. rewrite (node_get_ok B HB h t _ i Hwf). cbn.
    destruct (nth_error (elems t) i); cbn; [exists t, h; auto|reflexivity].
  - unfold tv_set. destruct (node_set_ok B HB h t _ i x Hwf) as [H1 H2].
    destruct (i <? length (elems t)) eqn:E.
    + destruct H1 as (t' & -> & Hw & He); [lia|]. cbn. exists t', h. auto.
    + rewrite H2 by lia. reflexivity.
  - rewrite (tv_len_ok B h t Hwf). exists t, h. auto.
  - rewrite (tv_is_empty_ok B HB h t Hwf). exists t, h. auto.
  - destruct (tv_iter_ok B HB h t Hwf) as (it & -> & Hg & He). cbn [option_bind].
    rewrite (iter_collect_ok B HB it) by (rewrite ?He, ?(tv_len_ok B h t Hwf); auto; lia).
    cbn [option_bind]. rewrite He. exists t, h. auto.
  - unfold normalize_bounds. rewrite (tv_len_ok B h t Hwf).
    set (s := match a with Included x => x | Excluded x => S x | Unbounded => 0 end).
    set (e := match b with Included x => S x | Excluded x => x | Unbounded => length (elems t) end).
    replace (match a with Included x => x | Excluded x => x + 1 | Unbounded => 0 end) with s
      by (unfold s; destruct a; lia).
    replace (match b with Included x => x + 1 | Excluded x => x | Unbounded => length (elems t) end) with e
      by (unfold e; destruct b; lia).
    destruct ((s <=? e) && (e <=? length (elems t))) eqn:E.
    + destruct (tv_range_ok B HB h t s e Hwf) as (it & -> & Hg & He); [lia|lia|]. cbn [option_bind].
      rewrite (iter_collect_ok B HB it); [|assumption|].
      * cbn [option_bind]. rewrite He. exists t, h. auto.
      * rewrite He, firstn_length, skipn_length. lia.
    + rewrite (tv_range_oob B HB h t s e Hwf) by lia. reflexivity.
  - rewrite (node_check_ok B HB h t _ true Hwf) by discriminate. exists t, h. auto.
  - destruct (tv_iter_mut_ok B HB (fun _ _ => True) h f (fun _ _ _ _ _ _ => I) (fun _ _ => I) (fun _ _ _ _ _ => I) t Hwf) as (t' & -> & Hw & _ & He). cbn [option_bind]. exists t', h. auto.
  - unfold normalize_bounds. rewrite (tv_len_ok B h t Hwf).
    set (s := match a with Included x => x | Excluded x => S x | Unbounded => 0 end).
    set (e := match b with Included x => S x | Excluded x => x | Unbounded => length (elems t) end).
    replace (match a with Included x => x | Excluded x => x + 1 | Unbounded => 0 end) with s
      by (unfold s; destruct a; lia).
    replace (match b with Included x => x + 1 | Excluded x => x | Unbounded => length (elems t) end) with e
      by (unfold e; destruct b; lia).
    destruct (tv_range_mut_ok B HB (fun _ _ => True) h f (fun _ _ _ _ _ _ => I) (fun _ _ => I) (fun _ _ _ _ _ => I) t s e Hwf) as [H1 H2].
    destruct ((s <=? e) && (e <=? length (elems t))) eqn:E.
    + destruct H1 as (t' & -> & Hw & _ & He); [lia|lia|]. cbn [option_bind]. exists t', h. auto.
    + rewrite H2 by lia. reflexivity.
Qed.

Lemma run_refines ops : forall h (t : node T), tv_wf B h t ->
  fst (run (tree_step B) t ops) = fst (run vec_step (elems t) ops) /\
  match snd (run (tree_step B) t ops) with
  | Some t' => snd (run vec_step (elems t) ops) = Some (elems t') /\ exists h', tv_wf B h' t'
  | None => snd (run vec_step (elems t) ops) = None
  end.
Proof.
  induction ops as [|o ops IH]; intros h t Hwf; cbn [run].
  - cbn. eauto.
  - pose proof (tree_step_refines h t o Hwf) as H.
    destruct (vec_step (elems t) o) as [[l' r]|].
    + destruct H as (t' & h' & -> & Hw & <-). specialize (IH h' t' Hw).
      destruct (run (tree_step B) t' ops) as [rs f], (run vec_step (elems t') ops) as [rs' f'].
      cbn in *. destruct IH as [-> IH]. split; [reflexivity|exact IH].
    + rewrite H. cbn. auto.
Qed.

Lemma tv_new_wf : tv_wf B 0 (@tv_new T).
Proof. cbn. lia. Qed.

Lemma from_iter_aux_ok l : forall h (t : node T), tv_wf B h t ->
  exists t' h', tv_from_iter_aux B t (length (elems t)) l = Some t' /\ tv_wf B h' t' /\ elems t' = elems t ++ l.
Proof.
  induction l as [|x l IH]; intros h t Hwf; cbn [tv_from_iter_aux].
  - exists t, h. rewrite app_nil_r. auto.
  - destruct (tv_insert_ok B HB h t (length (elems t)) x Hwf) as (t1 & h1 & -> & Hw & He); [lia|].
    cbn [option_bind].
    assert (E : elems t1 = elems t ++ [x]).
    { rewrite He. unfold ins. rewrite firstn_all, skipn_all. reflexivity. }
    destruct (IH h1 t1 Hw) as (t' & h' & H1 & H2 & H3).
    replace (length (elems t1)) with (S (length (elems t))) in H1 by (rewrite E, app_length; simpl; lia).
    exists t', h'. split; [exact H1|]. split; [exact H2|]. rewrite H3, E, <- app_assoc. reflexivity.
Qed.

(** Every reachable container is balanced and holds the vector's contents. *)
Lemma reachable_ok ops (t : node T) : snd (run (tree_step B) tv_new ops) = Some t ->
  snd (run vec_step [] ops) = Some (elems t) /\ exists h, tv_wf B h t.
Proof.
  intros H. destruct (run_refines ops 0 tv_new tv_new_wf) as [_ H2]. rewrite H in H2. exact H2.
Qed.

Lemma iter_call_ok k : forall it : iter T, iter_good B it ->
  iter_call k it = Some (nth_error (iter_rest it) k).
Proof.
  induction k as [|k IH]; intros it Hg; cbn [iter_call].
  - pose proof (iter_next_ok B HB it Hg) as H. destruct (iter_rest it) as [|x l].
    + destruct H as (it' & -> & _). reflexivity.
    + destruct H as (it' & -> & _). reflexivity.
  - pose proof (iter_next_ok B HB it Hg) as H. destruct (iter_rest it) as [|x l].
    + destruct H as (it' & -> & Hg' & He). cbn. rewrite (IH it' Hg'), He. destruct k; reflexivity.
    + destruct H as (it' & -> & Hg' & He). cbn. rewrite (IH it' Hg'), He. reflexivity.
Qed.

Lemma refines_all ops :
  fst (run (tree_step B) (@tv_new T) ops) = fst (run vec_step [] ops).
Proof. apply (run_refines ops 0 tv_new tv_new_wf). Qed.

Lemma from_iter_ok (l : list T) : exists t, tv_from_iter B l = Some t /\ elems t = l /\
  forall ops, fst (run (tree_step B) t ops) = fst (run vec_step l ops).
Proof.
  destruct (from_iter_aux_ok l 0 tv_new tv_new_wf) as (t & h & H1 & H2 & H3).
  exists t. split; [exact H1|]. cbn in H3. split; [exact H3|].
  intros ops. destruct (run_refines ops h t H2) as [H _]. rewrite H, H3. reflexivity.
Qed.

Lemma reachable_balanced ops (t : node T) : snd (run (tree_step B) tv_new ops) = Some t ->
  exists h, tv_wf B h t /\ (h <> 0 -> 2 * (B / 2) ^ h <= length (elems t)).
Proof.
  intros H. destruct (reachable_ok ops t H) as [_ [h Hw]]. exists h. split; [exact Hw|].
  intros Hh. destruct h as [|h]; [contradiction|]. apply (wf_height_bound B HB h t 2 Hw).
Qed.

Lemma reachable_range ops (t : node T) a b : snd (run (tree_step B) tv_new ops) = Some t ->
  (a <= b <= length (elems t) ->
     exists it, tv_range t a b = Some it /\
       forall k, iter_call k it = Some (nth_error (firstn (b - a) (skipn a (elems t))) k)) /\
  (~ (a <= b <= length (elems t)) -> tv_range t a b = None) /\
  exists it, tv_iter t = Some it /\ forall k, iter_call k it = Some (nth_error (elems t) k).
Proof.
  intros H. destruct (reachable_ok ops t H) as [_ [h Hw]]. split; [|split].
  - intros [Ha Hb]. destruct (tv_range_ok B HB h t a b Hw Ha Hb) as (it & H1 & H2 & H3).
    exists it. split; [exact H1|]. intros k. rewrite iter_call_ok, H3 by assumption. reflexivity.
  - intros Hn. apply (tv_range_oob B HB h t a b Hw Hn).
  - destruct (tv_iter_ok B HB h t Hw) as (it & H1 & H2 & H3).
    exists it. split; [exact H1|]. intros k. rewrite iter_call_ok, H3 by assumption. reflexivity.
Qed.

Lemma reachable_pp (pp : slice_pp) ops (t : node T) (p : T -> bool) :
  pp_ok pp -> snd (run (tree_step B) tv_new ops) = Some t ->
  exists o, tv_partition_point pp p t = Some o /\ boundary p (elems t) o /\
    forall l1 l2, elems t = l1 ++ l2 -> Forall (fun x => p x = true) l1 ->
      Forall (fun x => p x = false) l2 -> o = length l1.
Proof.
  intros Hpp H. destruct (reachable_ok ops t H) as [_ [h Hw]].
  destruct (node_pp_ok B HB pp p Hpp h t _ Hw) as (o & H1 & H2).
  exists o. split; [exact H1|]. split; [exact H2|].
  intros l1 l2 E HF1 HF2. rewrite E in H2. exact (boundary_monotone p l1 l2 o HF1 HF2 H2).
Qed.

End Refine.
