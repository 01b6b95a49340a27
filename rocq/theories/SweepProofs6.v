(** Proofs about the sweep, part 6: merging intervals, and marking entries. *)
From Coq Require Import List Bool ZArith Arith Lia Permutation Sorted.
From Verif Require Import F64 F64Arith TreeVecModel TreeVecSpec GeomModel SegmentsModel SegmentsSpec
  SegmentsProofs CurveOrderModel CurveOrderSpec CurveOrderProofs CurveOrderProofs2 CurveOrderProofs3
  SweepModel SweepSpec SweepProofs SweepProofs2 SweepProofs3 SweepProofs4.
Import ListNotations.

(** ** merge_adjacent *)
Definition ci_wf (c : cinterval) : Prop := fst (ci_segs c) <= snd (ci_segs c).
Definition ci_le (c d : cinterval) : Prop := fst (ci_segs c) <= fst (ci_segs d).
Definition ci_apart (c d : cinterval) : Prop := snd (ci_segs c) < fst (ci_segs d).

Lemma merge_from_spec l : forall w, Forall ci_wf (w :: l) -> StronglySorted ci_le (w :: l) ->
  Forall ci_wf (merge_from w l) /\ StronglySorted ci_apart (merge_from w l) /\
  Forall (ci_le w) (merge_from w l) /\
  (forall k, Exists (in_interval k) (merge_from w l) <-> Exists (in_interval k) (w :: l)).
Proof.
  induction l as [|c l IH]; intros w W S; cbn [merge_from].
  - split; [exact W|]. split; [repeat constructor|]. split; [repeat constructor; unfold ci_le; lia|]. tauto.
  - inversion W as [|? ? Ww W']; subst. inversion W' as [|? ? Wc W'']; subst.
    inversion S as [|? ? S' F]; subst. inversion F as [|? ? Fc F']; subst.
    destruct (snd (ci_segs w) <? fst (ci_segs c)) eqn:E.
    + apply Nat.ltb_lt in E. destruct (IH c W' S') as (A1 & A2 & A3 & A4).
      split; [constructor; assumption|]. split; [constructor; [exact A2|]|].
      { eapply Forall_impl; [|exact A3]. unfold ci_le, ci_apart. intros; lia. }
      split; [constructor; [unfold ci_le; lia|]; eapply Forall_impl; [|exact A3]; unfold ci_le in *; intros; lia|].
      intros k. rewrite !Exists_cons, A4, Exists_cons. reflexivity.
    + apply Nat.ltb_ge in E. destruct (IH (ci_merge w c)) as (A1 & A2 & A3 & A4).
      * constructor; [|exact W'']. unfold ci_wf, ci_merge in *. cbn. lia.
      * inversion S'; subst. constructor; [assumption|]. eapply Forall_impl; [|exact F']. unfold ci_le, ci_merge. cbn. intros; lia.
      * split; [exact A1|]. split; [exact A2|]. split.
        { eapply Forall_impl; [|exact A3]. unfold ci_le, ci_merge in *. cbn. intros; lia. }
        intros k. rewrite A4, !Exists_cons. assert (X : in_interval k (ci_merge w c) <-> in_interval k w \/ in_interval k c); [|tauto].
        unfold in_interval, ci_merge, ci_wf, ci_le in *. cbn. lia.
Qed.

(** Each interval of the input lies inside one of the output; the ends of the output are ends of the
    input; horizontals are merged along. *)
Definition within (c d : cinterval) : Prop :=
  fst (ci_segs d) <= fst (ci_segs c) /\ snd (ci_segs c) <= snd (ci_segs d) /\
  forall r, ci_hor c = Some r -> exists q, ci_hor d = Some q /\ fst q <= fst r /\ snd r <= snd q.
Lemma within_refl c : within c c.
Proof. split; [lia|]. split; [lia|]. intros r H. exists r. auto. Qed.
Lemma within_trans c d e : within c d -> within d e -> within c e.
Proof.
  intros (A1 & A2 & A3) (B1 & B2 & B3). split; [lia|]. split; [lia|]. intros r H. destruct (A3 _ H) as (q & Hq & Q1 & Q2).
  destruct (B3 _ Hq) as (p & Hp & P1 & P2). exists p. split; [exact Hp|]. lia.
Qed.
Lemma within_merge_l c d : within c (ci_merge c d).
Proof.
  unfold within, ci_merge. cbn. split; [lia|]. split; [lia|]. intros r ->. destruct (ci_hor d) as [q|]; cbn; [|eauto].
  eexists; split; [reflexivity|]. cbn. lia.
Qed.
Lemma within_merge_r c d : within d (ci_merge c d).
Proof.
  unfold within, ci_merge. cbn. split; [lia|]. split; [lia|]. intros r ->. destruct (ci_hor c) as [q|]; cbn; [|eauto].
  eexists; split; [reflexivity|]. cbn. lia.
Qed.
Lemma merge_from_within l : forall w c, In c (w :: l) -> exists d, In d (merge_from w l) /\ within c d.
Proof.
  induction l as [|b l IH]; intros w c H; cbn [merge_from].
  - destruct H as [<-|[]]. exists w. split; [left; reflexivity|apply within_refl].
  - destruct (_ <? _).
    + destruct H as [<-|H]; [exists w; split; [left; reflexivity|apply within_refl]|].
      destruct (IH b c H) as (d & D1 & D2). exists d. split; [right; exact D1|exact D2].
    + destruct H as [<-|[<-|H]].
      * destruct (IH (ci_merge w b) (ci_merge w b)) as (d & D1 & D2); [left; reflexivity|].
        exists d. split; [exact D1|]. eapply within_trans; [apply within_merge_l|exact D2].
      * destruct (IH (ci_merge w b) (ci_merge w b)) as (d & D1 & D2); [left; reflexivity|].
        exists d. split; [exact D1|]. eapply within_trans; [apply within_merge_r|exact D2].
      * apply IH. right. exact H.
Qed.
(** Conversely, what an output interval says comes from inputs inside it. *)
Definition from (l : list cinterval) (d : cinterval) : Prop :=
  (exists c, In c l /\ snd (ci_segs c) = snd (ci_segs d) /\ within c d) /\
  (forall q, ci_hor d = Some q -> exists b c rb rc, In b l /\ In c l /\ within b d /\ within c d /\
     ci_hor b = Some rb /\ ci_hor c = Some rc /\ fst rb = fst q /\ snd rc = snd q).
Lemma from_self c l : In c l -> from l c.
Proof.
  intros H. split; [exists c; split; [exact H|]; split; [reflexivity|apply within_refl]|].
  intros q Hq. exists c, c, q, q. repeat (split; [assumption || apply within_refl || reflexivity|]). reflexivity.
Qed.
Lemma from_merge l b c : from l b -> from l c -> from l (ci_merge b c).
Proof.
  intros ((b1 & B1 & B2 & B3) & B4) ((c1 & C1 & C2 & C3) & C4). split.
  - destruct (Nat.le_ge_cases (snd (ci_segs b)) (snd (ci_segs c))).
    + exists c1. split; [exact C1|]. split; [cbn; lia|]. eapply within_trans; [exact C3|apply within_merge_r].
    + exists b1. split; [exact B1|]. split; [cbn; lia|]. eapply within_trans; [exact B3|apply within_merge_l].
  - intros q Hq. pose proof (within_merge_l b c) as WL. pose proof (within_merge_r b c) as WR.
    unfold ci_merge in Hq. cbn in Hq. destruct (ci_hor b) as [rb|] eqn:Eb, (ci_hor c) as [rc|] eqn:Ec; [|injection Hq as <-|injection Hq as <-|discriminate].
    + injection Hq as <-. cbn [fst snd].
      destruct (B4 _ eq_refl) as (x1 & x2 & r1 & r2 & X1 & X2 & X3 & X4 & X5 & X6 & X7 & X8).
      destruct (C4 _ eq_refl) as (z1 & z2 & s1 & s2 & Z1 & Z2 & Z3 & Z4 & Z5 & Z6 & Z7 & Z8).
      assert (L : exists x r, In x l /\ within x (ci_merge b c) /\ ci_hor x = Some r /\ fst r = Nat.min (fst rb) (fst rc)).
      { destruct (Nat.le_ge_cases (fst rb) (fst rc)).
        - exists x1, r1. split; [exact X1|]. split; [eapply within_trans; eassumption|]. split; [exact X5|lia].
        - exists z1, s1. split; [exact Z1|]. split; [eapply within_trans; eassumption|]. split; [exact Z5|lia]. }
      assert (R : exists x r, In x l /\ within x (ci_merge b c) /\ ci_hor x = Some r /\ snd r = Nat.max (snd rb) (snd rc)).
      { destruct (Nat.le_ge_cases (snd rb) (snd rc)).
        - exists z2, s2. split; [exact Z2|]. split; [eapply within_trans; eassumption|]. split; [exact Z6|lia].
        - exists x2, r2. split; [exact X2|]. split; [eapply within_trans; eassumption|]. split; [exact X6|lia]. }
      destruct L as (x & r & ? & ? & ? & ?). destruct R as (x' & r' & ? & ? & ? & ?). exists x, x', r, r'. auto 10.
    + destruct (B4 _ eq_refl) as (x1 & x2 & r1 & r2 & X1 & X2 & X3 & X4 & X5 & X6 & X7 & X8).
      exists x1, x2, r1, r2. do 2 (split; [assumption|]). do 2 (split; [eapply within_trans; eassumption|]). auto.
    + destruct (C4 _ eq_refl) as (x1 & x2 & r1 & r2 & X1 & X2 & X3 & X4 & X5 & X6 & X7 & X8).
      exists x1, x2, r1, r2. do 2 (split; [assumption|]). do 2 (split; [eapply within_trans; eassumption|]). auto.
Qed.
Lemma merge_from_from l0 l : forall w, from l0 w -> incl l l0 -> forall d, In d (merge_from w l) -> from l0 d.
Proof.
  induction l as [|b l IH]; intros w Hw I d H; cbn [merge_from] in H.
  - destruct H as [<-|[]]. exact Hw.
  - assert (Hb : from l0 b) by (apply from_self, I; left; reflexivity).
    assert (Il : incl l l0) by (intros z Hz; apply I; right; exact Hz).
    destruct (_ <? _); [destruct H as [<-|H]; [exact Hw|eapply IH; eassumption]|].
    eapply IH; [apply (from_merge l0 w b); assumption|exact Il|exact H].
Qed.

Lemma merge_adjacent_spec l : Forall ci_wf l -> StronglySorted ci_le l ->
  Forall ci_wf (merge_adjacent l) /\ StronglySorted ci_apart (merge_adjacent l) /\
  (forall k, Exists (in_interval k) (merge_adjacent l) <-> Exists (in_interval k) l) /\
  (forall c, In c l -> exists d, In d (merge_adjacent l) /\ within c d) /\
  (forall d, In d (merge_adjacent l) -> from l d).
Proof.
  destruct l as [|w l]; intros W S; cbn [merge_adjacent].
  - split; [constructor|]. split; [constructor|]. split; [tauto|]. split; [intros c []|intros d []].
  - destruct (merge_from_spec l w W S) as (A1 & A2 & _ & A4). do 3 (split; [assumption|]).
    split; [apply merge_from_within|]. intros d. apply merge_from_from; [apply from_self; left; reflexivity|]. intros z Hz. right. exact Hz.
Qed.

(** ** Updating ranges of the line *)
Ltac nb := repeat match goal with
  | H : (_ <=? _) = true |- _ => apply Nat.leb_le in H
  | H : (_ <=? _) = false |- _ => apply Nat.leb_gt in H
  | H : (_ <? _) = true |- _ => apply Nat.ltb_lt in H
  | H : (_ <? _) = false |- _ => apply Nat.ltb_ge in H
  | H : (_ =? _) = true |- _ => apply Nat.eqb_eq in H
  | H : (_ =? _) = false |- _ => apply Nat.eqb_neq in H
  end.
Lemma map_range_nth f lo hi l k : nth_error (map_range f lo hi l) k =
  option_map (fun e => if (lo <=? k) && (k <? hi) then f k e else e) (nth_error l k).
Proof.
  rewrite map_range_mapi. destruct (nth_error (mapi _ 0 l) k) as [x|] eqn:E.
  - apply mapi_nth in E. destruct E as (e & -> & ->). reflexivity.
  - apply nth_error_None in E. rewrite mapi_length in E. apply nth_error_None in E. rewrite E. reflexivity.
Qed.
Lemma map_range_length f lo hi l : length (map_range f lo hi l) = length l.
Proof. rewrite map_range_mapi. apply mapi_length. Qed.
Lemma map_range_empty f lo hi l : hi <= lo -> map_range f lo hi l = l.
Proof.
  intros H. apply nth_ext_error. intros k. rewrite map_range_nth. destruct (nth_error l k); [|reflexivity]. cbn [option_map].
  destruct (lo <=? k) eqn:A, (k <? hi) eqn:B; try reflexivity. apply Nat.leb_le in A. apply Nat.ltb_lt in B. lia.
Qed.
Lemma map_range_join f lo mid hi l : lo <= mid <= hi -> map_range f mid hi (map_range f lo mid l) = map_range f lo hi l.
Proof.
  intros H. apply nth_ext_error. intros k. rewrite !map_range_nth. destruct (nth_error l k); [|reflexivity]. cbn [option_map]. f_equal.
  destruct (lo <=? k) eqn:A, (k <? mid) eqn:B, (mid <=? k) eqn:C, (k <? hi) eqn:D; cbn; try reflexivity; nb; lia.
Qed.
Lemma map_range_join' f lo mid hi l : lo <= mid <= hi -> map_range f lo mid (map_range f mid hi l) = map_range f lo hi l.
Proof.
  intros H. apply nth_ext_error. intros k. rewrite !map_range_nth. destruct (nth_error l k); [|reflexivity]. cbn [option_map]. f_equal.
  destruct (lo <=? k) eqn:A, (k <? mid) eqn:B, (mid <=? k) eqn:C, (k <? hi) eqn:D; cbn; try reflexivity; nb; lia.
Qed.
Lemma line_upd_range f l k : k < length l -> line_upd l k (f k) = Ok (map_range f k (S k) l).
Proof.
  intros H. destruct (nth_error l k) as [e|] eqn:E; [|apply nth_error_None in E; lia]. rewrite (line_upd_spec _ _ _ _ E). f_equal.
  apply nth_ext_error. intros q. rewrite map_range_nth. destruct (nth_error l q) as [z|] eqn:Ez.
  - cbn [option_map]. destruct (Nat.eq_dec q k) as [->|Nq].
    + rewrite Nat.leb_refl, (proj2 (Nat.ltb_lt k (S k))) by lia. cbn. apply nth_replace; [lia|]. left. split; [reflexivity|congruence].
    + destruct (k <=? q) eqn:A, (q <? S k) eqn:B; cbn; [apply Nat.leb_le in A; apply Nat.ltb_lt in B; lia| | |]; apply nth_replace; auto.
  - cbn [option_map]. apply nth_error_None. apply nth_error_None in Ez. rewrite app_length. cbn [length]. rewrite firstn_length_le, skipn_length by lia. lia.
Qed.
Lemma map_range_segs f lo hi l : (forall k e, le_seg (f k e) = le_seg e) -> map le_seg (map_range f lo hi l) = map le_seg l.
Proof.
  intros H. apply nth_ext_error. intros k. rewrite !nth_error_map, map_range_nth. destruct (nth_error l k); [|reflexivity]. cbn [option_map].
  destruct (_ && _); [rewrite H|]; reflexivity.
Qed.
Lemma set_old_idx_seg k e : le_seg (set_old_idx k e) = le_seg e.
Proof. unfold set_old_idx. destruct (le_old_idx e); reflexivity. Qed.
Lemma mark_seg k e : le_seg (mark k e) = le_seg e.
Proof. apply set_old_idx_seg. Qed.

(** Entry [e] at index [k] has become [e'] by marking only. *)
Definition mke (k : nat) (e e' : lentry) : Prop :=
  unmark e' = unmark e /\ (le_old_idx e' = le_old_idx e \/ (le_old_idx e = None /\ le_old_idx e' = Some k)) /\
  (le_changed e = true -> le_changed e' = true).
Definition mkl (l l' : list lentry) : Prop :=
  length l' = length l /\ forall k e e', nth_error l k = Some e -> nth_error l' k = Some e' -> mke k e e'.
Lemma mke_refl k e : mke k e e.
Proof. repeat split; auto. Qed.
Lemma mke_trans k e1 e2 e3 : mke k e1 e2 -> mke k e2 e3 -> mke k e1 e3.
Proof.
  intros (A1 & A2 & A3) (B1 & B2 & B3). split; [congruence|]. split; [|auto].
  destruct A2 as [A2|[A2 A2']], B2 as [B2|[B2 B2']]; [left; congruence|right; split; congruence|right; split; congruence|congruence].
Qed.
Lemma mke_set k e : mke k e (set_old_idx k e).
Proof. unfold set_old_idx, mke. destruct (le_old_idx e) eqn:E; cbn; auto. Qed.
Lemma mke_mark k e : mke k e (mark k e).
Proof. unfold mark, set_old_idx, mke. destruct (le_old_idx e) eqn:E; cbn; rewrite ?E; auto. Qed.
Lemma mkl_refl l : mkl l l.
Proof. split; [reflexivity|]. intros k e e' H1 H2. assert (e = e') as <- by congruence. apply mke_refl. Qed.
Lemma mkl_trans l1 l2 l3 : mkl l1 l2 -> mkl l2 l3 -> mkl l1 l3.
Proof.
  intros [A1 A2] [B1 B2]. split; [congruence|]. intros k e1 e3 H1 H3.
  destruct (nth_error l2 k) as [e2|] eqn:H2.
  - eapply mke_trans; eauto.
  - apply nth_error_None in H2. assert (k < length l1) by (apply nth_error_Some; congruence). lia.
Qed.
Lemma mkl_range f lo hi l : (forall k e, mke k e (f k e)) -> mkl l (map_range f lo hi l).
Proof.
  intros H. split; [apply map_range_length|]. intros k e e' H1 H2. rewrite map_range_nth, H1 in H2. cbn in H2. injection H2 as <-.
  destruct (_ && _); [apply H|apply mke_refl].
Qed.
Lemma mkl_segs l l' : mkl l l' -> map le_seg l' = map le_seg l.
Proof.
  intros [A B]. apply nth_ext_error. intros k. rewrite !nth_error_map. destruct (nth_error l k) as [e|] eqn:E, (nth_error l' k) as [e'|] eqn:E'.
  - cbn. f_equal. destruct (B _ _ _ E E') as (X & _). unfold unmark in X. congruence.
  - apply nth_error_None in E'. assert (k < length l) by (apply nth_error_Some; congruence). lia.
  - apply nth_error_None in E. assert (k < length l') by (apply nth_error_Some; congruence). lia.
  - reflexivity.
Qed.
Lemma mkl_at l l' k e' : mkl l l' -> nth_error l' k = Some e' -> exists e, nth_error l k = Some e /\ mke k e e'.
Proof.
  intros [A B] H. destruct (nth_error l k) as [e|] eqn:E; [exists e; split; [reflexivity|eauto]|].
  apply nth_error_None in E. assert (k < length l') by (apply nth_error_Some; congruence). lia.
Qed.
