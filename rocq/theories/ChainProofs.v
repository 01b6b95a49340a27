(** Contours stay connected: the output segments of one segment in one range. *)
From Coq Require Import List Bool ZArith Arith Lia Permutation Sorted.
From Verif Require Import F64 F64Arith TreeVecModel GeomModel SegmentsModel SegmentsSpec SegmentsProofs CurveOrderModel CurveOrderProofs SweepModel SweepSpec
  RangeModel RangeSpec RangeProofs4 RangeProofs5 TopoModel TopoSpec TopoProofs TopoProofs2 TopoProofs3 TopoProofs4 TopoProofs5 TopoProofs8 TopoProofs9 ChainSpec.
Import ListNotations.

(** Half-segment [h] is in the ring of point [p]. *)
Definition vx (R : list (list half)) (h : half) (p : nat) : Prop := exists r, nth_error R p = Some r /\ In h r.
Inductive trail (R : list (list half)) : nat -> list half -> nat -> Prop :=
| tr_here p : trail R p [] p
| tr_step p h r hs q : vx R h p -> vx R (other_half h) r -> trail R r hs q -> trail R p (h :: hs) q.
Lemma trail_app R p hs r hs' q : trail R p hs r -> trail R r hs' q -> trail R p (hs ++ hs') q.
Proof. induction 1; intros H'; [exact H'|]. cbn [app]. econstructor; eauto. Qed.
Lemma trail_one R p h q : vx R h p -> vx R (other_half h) q -> trail R p [h] q.
Proof. intros H1 H2. econstructor; [exact H1|exact H2|constructor]. Qed.
Lemma vx_grow R m h p : vx R h p -> vx (R ++ m) h p.
Proof. intros (r & H & X). exists r. split; [|exact X]. rewrite nth_error_app1; [exact H|]. apply nth_error_Some. congruence. Qed.
Lemma trail_grow R m p hs q : trail R p hs q -> trail (R ++ m) p hs q.
Proof. induction 1; econstructor; eauto using vx_grow. Qed.

Lemma vorig_nth l i : forall x, nth_error (vorig l) x = Some i <-> exists m v j, nth_error l m = Some v /\ nth_error (vw_down v ++ map fst (vw_out v)) j = Some i /\ x = length (vorig (firstn m l)) + j.
Proof.
  induction l as [|v l IH]; intros x.
  - split; [destruct x; discriminate|]. intros (m & v & j & H & _). destruct m; discriminate.
  - rewrite vorig_cons. split.
    + intros H. destruct (Nat.lt_ge_cases x (length (vw_down v ++ map fst (vw_out v)))) as [L|L].
      * rewrite nth_error_app1 in H by exact L. exists 0, v, x. auto.
      * rewrite nth_error_app2 in H by exact L. apply IH in H. destruct H as (m & u & j & H1 & H2 & H3). exists (S m), u, j. split; [exact H1|]. split; [exact H2|].
        cbn [firstn]. rewrite vorig_cons, app_length. lia.
    + intros (m & u & j & H1 & H2 & ->). destruct m as [|m].
      * cbn in H1. injection H1 as <-. cbn [firstn vorig map concat length Nat.add]. rewrite nth_error_app1; [exact H2|]. apply nth_error_Some. congruence.
      * cbn [firstn nth_error] in *. rewrite vorig_cons, app_length, nth_error_app2 by lia. apply IH. exists m, u, j. split; [exact H1|]. split; [exact H2|]. lia.
Qed.
Lemma firstn_snoc {A} (l : list A) m x : nth_error l m = Some x -> firstn (S m) l = firstn m l ++ [x].
Proof. revert m. induction l as [|y l IH]; intros [|m] H; try discriminate; [cbn in H; injection H as ->; reflexivity|]. cbn [firstn app]. cbn in H. rewrite <- (IH m H). reflexivity. Qed.

Section Range.
Variable evs : list oevent.
Variable l : list view.
Hypothesis V : views_of evs l.
Variables N P : nat.
Variable O : nat -> option nat.
Variable R' : list (list half).
Hypothesis RINGS : forall m v, nth_error l m = Some v -> nth_error R' (P + m) = Some (vring (vrec_at N O [] (firstn m l) v)).
Notation kx v := (key (vw_x v)).
Notation k0 e := (key (ev_x0 e)).
Notation k1 e := (key (ev_x1 e)).
Definition off (m : nat) : nat := N + length (vorig (firstn m l)).

Lemma off_S m v : nth_error l m = Some v -> off (S m) = off m + length (vw_down v) + length (vw_out v).
Proof. intros H. unfold off. rewrite (firstn_snoc l m v H), vorig_app, app_length, vorig_len. cbn. lia. Qed.
Lemma off_mono m m' : m <= m' -> m' <= length l -> off m <= off m'.
Proof.
  induction 1 as [|m' L IH]; intros Lm; [lia|]. destruct (nth_error l m') as [v|] eqn:E; [|apply nth_error_None in E; lia]. rewrite (off_S _ _ E). specialize (IH ltac:(lia)). lia.
Qed.
Lemma first_at m v o : nth_error l m = Some v -> off m <= o < off m + length (vw_down v) + length (vw_out v) -> vx R' (first_half o) (P + m).
Proof. intros H L. exists (vring (vrec_at N O [] (firstn m l) v)). split; [apply RINGS, H|]. apply vring_first. exact L. Qed.
Lemma second_next m v v' o : nth_error l m = Some v -> nth_error l (S m) = Some v' -> off m + length (vw_down v) <= o < off m + length (vw_down v) + length (vw_out v) -> vx R' (second_half o) (P + S m).
Proof.
  intros H H' L. exists (vring (vrec_at N O [] (firstn (S m) l) v')). split; [apply RINGS, H'|]. apply vring_second. left. rewrite (firstn_snoc l m v H), last_outs_snoc. apply in_seq. unfold off in L. lia.
Qed.
Lemma second_up m v i o : nth_error l m = Some v -> In i (vw_up v) -> O i = Some o -> vx R' (second_half o) (P + m).
Proof.
  intros H U E. exists (vring (vrec_at N O [] (firstn m l) v)). split; [apply RINGS, H|]. apply vring_second. right. apply in_map_iff. exists i. unfold val. rewrite E. auto.
Qed.

Lemma vpos_nth a m v j : nth_error l m = Some v -> j < length (vw_down v) + length (vw_out v) ->
  nth_error (vpos a l) (length (vorig (firstn m l)) + j) = nth_error (map (orient a) (vw_down v) ++ map (fun q => Bool.eqb (snd q) (orient a (fst q))) (vw_out v)) j.
Proof.
  clear. revert m. induction l as [|u l' IH]; intros [|m] H Lj; try discriminate H.
  - cbn in H. injection H as ->. cbn [firstn vorig vpos map concat length Nat.add]. rewrite nth_error_app1; [reflexivity|]. rewrite app_length, !map_length. exact Lj.
  - cbn [firstn nth_error] in *. rewrite vorig_cons, app_length, <- Nat.add_assoc. unfold vpos. cbn [map concat]. fold (vpos a l'). rewrite nth_error_app2; rewrite ?app_length, ?map_length; [|lia].
    rewrite <- (IH m H Lj). f_equal. lia.
Qed.
Definition piece_of (i k n x : nat) : Prop := exists m v j, k <= m < k + n /\ nth_error l m = Some v /\ nth_error (map fst (vw_out v)) j = Some i /\ x = off m + length (vw_down v) + j.
Lemma out_pieces i k : forall n, k + n < length l -> (forall m v, k <= m < k + n -> nth_error l m = Some v -> In i (map fst (vw_out v))) ->
  exists os, trail R' (P + k) (map first_half os) (P + (k + n)) /\ trail R' (P + (k + n)) (map second_half (rev os)) (P + k) /\ NoDup os /\ forall x, In x os <-> piece_of i k n x.
Proof.
  induction n as [|n IH]; intros Ln HI.
  - exists []. rewrite Nat.add_0_r. split; [constructor|]. split; [constructor|]. split; [constructor|]. intros x. split; [intros []|]. intros (m & v & j & L & _). lia.
  - destruct IH as (os & T1 & T2 & ND & IN); [lia|intros m v L; apply HI; lia|].
    destruct (nth_error l (k + n)) as [v|] eqn:E; [|apply nth_error_None in E; lia]. destruct (nth_error l (S (k + n))) as [v'|] eqn:E'; [|apply nth_error_None in E'; lia].
    assert (X : In i (map fst (vw_out v))) by (apply (HI (k + n) v); [lia|exact E]). apply In_nth_error in X. destruct X as (j & X).
    assert (Lj : j < length (vw_out v)) by (rewrite <- (map_length fst); apply nth_error_Some; congruence).
    set (x := off (k + n) + length (vw_down v) + j). replace (k + S n) with (S (k + n)) by lia.
    assert (V1 : vx R' (first_half x) (P + (k + n))) by (apply (first_at _ v); [exact E|unfold x; lia]).
    assert (V2 : vx R' (second_half x) (P + S (k + n))) by (apply (second_next _ v v'); [exact E|exact E'|unfold x; lia]).
    exists (os ++ [x]). split; [|split; [|split]].
    + rewrite map_app. eapply trail_app; [exact T1|]. apply trail_one; assumption.
    + rewrite rev_app_distr. cbn [rev app map]. econstructor; [exact V2|exact V1|exact T2].
    + apply nodup_app. split; [exact ND|]. split; [repeat constructor; intros []|]. intros y Hy [<-|[]]. apply IN in Hy. destruct Hy as (m & u & j' & L & Hu & Hj & Q).
      assert (Lj' : j' < length (vw_out u)) by (rewrite <- (map_length fst); apply nth_error_Some; congruence). pose proof (off_S m u Hu). pose proof (off_mono (S m) (k + n)). unfold x in Q. lia.
    + intros y. rewrite in_app_iff, IN. split.
      * intros [(m & u & j' & L & H)|[<-|[]]]; [exists m, u, j'; split; [lia|exact H]|]. exists (k + n), v, j. split; [lia|auto].
      * intros (m & u & j' & L & Hu & Hj & ->). destruct (Nat.eq_dec m (k + n)) as [->|D]; [|left; exists m, u, j'; split; [lia|auto]]. right. left. rewrite E in Hu. injection Hu as <-. unfold x. f_equal.
        eapply (proj1 (NoDup_nth_error (map fst (vw_out v))) (out_nodup _ _ V v (nth_error_In _ _ E))); [apply nth_error_Some; congruence|congruence].
Qed.

Lemma view_index m m' v v' : nth_error l m = Some v -> nth_error l m' = Some v' -> (m < m' <-> (kx v < kx v')%Z).
Proof.
  clear RINGS R' O N P. intros H H'. assert (G : forall m m' v v', nth_error l m = Some v -> nth_error l m' = Some v' -> m < m' -> (kx v < kx v')%Z).
  { intros n n' u u' Hu Hu' L. refine (sorted_nth _ _ (vo_sorted _ _ V) n n' (vw_x u) (vw_x u') L _ _); rewrite nth_error_map'; [rewrite Hu|rewrite Hu']; reflexivity. }
  split; [apply G; assumption|]. intros K. destruct (Nat.lt_ge_cases m m') as [L|L]; [exact L|]. exfalso. destruct (Nat.eq_dec m' m) as [->|D]; [assert (v = v') by congruence; subst; lia|].
  assert (X : (kx v' < kx v)%Z) by (apply (G m' m); [assumption|assumption|lia]). lia.
Qed.
Lemma view_same m m' v v' : nth_error l m = Some v -> nth_error l m' = Some v' -> kx v = kx v' -> m = m'.
Proof. clear RINGS R' O N P. intros H H' K. pose proof (view_index _ _ _ _ H H'). pose proof (view_index _ _ _ _ H' H). lia. Qed.
Lemma view_of_key e k : In e evs -> k = k0 e \/ k = k1 e -> exists m v, nth_error l m = Some v /\ kx v = k.
Proof.
  intros He K. assert (X : k = kl e \/ k = kh e) by (unfold kl, kh; lia). destruct (vo_all _ _ V e k He X) as (v & Hv & E). apply In_nth_error in Hv. destruct Hv as (m & Hm). exists m, v. auto.
Qed.
Lemma out_when e m v : In e evs -> nth_error l m = Some v -> (In (ev_seg e) (map fst (vw_out v)) <-> (kl e <= kx v < kh e)%Z).
Proof.
  intros He Hm. pose proof (nth_error_In _ _ Hm) as Hv. split.
  - intros X. apply in_map_iff in X. destruct X as (q & E & Hq). apply (out_in _ _ V v q Hv) in Hq. destruct Hq as (f & Hf & K & ->). cbn [rightward fst] in E. rewrite (same_event _ _ V e f He Hf (eq_sym E)). exact K.
  - intros K. apply in_map_iff. exists (rightward e). split; [reflexivity|]. apply (out_in _ _ V v _ Hv). eauto.
Qed.

(** The horizontal output segments of [e]'s segment lead from the position where it comes from above to the one where it goes on below. *)
Lemma range_way e : In e evs -> exists ka va kb vb hs, nth_error l ka = Some va /\ kx va = k0 e /\ nth_error l kb = Some vb /\ kx vb = k1 e /\ trail R' (P + ka) hs (P + kb) /\ NoDup (map h_idx hs) /\
  (forall h, In h hs -> h_first h = flt (ev_x0 e) (ev_x1 e)) /\
  forall x, In x (map h_idx hs) <-> exists m v j, nth_error l m = Some v /\ nth_error (map fst (vw_out v)) j = Some (ev_seg e) /\ x = off m + length (vw_down v) + j.
Proof.
  intros He. assert (NUM : nan (ev_x0 e) = false /\ nan (ev_x1 e) = false). { pose proof (vo_num _ _ V) as X. rewrite Forall_forall in X. exact (X e He). } destruct NUM as [NX0 NX1]. destruct (view_of_key e (k0 e) He) as (ka & va & Ha & Ka); [auto|]. destruct (view_of_key e (k1 e) He) as (kb & vb & Hb & Kb); [auto|]. exists ka, va, kb, vb.
  pose proof (view_index _ _ _ _ Ha Hb) as I1. pose proof (view_index _ _ _ _ Hb Ha) as I2. rewrite Ka, Kb in I1, I2.
  assert (La : ka < length l) by (apply nth_error_Some; congruence). assert (Lb : kb < length l) by (apply nth_error_Some; congruence).
  assert (ID : forall b os, map h_idx (map (fun o => mkHalf o b) os) = os) by (intros b os; rewrite map_map; apply map_id).
  assert (ALL : forall k n, (forall m v, nth_error l m = Some v -> (k <= m < k + n <-> (kl e <= kx v < kh e)%Z)) -> forall x, piece_of (ev_seg e) k n x <-> exists m v j, nth_error l m = Some v /\ nth_error (map fst (vw_out v)) j = Some (ev_seg e) /\ x = off m + length (vw_down v) + j).
  { intros k n WH x. split; [intros (m & v & j & _ & H); exists m, v, j; exact H|]. intros (m & v & j & H1 & H2 & H3). exists m, v, j. split; [|auto]. apply (WH m v H1). apply (out_when e m v He H1). apply nth_error_In in H2. exact H2. }
  destruct (lt_eq_lt_dec ka kb) as [[L|L]|L].
  - assert (WH : forall m v, nth_error l m = Some v -> (ka <= m < ka + (kb - ka) <-> (kl e <= kx v < kh e)%Z)).
    { intros m v Hm. pose proof (view_index _ _ _ _ Hm Ha). pose proof (view_index _ _ _ _ Hm Hb). unfold kl, kh. lia. }
    destruct (out_pieces (ev_seg e) ka (kb - ka)) as (os & T1 & _ & ND & IN); [lia|intros m v Lm Hm; apply (out_when e m v He Hm), (WH m v Hm), Lm|]. replace (ka + (kb - ka)) with kb in T1 by lia.
    exists (map first_half os). repeat (split; [assumption|]). unfold first_half. rewrite ID. split; [exact ND|]. split. { intros h Hh. apply in_map_iff in Hh. destruct Hh as (o & <- & _). cbn [h_first]. rewrite flt_key by assumption. symmetry. apply Z.ltb_lt. lia. } intros x. rewrite IN. apply ALL, WH.
  - subst kb. exists []. repeat (split; [assumption|]). split; [constructor|]. split; [constructor|]. split; [intros h []|]. intros x. split; [intros []|]. intros (m & v & j & H1 & H2 & _). apply nth_error_In in H2. apply (out_when e m v He H1) in H2. unfold kl, kh in H2. lia.
  - assert (WH : forall m v, nth_error l m = Some v -> (kb <= m < kb + (ka - kb) <-> (kl e <= kx v < kh e)%Z)).
    { intros m v Hm. pose proof (view_index _ _ _ _ Hm Ha). pose proof (view_index _ _ _ _ Hm Hb). unfold kl, kh. lia. }
    destruct (out_pieces (ev_seg e) kb (ka - kb)) as (os & _ & T2 & ND & IN); [lia|intros m v Lm Hm; apply (out_when e m v He Hm), (WH m v Hm), Lm|]. replace (kb + (ka - kb)) with ka in T2 by lia.
    exists (map second_half (rev os)). repeat (split; [assumption|]). unfold second_half. rewrite ID. split; [apply NoDup_rev, ND|]. split. { intros h Hh. apply in_map_iff in Hh. destruct Hh as (o & <- & _). cbn [h_first]. rewrite flt_key by assumption. symmetry. apply Z.ltb_ge. lia. } intros x. rewrite <- in_rev, IN. apply ALL, WH.
Qed.
(** The output segment going down. *)
Lemma down_way e : In e evs -> ev_below e = true -> exists m v j, nth_error l m = Some v /\ kx v = k1 e /\ nth_error (vw_down v) j = Some (ev_seg e) /\ vx R' (first_half (off m + j)) (P + m) /\
  forall m' v' j', nth_error l m' = Some v' -> nth_error (vw_down v') j' = Some (ev_seg e) -> off m' + j' = off m + j.
Proof.
  intros He B. destruct (view_of_key e (k1 e) He) as (m & v & Hm & K); [auto|]. pose proof (nth_error_In _ _ Hm) as Hv.
  assert (X : In (ev_seg e) (vw_down v)) by (apply (down_in _ _ V v _ Hv); exists e; auto). apply In_nth_error in X. destruct X as (j & X). exists m, v, j. assert (Lj : j < length (vw_down v)) by (apply nth_error_Some; congruence).
  split; [exact Hm|]. split; [exact K|]. split; [exact X|]. split; [apply (first_at m v); [exact Hm|lia]|]. intros m' v' j' Hm' X'.
  pose proof (nth_error_In _ _ Hm') as Hv'. pose proof (nth_error_In _ _ X') as D'. apply (down_in _ _ V v' _ Hv') in D'. destruct D' as (f & Hf & _ & K' & E). rewrite (same_event _ _ V f e Hf He E) in K'.
  assert (m' = m) by (eapply view_same; [exact Hm'|exact Hm|congruence]). subst m'. rewrite Hm in Hm'. injection Hm' as <-. f_equal.
  eapply (proj1 (NoDup_nth_error (vw_down v)) (down_nodup _ _ V v Hv)); [apply nth_error_Some; congruence|congruence].
Qed.
Lemma no_down e m v : In e evs -> ev_below e = false -> nth_error l m = Some v -> ~ In (ev_seg e) (vw_down v).
Proof. intros He B Hm X. apply (down_in _ _ V v _ (nth_error_In _ _ Hm)) in X. destruct X as (f & Hf & B' & _ & E). rewrite (same_event _ _ V f e Hf He E) in B'. congruence. Qed.
End Range.
