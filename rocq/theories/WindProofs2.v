(** Winding numbers: the segments of a range in the order of the line, and the balance at each position. *)
From Coq Require Import List Bool ZArith Arith Lia Permutation Sorted.
From Verif Require Import F64 F64Arith TreeVecModel GeomModel SegmentsModel SegmentsSpec SegmentsProofs CurveOrderModel CurveOrderProofs SweepModel SweepSpec
  SweepProofs2 SweepProofs10 RangeModel RangeSpec RangeProofs3 RangeProofs4 RangeProofs5 TopoModel TopoSpec TopoProofs TopoProofs2 TopoProofs3 TopoProofs4 TopoProofs5 TopoProofs6 TopoProofs7 TopoProofs8 WindSpec WindProofs.
Import ListNotations.

Lemma sorted_same {A} (r : A -> nat) l : forall m, StronglySorted (fun i j => r i < r j) l -> StronglySorted (fun i j => r i < r j) m -> (forall i, In i l <-> In i m) -> l = m.
Proof.
  induction l as [|x l IH]; intros m Sl Sm E.
  - destruct m as [|y m]; [reflexivity|]. exfalso. apply (E y). left. reflexivity.
  - destruct m as [|y m]; [exfalso; apply (E x); left; reflexivity|]. inversion Sl as [|? ? Sl' Fl]; inversion Sm as [|? ? Sm' Fm]; subst. rewrite Forall_forall in Fl, Fm.
    assert (x = y). { destruct (proj1 (E x) (or_introl eq_refl)) as [Q|Q]; [congruence|]. destruct (proj2 (E y) (or_introl eq_refl)) as [Q'|Q']; [congruence|]. apply Fm in Q. apply Fl in Q'. lia. }
    subst y. f_equal. apply IH; [exact Sl'|exact Sm'|]. intros i. split; intros Hi.
    + destruct (proj1 (E i) (or_intror Hi)) as [<-|Q]; [exfalso; apply Fl in Hi; lia|exact Q].
    + destruct (proj2 (E i) (or_intror Hi)) as [<-|Q]; [exfalso; apply Fm in Hi; lia|exact Q].
Qed.
Lemma sorted_map {A B} (R : B -> B -> Prop) (f : A -> B) l : StronglySorted (fun x y => R (f x) (f y)) l -> StronglySorted R (map f l).
Proof. induction 1 as [|x l S IH F]; cbn; constructor; [exact IH|]. apply Forall_map. exact F. Qed.
Lemma sorted_app {A} (R : A -> A -> Prop) l m : StronglySorted R l -> StronglySorted R m -> (forall x y, In x l -> In y m -> R x y) -> StronglySorted R (l ++ m).
Proof.
  induction 1 as [|x l S IH F]; intros Sm H; cbn; [exact Sm|]. constructor; [apply IH; [exact Sm|intros; apply H; [right|]; assumption]|].
  apply Forall_app. split; [exact F|]. apply Forall_forall. intros y Hy. apply H; [left; reflexivity|exact Hy].
Qed.
Lemma sorted_weaken {A} (R Q : A -> A -> Prop) l : StronglySorted R l -> NoDup l -> (forall x y, In x l -> In y l -> x <> y -> R x y -> Q x y) -> StronglySorted Q l.
Proof.
  induction 1 as [|x l S IH F]; intros ND H; constructor; inversion ND as [|? ? N ND']; subst.
  - apply IH; [exact ND'|]. intros u v Hu Hv. apply H; right; assumption.
  - rewrite Forall_forall in *. intros y Hy. apply H; [left; reflexivity|right; exact Hy|intros ->; contradiction|apply F, Hy].
Qed.
(** A flattened list of singletons, ordered by position. *)
Lemma flat_sorted {A B} (f : A -> list B) (r : B -> nat) l : forall n, (forall k x z, nth_error l k = Some x -> In z (f x) -> r z = n + k) -> (forall x, In x l -> length (f x) <= 1) ->
  StronglySorted (fun i j => r i < r j) (flat_map f l).
Proof.
  induction l as [|x l IH]; intros n H1 H2; cbn; [constructor|]. apply sorted_app.
  - specialize (H2 x (or_introl eq_refl)). destruct (f x) as [|z [|z' m]]; cbn in H2; [constructor|repeat constructor|lia].
  - apply (IH (S n)); [|intros y Hy; apply H2; right; exact Hy]. intros k y z Hk Hz. rewrite (H1 (S k) y z Hk Hz). lia.
  - intros z z' Hz Hz'. rewrite (H1 0 x z eq_refl Hz). apply in_flat_map in Hz'. destruct Hz' as (y & Hy & Hz'). apply In_nth_error in Hy. destruct Hy as [k Hk]. rewrite (H1 (S k) y z' Hk Hz'). lia.
Qed.
(** Views are ordered by position, and their lists by rank. *)
Lemma views_sorted (f : view -> list nat) (r : nat -> nat) l : StronglySorted (fun x z => (key x < key z)%Z) (map vw_x l) ->
  (forall v, In v l -> StronglySorted (fun i j => r i < r j) (f v)) ->
  (forall v v' i j, In v l -> In v' l -> (key (vw_x v) < key (vw_x v'))%Z -> In i (f v) -> In j (f v') -> r i < r j) ->
  StronglySorted (fun i j => r i < r j) (concat (map f l)).
Proof.
  induction l as [|v l IH]; intros S H1 H2; cbn; [constructor|]. cbn in S. inversion S as [|? ? S' F]; subst. rewrite Forall_map, Forall_forall in F. apply sorted_app.
  - apply H1. left. reflexivity.
  - apply IH; [exact S'|intros; apply H1; right; assumption|]. intros u u' i j Hu Hu'. apply H2; right; assumption.
  - intros i j Hi Hj. apply in_concat in Hj. destruct Hj as (m & Hm & Hj). apply in_map_iff in Hm. destruct Hm as (v' & <- & Hv'). eapply H2; [left; reflexivity|right; exact Hv'|apply F, Hv'|exact Hi|exact Hj].
Qed.

Section Order.
Variable a : arena.
Variable eps : f64.
Variables lower upper : segment -> f64 -> f64 -> f64.
Variable at_y : segment -> f64 -> f64.
Variable sort_by : forall A : Type, (A -> A -> comparison) -> list A -> list A.
Hypothesis SP : sweepable a.
Notation tline := (tline a eps lower upper at_y sort_by).
Notation st c := (fst (ci_segs c)).
Notation en c := (snd (ci_segs c)).
Variable s : sweeper.
Variable before : list lentry.
Hypothesis TL : tline s before.
Variable c : cinterval.
Hypothesis HC : In c (sw_changed s).
Variable evs : list oevent.
Hypothesis REP : range_report a s c evs.
Variable l : list view.
Hypothesis V : views_of evs l.
Notation line := (sw_line s).

Definition rank (g : oevent -> option nat) (i : nat) : nat :=
  match find (fun e => ev_seg e =? i) evs with Some e => match g e with Some k => k | None => 0 end | None => 0 end.
Lemma rank_at g e k : In e evs -> g e = Some k -> rank g (ev_seg e) = k.
Proof.
  intros He G. unfold rank. destruct (find (fun f => ev_seg f =? ev_seg e) evs) as [f|] eqn:E.
  - apply find_some in E. destruct E as [Hf E]. apply Nat.eqb_eq in E. rewrite (same_event _ _ V f e Hf He E), G. reflexivity.
  - exfalso. pose proof (find_none _ _ E e He) as X. cbv beta in X. rewrite Nat.eqb_refl in X. discriminate.
Qed.
Lemma old_len e : length (old_of e) <= 1.
Proof. unfold old_of. destruct (le_old_seg e); [cbn; lia|]. destruct (le_enter e); cbn; lia. Qed.
Lemma new_len e : length (newl e) <= 1.
Proof. unfold newl. destruct (really_exits e); cbn; lia. Qed.
(** The rank of a segment from above is its place on the line before. *)
Lemma old_rank e k : In e evs -> ev_above e = true -> ev_old e = Some k -> in_interval k c /\ exists b, nth_error before k = Some b /\ In (ev_seg e) (old_of b).
Proof.
  intros He A E. destruct (rr_old _ _ _ _ REP e He A) as (j & f & I & Hf & H & Q). pose proof (tl_from _ _ _ _ _ _ _ _ TL j f Hf) as B. assert (K : k = origin j f) by congruence. rewrite <- K in B. split.
  - destruct (tl_at _ _ _ _ _ _ _ _ TL k _ B) as (j' & f' & Hf' & _ & U & X). apply X; [exact HC|].
    assert (j' = j). { apply (mem_pos a eps lower upper at_y sort_by s before TL j' j f' f (ev_seg e) Hf' Hf); [|apply old_mem, H]. apply old_mem. rewrite <- old_unmark, <- U, old_unmark. exact H. }
    subst j'. exact I.
  - exists (unmark f). split; [exact B|]. rewrite old_unmark. exact H.
Qed.
Lemma old_same e f k : In e evs -> In f evs -> ev_above e = true -> ev_above f = true -> ev_old e = Some k -> ev_old f = Some k -> ev_seg e = ev_seg f.
Proof.
  intros He Hf A A' E E'. destruct (old_rank e k He A E) as (_ & b & Hb & H). destruct (old_rank f k Hf A' E') as (_ & b' & Hb' & H'). assert (b = b') by congruence. subst b'.
  pose proof (old_len b) as L. destruct (old_of b) as [|x [|y m]]; cbn in L; [destruct H| |lia]. destruct H as [H|[]], H' as [H'|[]]. congruence.
Qed.
Lemma old_has e : In e evs -> ev_above e = true -> exists k, ev_old e = Some k.
Proof. intros He A. destruct (rr_old _ _ _ _ REP e He A) as (j & f & _ & _ & _ & Q). eauto. Qed.
Lemma new_rank e k : In e evs -> ev_below e = true -> ev_sweep e = Some k -> in_interval k c /\ exists f, nth_error line k = Some f /\ ev_seg e = le_seg f.
Proof. intros He A E. destruct (rr_new _ _ _ _ REP e He A) as (j & f & I & Hf & H & Q). assert (k = j) by congruence. subst j. split; [exact I|]. exists f. auto. Qed.
Lemma new_same e f k : In e evs -> In f evs -> ev_below e = true -> ev_below f = true -> ev_sweep e = Some k -> ev_sweep f = Some k -> ev_seg e = ev_seg f.
Proof. intros He Hf A A' E E'. destruct (new_rank e k He A E) as (_ & b & Hb & H). destruct (new_rank f k Hf A' E') as (_ & b' & Hb' & H'). congruence. Qed.
Lemma new_has e : In e evs -> ev_below e = true -> exists k, ev_sweep e = Some k.
Proof. intros He A. destruct (rr_new _ _ _ _ REP e He A) as (j & f & _ & _ & _ & Q). eauto. Qed.

Lemma ups_line : old_positions_ordered evs -> ups l = old_segs (piece before (st c) (en c)).
Proof.
  intros OP. apply (sorted_same (rank ev_old)).
  - apply views_sorted; [apply V| |].
    + intros v Hv. destruct (se_up _ _ (view_sees _ _ V v Hv)) as (m & P & -> & S). apply sorted_map. apply (sorted_weaken _ _ m S).
      * apply (NoDup_map_inv ev_seg). rewrite P. apply (nodup_filter_map _ _ V).
      * intros e f He Hf N (i & j & Ei & Ej & L). rewrite P in He, Hf. apply filter_In in He, Hf. destruct He as [He He2], Hf as [Hf Hf2]. apply andb_true_iff in He2, Hf2. destruct He2 as [A1 _], Hf2 as [A2 _].
        rewrite (rank_at ev_old e i He Ei), (rank_at ev_old f j Hf Ej). destruct (Nat.eq_dec i j) as [<-|Q]; [|lia]. exfalso. apply N. apply (same_event _ _ V); [exact He|exact Hf|]. eapply old_same; eassumption.
    + intros v v' i j Hv Hv' K Hi Hj. apply (up_in _ _ V) in Hi; [|exact Hv]. apply (up_in _ _ V) in Hj; [|exact Hv']. destruct Hi as (e & He & A1 & K1 & <-). destruct Hj as (f & Hf & A2 & K2 & <-).
      destruct (old_has e He A1) as [x Ex]. destruct (old_has f Hf A2) as [y Ey]. rewrite (rank_at ev_old e x He Ex), (rank_at ev_old f y Hf Ey).
      destruct (lt_eq_lt_dec x y) as [[L|L]|L]; [exact L| |].
      * exfalso. subst y. assert (e = f) by (apply (same_event _ _ V); [exact He|exact Hf|eapply old_same; eassumption]). subst f. lia.
      * exfalso. specialize (OP f e y x Hf He A2 A1 Ey Ex L). destruct (ev_num _ _ V e He) as [N1 _], (ev_num _ _ V f Hf) as [N2 _]. fk. zb. lia.
  - apply (flat_sorted _ _ _ (st c)); [|intros; apply old_len]. intros k b z Hb Hz.
    assert (Lk : k < en c - st c). { assert (X : k < length (piece before (st c) (en c))) by (apply nth_error_Some; congruence). unfold piece in X. rewrite firstn_length in X. lia. }
    assert (X : In z (old_segs (piece line (st c) (en c)))). { apply (old_piece a eps lower upper at_y sort_by s before TL c z HC). apply in_flat_map. exists b. split; [eapply nth_error_In, Hb|exact Hz]. }
    rewrite piece_nth in Hb by exact Lk.
    apply (above_iff a eps lower upper at_y sort_by s before TL c evs REP) in X. destruct X as (e & He & A & <-). destruct (old_has e He A) as [j Ej]. rewrite (rank_at ev_old e j He Ej).
    destruct (old_rank e j He A Ej) as (_ & b' & Hb' & Hz'). destruct (tl_at _ _ _ _ _ _ _ _ TL _ _ Hb) as (k1 & f1 & F1 & O1 & U1 & _). destruct (tl_at _ _ _ _ _ _ _ _ TL _ _ Hb') as (k2 & f2 & F2 & O2 & U2 & _). subst b b'. rewrite old_unmark in Hz, Hz'.
    assert (k1 = k2) by (apply (mem_pos a eps lower upper at_y sort_by s before TL k1 k2 f1 f2 (ev_seg e) F1 F2); apply old_mem; assumption). congruence.
  - intros i. rewrite (ups_in _ _ V), (above_iff a eps lower upper at_y sort_by s before TL c evs REP). symmetry. apply (old_piece a eps lower upper at_y sort_by s before TL c i HC).
Qed.
Lemma downs_line : new_positions_ordered evs -> downs l = new_segs (piece line (st c) (en c)).
Proof.
  intros NP. apply (sorted_same (rank ev_sweep)).
  - apply views_sorted; [apply V| |].
    + intros v Hv. destruct (se_down _ _ (view_sees _ _ V v Hv)) as (m & P & -> & S). apply sorted_map. apply (sorted_weaken _ _ m S).
      * apply (NoDup_map_inv ev_seg). rewrite P. apply (nodup_filter_map _ _ V).
      * intros e f He Hf N (i & j & Ei & Ej & L). rewrite P in He, Hf. apply filter_In in He, Hf. destruct He as [He He2], Hf as [Hf Hf2]. apply andb_true_iff in He2, Hf2. destruct He2 as [A1 _], Hf2 as [A2 _].
        rewrite (rank_at ev_sweep e i He Ei), (rank_at ev_sweep f j Hf Ej). destruct (Nat.eq_dec i j) as [<-|Q]; [|lia]. exfalso. apply N. apply (same_event _ _ V); [exact He|exact Hf|]. eapply new_same; eassumption.
    + intros v v' i j Hv Hv' K Hi Hj. apply (down_in _ _ V) in Hi; [|exact Hv]. apply (down_in _ _ V) in Hj; [|exact Hv']. destruct Hi as (e & He & A1 & K1 & <-). destruct Hj as (f & Hf & A2 & K2 & <-).
      destruct (new_has e He A1) as [x Ex]. destruct (new_has f Hf A2) as [y Ey]. rewrite (rank_at ev_sweep e x He Ex), (rank_at ev_sweep f y Hf Ey).
      destruct (lt_eq_lt_dec x y) as [[L|L]|L]; [exact L| |].
      * exfalso. subst y. assert (e = f) by (apply (same_event _ _ V); [exact He|exact Hf|eapply new_same; eassumption]). subst f. lia.
      * exfalso. specialize (NP f e y x Hf He A2 A1 Ey Ex L). destruct (ev_num _ _ V e He) as [_ N1], (ev_num _ _ V f Hf) as [_ N2]. fk. zb. lia.
  - rewrite new_segs_flat. apply (flat_sorted _ _ _ (st c)); [|intros; apply new_len]. intros k b z Hb Hz.
    assert (Lk : k < en c - st c). { assert (X : k < length (piece line (st c) (en c))) by (apply nth_error_Some; congruence). unfold piece in X. rewrite firstn_length in X. lia. }
    assert (X : In z (new_segs (piece line (st c) (en c)))). { rewrite new_segs_flat. apply in_flat_map. exists b. split; [eapply nth_error_In, Hb|exact Hz]. }
    rewrite piece_nth in Hb by exact Lk.
    apply (below_iff a eps lower upper at_y sort_by s before TL c evs REP) in X. destruct X as (e & He & A & <-). destruct (new_has e He A) as [j Ej]. rewrite (rank_at ev_sweep e j He Ej).
    destruct (new_rank e j He A Ej) as (_ & b' & Hb' & Hz'). symmetry. apply (mem_pos a eps lower upper at_y sort_by s before TL _ j b b' (ev_seg e) Hb Hb'); [apply new_mem, Hz|left; auto].
  - intros i. rewrite (downs_in _ _ V). apply (below_iff a eps lower upper at_y sort_by s before TL c evs REP).
Qed.
End Order.
