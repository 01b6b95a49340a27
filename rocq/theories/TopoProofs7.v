(** Proofs about one range of a line. *)
From Coq Require Import List Bool ZArith Arith Lia Permutation Sorted.
From Verif Require Import F64 F64Arith TreeVecModel GeomModel SegmentsModel SegmentsSpec SegmentsProofs CurveOrderModel CurveOrderProofs SweepModel SweepSpec
  SweepProofs2 RangeModel RangeSpec RangeProofs3 RangeProofs4 RangeProofs5 PropsSweep PropsRange TopoModel TopoSpec TopoProofs TopoProofs2 TopoProofs3 TopoProofs4 TopoProofs5 TopoProofs6.
Import ListNotations.

Lemma flat_nodup_pos {A B} (f : A -> list B) l : NoDup (flat_map f l) -> forall i j x y z, nth_error l i = Some x -> nth_error l j = Some y -> In z (f x) -> In z (f y) -> i = j.
Proof.
  induction l as [|u l IH]; intros ND i j x y z Hi Hj Hx Hy; [destruct i; discriminate|]. cbn in ND. apply nodup_app in ND. destruct ND as (_ & ND & D).
  destruct i as [|i], j as [|j]; cbn in Hi, Hj.
  - reflexivity.
  - exfalso. injection Hi as ->. apply (D z Hx). apply in_flat_map. exists y. split; [eapply nth_error_In, Hj|exact Hy].
  - exfalso. injection Hj as ->. apply (D z Hy). apply in_flat_map. exists x. split; [eapply nth_error_In, Hi|exact Hx].
  - f_equal. eapply IH; eassumption.
Qed.
Lemma flat_nodup_piece {A B} (f : A -> list B) l p q : NoDup (flat_map f l) -> NoDup (flat_map f (piece l p q)).
Proof.
  intros ND. unfold piece. rewrite <- (firstn_skipn p l) in ND. rewrite flat_map_app in ND. apply nodup_app in ND. destruct ND as (_ & ND & _).
  rewrite <- (firstn_skipn (q - p) (skipn p l)) in ND. rewrite flat_map_app in ND. apply nodup_app in ND. apply ND.
Qed.
Definition mem_of (e : lentry) : list nat := le_seg e :: match le_old_seg e with Some p => [p] | None => [] end.
Lemma old_mem e i : In i (old_of e) -> In i (mem_of e).
Proof. unfold old_of, mem_of. destruct (le_old_seg e) as [p|]; [intros [->|[]]; right; left; reflexivity|]. destruct (le_enter e); [intros []|]. intros [->|[]]. left. reflexivity. Qed.
Lemma new_mem e i : In i (newl e) -> In i (mem_of e).
Proof. unfold newl, mem_of. destruct (really_exits e); [intros []|]. intros [->|[]]. left. reflexivity. Qed.
Lemma old_unmark e : old_of (unmark e) = old_of e. Proof. reflexivity. Qed.
Lemma sorted_nodup_piece {A} (l : list A) p q : NoDup l -> NoDup (piece l p q).
Proof. intros ND. unfold piece. rewrite <- (firstn_skipn p l) in ND. apply nodup_app in ND. destruct ND as (_ & ND & _). rewrite <- (firstn_skipn (q - p) (skipn p l)) in ND. apply nodup_app in ND. apply ND. Qed.
Lemma in_piece_in {A} (l : list A) p q x : In x (piece l p q) -> In x l.
Proof. intros H. apply in_piece in H. destruct H as (k & _ & H). eapply nth_error_In, H. Qed.

Section Range.
Context {W T : Type}.
Variable ops : wops W T.
Variable a : arena.
Variable tag : list T.
Variable eps : f64.
Variables lower upper : segment -> f64 -> f64 -> f64.
Variable at_y : segment -> f64 -> f64.
Variable sort_by : forall A : Type, (A -> A -> comparison) -> list A -> list A.
Hypothesis SP : sweepable a.
Hypothesis SORT : forall A, sort_spec (sort_by A).
Hypothesis TAG : length tag = arena_len a.
Hypothesis ORI : length (orientation a) = arena_len a.
Implicit Types t : topo W.
Notation TI := (TI a).
Notation none := (fun _ : nat => @None nat).
Notation tline := (tline a eps lower upper at_y sort_by).
Notation st c := (fst (ci_segs c)).
Notation en c := (snd (ci_segs c)).

Section OneLine.
Variable s : sweeper.
Variable before : list lentry.
Hypothesis TL : tline s before.
Notation line := (sw_line s).
Notation mixed := (mixed line before).

Lemma mem_pos i j e f z : nth_error line i = Some e -> nth_error line j = Some f -> In z (mem_of e) -> In z (mem_of f) -> i = j.
Proof. apply flat_nodup_pos with (f := mem_of). apply (tl_members _ _ _ _ _ _ _ _ TL). Qed.
Lemma mem_in i e z : nth_error line i = Some e -> In z (mem_of e) -> In z (members line).
Proof. intros H1 H2. apply in_flat_map. exists e. split; [eapply nth_error_In, H1|exact H2]. Qed.
Lemma old_before i : In i (old_segs before) <-> In i (old_segs line).
Proof.
  unfold old_segs. rewrite !in_flat_map. split.
  - intros (b & Hb & H). apply In_nth_error in Hb. destruct Hb as [j Hb]. destruct (tl_at _ _ _ _ _ _ _ _ TL _ _ Hb) as (k & e & He & _ & -> & _). exists e. split; [eapply nth_error_In, He|exact H].
  - intros (e & He & H). apply In_nth_error in He. destruct He as [k He]. exists (unmark e). split; [eapply nth_error_In, (tl_from _ _ _ _ _ _ _ _ TL), He|exact H].
Qed.
Lemma old_piece c i : In c (sw_changed s) -> (In i (old_segs (piece before (st c) (en c))) <-> In i (old_segs (piece line (st c) (en c)))).
Proof.
  intros Hc. unfold old_segs. rewrite !in_flat_map. split.
  - intros (b & Hb & H). apply in_piece in Hb. destruct Hb as (j & L & Hb). destruct (tl_at _ _ _ _ _ _ _ _ TL _ _ Hb) as (k & e & He & _ & -> & I). exists e.
    split; [|exact H]. apply in_piece. exists k. split; [|exact He]. apply (I c Hc). exact L.
  - intros (e & He & H). apply in_piece in He. destruct He as (k & L & He). exists (unmark e). split; [|exact H]. apply in_piece. exists (origin k e).
    pose proof (tl_from _ _ _ _ _ _ _ _ TL k e He) as Hb. split; [|exact Hb].
    destruct (tl_at _ _ _ _ _ _ _ _ TL _ _ Hb) as (k' & e' & He' & EO & EU & I). assert (k = k').
    { apply (mem_pos k k' e e' (le_seg e)); [exact He|exact He'|left; reflexivity|]. assert (Q : le_seg e = le_seg e') by (apply (f_equal le_seg) in EU; exact EU). rewrite Q. left. reflexivity. }
    subst k'. apply (I c Hc). exact L.
Qed.

(** Moving over unchanged entries. *)
Lemma mixed_gap p q : p <= q -> (forall j, p <= j < q -> gap s j) -> mixed p = mixed q.
Proof.
  intros L G. unfold mixed. rewrite (firstn_piece line p q L), new_segs_app, <- app_assoc. f_equal. rewrite (skipn_piece before p q L), old_segs_app. f_equal.
  assert (Q : piece before p q = map unmark (piece line p q)).
  { assert (NTH : forall k, nth_error (piece before p q) k = nth_error (map unmark (piece line p q)) k).
    { intros k. rewrite nth_error_map'. destruct (Nat.lt_ge_cases k (q - p)) as [Lk|Lk].
      - rewrite !piece_nth by exact Lk. destruct (nth_error line (p + k)) as [e|] eqn:E.
        + apply (tl_gap _ _ _ _ _ _ _ _ TL) in E; [|apply G; lia]. cbn. apply E.
        + cbn. apply nth_error_None. rewrite (tl_len _ _ _ _ _ _ _ _ TL). apply nth_error_None, E.
      - replace (nth_error (piece before p q) k) with (@None lentry) by (symmetry; apply nth_error_None; unfold piece; rewrite firstn_length; lia).
        replace (nth_error (piece line p q) k) with (@None lentry) by (symmetry; apply nth_error_None; unfold piece; rewrite firstn_length; lia). reflexivity. }
    clear - NTH. revert NTH. generalize (piece before p q) as l, (map unmark (piece line p q)) as m. induction l as [|x l IH]; intros [|y m] H; [reflexivity|specialize (H 0); discriminate|specialize (H 0); discriminate|].
    f_equal; [specialize (H 0); cbn in H; congruence|]. apply IH. intros k. apply (H (S k)). }
  rewrite Q, new_segs_flat. unfold old_segs. rewrite flat_map_concat_map, flat_map_concat_map, map_map. f_equal. apply map_ext_in. intros e He.
  apply in_piece in He. destruct He as (k & Lk & He). destruct (tl_gap _ _ _ _ _ _ _ _ TL _ _ He (G k Lk)) as (_ & E1 & E2 & E3). rewrite old_unmark. unfold newl, old_of, really_exits. rewrite E1, E2, E3. reflexivity.
Qed.

Section OneRange.
Variable c : cinterval.
Hypothesis HC : In c (sw_changed s).
Variable evs : list oevent.
Hypothesis REP : range_report a s c evs.

Lemma bnd : st c <= en c <= length line. Proof. apply (tl_bounds _ _ _ _ _ _ _ _ TL), HC. Qed.
Lemma segs_in i : In i (map ev_seg evs) <-> In i (members (piece line (st c) (en c))) \/ In i (range_horizontals s c).
Proof. rewrite (rr_segs _ _ _ _ REP). unfold range_entries. fold (piece line (st c) (en c)). apply in_app_iff. Qed.
Lemma hor_in i : In i (range_horizontals s c) -> In i (sw_horiz s).
Proof. unfold range_horizontals. destruct (ci_hor c) as [[p q]|]; [|intros []]. cbn [fst snd]. fold (piece (sw_horiz s) p q). apply in_piece_in. Qed.
Lemma hor_not_member i : In i (range_horizontals s c) -> In i (members line) -> False.
Proof. intros H1 H2. apply hor_in in H1. apply (tl_hor _ _ _ _ _ _ _ _ TL) in H1. apply (tl_all _ _ _ _ _ _ _ _ TL) in H2. destruct H1 as (_ & E & _), H2 as (_ & E' & _). congruence. Qed.
Lemma segs_nodup : NoDup (map ev_seg evs).
Proof.
  rewrite (rr_segs _ _ _ _ REP). unfold range_entries. fold (piece line (st c) (en c)). apply nodup_app. split; [|split].
  - apply flat_nodup_piece with (f := mem_of). apply (tl_members _ _ _ _ _ _ _ _ TL).
  - unfold range_horizontals. destruct (ci_hor c) as [[p q]|]; [|constructor]. apply (sorted_nodup_piece (sw_horiz s) p q). apply (tl_horiz _ _ _ _ _ _ _ _ TL).
  - intros i H1 H2. apply (hor_not_member i H2). unfold members in *. rewrite in_flat_map in *. destruct H1 as (e & He & H1). exists e. split; [eapply in_piece_in, He|exact H1].
Qed.
Lemma seg_registered e : In e evs -> registered a (ev_seg e).
Proof.
  intros He. assert (X : In (ev_seg e) (map ev_seg evs)) by (apply in_map, He). apply segs_in in X. destruct X as [X|X].
  - assert (Y : In (ev_seg e) (members line)) by (unfold members in *; rewrite in_flat_map in *; destruct X as (f & Hf & X); exists f; split; [eapply in_piece_in, Hf|exact X]).
    apply (tl_all _ _ _ _ _ _ _ _ TL) in Y. apply Y.
  - apply hor_in in X. apply (tl_hor _ _ _ _ _ _ _ _ TL) in X. apply X.
Qed.
Lemma seg_usable e : In e evs -> usable a tag (ev_seg e).
Proof. intros He. apply seg_registered in He. apply (registered_lt _ SP) in He. unfold usable. lia. Qed.
Lemma above_iff i : (exists e, In e evs /\ ev_above e = true /\ ev_seg e = i) <-> In i (old_segs (piece line (st c) (en c))).
Proof.
  split.
  - intros (e & He & A & <-). destruct (rr_old _ _ _ _ REP e He A) as (k & f & L & Hf & H & _). apply in_flat_map. exists f. split; [|exact H]. apply in_piece. exists k. auto.
  - intros H. apply in_flat_map in H. destruct H as (f & Hf & H).
    assert (X : In i (map ev_seg evs)) by (apply segs_in; left; apply in_flat_map; exists f; split; [exact Hf|apply old_mem, H]). apply in_map_iff in X. destruct X as (e & <- & He).
    exists e. split; [exact He|]. split; [|reflexivity]. rewrite (rr_above _ _ _ _ REP e He). apply (tl_old _ _ _ _ _ _ _ _ TL). apply in_flat_map. exists f. split; [eapply in_piece_in, Hf|exact H].
Qed.
Lemma below_iff i : (exists e, In e evs /\ ev_below e = true /\ ev_seg e = i) <-> In i (new_segs (piece line (st c) (en c))).
Proof.
  rewrite new_segs_flat. split.
  - intros (e & He & A & <-). destruct (rr_new _ _ _ _ REP e He A) as (k & f & L & Hf & H & _). apply in_flat_map. exists f. split; [apply in_piece; exists k; auto|].
    assert (X : In (ev_seg e) (new_segs line)).
    { apply (tl_new _ _ _ _ _ _ _ _ TL). assert (Y : In (ev_seg e) (members line)) by (eapply mem_in; [exact Hf|rewrite H; left; reflexivity]). apply (tl_all _ _ _ _ _ _ _ _ TL) in Y. destruct Y as (Y1 & _ & Y2 & _).
      split; [exact Y1|]. split; [exact Y2|]. rewrite <- (rr_below _ _ _ _ REP e He). exact A. }
    rewrite new_segs_flat in X. apply in_flat_map in X. destruct X as (f' & Hf' & X). apply In_nth_error in Hf'. destruct Hf' as [k' Hf'].
    assert (k = k') by (apply (mem_pos k k' f f' (ev_seg e)); [exact Hf|exact Hf'|rewrite H; left; reflexivity|apply new_mem, X]). subst k'. congruence.
  - intros H. apply in_flat_map in H. destruct H as (f & Hf & H).
    assert (X : In i (map ev_seg evs)) by (apply segs_in; left; apply in_flat_map; exists f; split; [exact Hf|apply new_mem, H]). apply in_map_iff in X. destruct X as (e & <- & He).
    exists e. split; [exact He|]. split; [|reflexivity]. rewrite (rr_below _ _ _ _ REP e He). apply (tl_new _ _ _ _ _ _ _ _ TL). rewrite new_segs_flat. apply in_flat_map. exists f. split; [eapply in_piece_in, Hf|exact H].
Qed.
Lemma left_not_segs i : In i (new_segs (firstn (st c) line)) -> ~ In i (map ev_seg evs).
Proof.
  intros H X. rewrite new_segs_flat in H. apply in_flat_map in H. destruct H as (f & Hf & H). apply in_firstn in Hf. destruct Hf as (k & L & Hf). apply segs_in in X. destruct X as [X|X].
  - apply in_flat_map in X. destruct X as (g & Hg & X). apply in_piece in Hg. destruct Hg as (k' & L' & Hg). assert (k = k') by (apply (mem_pos k k' f g i); [exact Hf|exact Hg|apply new_mem, H|exact X]). lia.
  - apply (hor_not_member i X). eapply mem_in; [exact Hf|apply new_mem, H].
Qed.
Lemma right_not_segs i : In i (old_segs (skipn (en c) before)) -> ~ In i (map ev_seg evs).
Proof.
  intros H X. apply in_flat_map in H. destruct H as (b & Hb & H). apply in_skipn in Hb. destruct Hb as (j & L & Hb). destruct (tl_at _ _ _ _ _ _ _ _ TL _ _ Hb) as (k & f & Hf & _ & -> & I). rewrite old_unmark in H. apply segs_in in X. destruct X as [X|X].
  - apply in_flat_map in X. destruct X as (g & Hg & X). apply in_piece in Hg. destruct Hg as (k' & L' & Hg). assert (k = k') by (apply (mem_pos k k' f g i); [exact Hf|exact Hg|apply old_mem, H|exact X]). subst k'.
    apply (I c HC) in L'. unfold in_interval in L'. lia.
  - apply (hor_not_member i X). eapply mem_in; [exact Hf|apply old_mem, H].
Qed.
Lemma mixed_start : mixed (st c) = new_segs (firstn (st c) line) ++ old_segs (piece before (st c) (en c)) ++ old_segs (skipn (en c) before).
Proof. unfold mixed. rewrite (skipn_piece before (st c) (en c)) by apply bnd. rewrite old_segs_app. reflexivity. Qed.
Lemma mixed_end : mixed (en c) = new_segs (firstn (st c) line) ++ new_segs (piece line (st c) (en c)) ++ old_segs (skipn (en c) before).
Proof. unfold mixed. rewrite (firstn_piece line (st c) (en c)) by apply bnd. rewrite new_segs_app, <- app_assoc. reflexivity. Qed.

Variable O : nat -> option nat.
Hypothesis HO : forall i, O i <> None <-> In i (mixed (st c)).
Lemma open_iff_above e : In e evs -> (O (ev_seg e) <> None <-> ev_above e = true).
Proof.
  intros He. rewrite HO, mixed_start, !in_app_iff. split.
  - intros [H|[H|H]].
    + exfalso. apply (left_not_segs _ H), in_map, He.
    + apply (old_piece c _ HC) in H. apply above_iff in H. destruct H as (f & Hf & A & E). rewrite (rr_above _ _ _ _ REP f Hf), E in A. rewrite (rr_above _ _ _ _ REP e He). exact A.
    + exfalso. apply (right_not_segs _ H), in_map, He.
  - intros A. right. left. apply (old_piece c _ HC). apply above_iff. eauto.
Qed.
Lemma reopen_mixed l N i : views_of evs l -> (reopen O evs l (vrecs N O [] l) i <> None <-> In i (mixed (en c))).
Proof.
  intros V. rewrite (reopen_iff O evs l N i V). rewrite mixed_end, !in_app_iff. rewrite HO, mixed_start, !in_app_iff. split.
  - intros [(e & He & <- & B)|[NS [H|[H|H]]]]; auto.
    + right. left. apply below_iff. eauto.
    + exfalso. apply NS. apply (old_piece c _ HC), above_iff in H. destruct H as (e & He & _ & <-). apply in_map, He.
  - intros [H|[H|H]].
    + right. split; [apply left_not_segs, H|auto].
    + left. apply below_iff in H. destruct H as (e & He & B & <-). eauto.
    + right. split; [apply right_not_segs, H|auto].
Qed.
End OneRange.
End OneLine.
End Range.
