(** Proofs about the ranges of a line and the lines of a sweep. *)
From Coq Require Import List Bool ZArith Arith Lia Permutation Sorted.
From Verif Require Import F64 F64Arith TreeVecModel GeomModel SegmentsModel SegmentsSpec SegmentsProofs CurveOrderModel CurveOrderProofs SweepModel SweepSpec
  SweepProofs2 RangeModel RangeSpec RangeProofs3 RangeProofs4 RangeProofs5 PropsSweep PropsRange TopoModel TopoSpec TopoProofs TopoProofs2 TopoProofs3 TopoProofs4 TopoProofs5.
Import ListNotations.

Definition newl (e : lentry) : list nat := if really_exits e then [] else [le_seg e].
Lemma new_segs_flat l : new_segs l = flat_map newl l.
Proof. unfold new_segs. induction l as [|e l IH]; [reflexivity|]. cbn [flat_map filter]. unfold newl at 1. destruct (really_exits e); cbn [negb map app]; rewrite IH; reflexivity. Qed.
Lemma new_segs_app l m : new_segs (l ++ m) = new_segs l ++ new_segs m.
Proof. unfold new_segs. rewrite filter_app, map_app. reflexivity. Qed.
Lemma old_segs_app l m : old_segs (l ++ m) = old_segs l ++ old_segs m.
Proof. unfold old_segs. apply flat_map_app. Qed.
Definition mixed (line before : list lentry) (pos : nat) : list nat := new_segs (firstn pos line) ++ old_segs (skipn pos before).
Definition piece {A} (l : list A) (p q : nat) : list A := firstn (q - p) (skipn p l).
Lemma skipn_add {A} (l : list A) p q : skipn p (skipn q l) = skipn (p + q) l.
Proof. revert l. induction q as [|q IH]; intros l; [rewrite Nat.add_0_r; reflexivity|]. destruct l as [|x l]; [rewrite !skipn_nil; reflexivity|]. rewrite Nat.add_succ_r. cbn. apply IH. Qed.
Lemma firstn_piece {A} (l : list A) p q : p <= q -> firstn q l = firstn p l ++ piece l p q.
Proof. intros L. unfold piece. revert q l L. induction p as [|p IH]; intros q l L; [rewrite Nat.sub_0_r; reflexivity|]. destruct q as [|q]; [lia|]. destruct l as [|x l]; [cbn; rewrite firstn_nil; reflexivity|]. cbn. rewrite <- IH by lia. reflexivity. Qed.
Lemma skipn_piece {A} (l : list A) p q : p <= q -> skipn p l = piece l p q ++ skipn q l.
Proof. intros L. unfold piece. rewrite <- (firstn_skipn (q - p) (skipn p l)) at 1. f_equal. rewrite skipn_add. f_equal. lia. Qed.
Lemma piece_nth {A} (l : list A) p q k : k < q - p -> nth_error (piece l p q) k = nth_error l (p + k).
Proof. intros L. unfold piece. rewrite nth_error_firstn by exact L. apply nth_error_skipn. Qed.
Lemma in_piece {A} (l : list A) p q x : In x (piece l p q) <-> exists k, p <= k < q /\ nth_error l k = Some x.
Proof.
  split.
  - intros H. apply In_nth_error in H. destruct H as [k H]. assert (k < q - p). { apply Nat.nle_gt. intros L. assert (nth_error (piece l p q) k = None); [|congruence]. apply nth_error_None. unfold piece. rewrite firstn_length. lia. }
    rewrite piece_nth in H by assumption. exists (p + k). split; [lia|exact H].
  - intros (k & L & H). apply nth_error_In with (n := k - p). rewrite piece_nth by lia. replace (p + (k - p)) with k by lia. exact H.
Qed.
Lemma in_firstn {A} (l : list A) q x : In x (firstn q l) <-> exists k, k < q /\ nth_error l k = Some x.
Proof.
  pose proof (in_piece l 0 q x) as H. unfold piece in H. rewrite Nat.sub_0_r in H. cbn in H. rewrite H. split; intros (k & L & E); exists k; (split; [lia|exact E]).
Qed.
Lemma in_skipn {A} (l : list A) q x : In x (skipn q l) <-> exists k, q <= k /\ nth_error l k = Some x.
Proof.
  split.
  - intros H. apply In_nth_error in H. destruct H as [k H]. rewrite nth_error_skipn in H. exists (q + k). split; [lia|exact H].
  - intros (k & L & H). apply nth_error_In with (n := k - q). rewrite nth_error_skipn. replace (q + (k - q)) with k by lia. exact H.
Qed.

Section Line.
Variable a : arena.
Variable eps : f64.
Variables lower upper : segment -> f64 -> f64 -> f64.
Variable at_y : segment -> f64 -> f64.
Variable sort_by : forall A : Type, (A -> A -> comparison) -> list A -> list A.

(** What the topology builder relies on about a line. *)
Definition gap (s : sweeper) (k : nat) : Prop := forall c, In c (sw_changed s) -> ~ in_interval k c.
Record tline (s : sweeper) (before : list lentry) : Prop := {
  tl_y : nan (sw_y s) = false;
  tl_len : length before = length (sw_line s);
  tl_bounds : forall c, In c (sw_changed s) -> fst (ci_segs c) <= snd (ci_segs c) <= length (sw_line s);
  tl_apart : StronglySorted (fun c d => snd (ci_segs c) < fst (ci_segs d)) (sw_changed s);
  tl_gap : forall k e, nth_error (sw_line s) k = Some e -> gap s k -> nth_error before k = Some (unmark e) /\ le_old_seg e = None /\ le_enter e = false /\ le_exit e = false;
  tl_at : forall j b, nth_error before j = Some b -> exists k e, nth_error (sw_line s) k = Some e /\ origin k e = j /\ b = unmark e /\ forall c, In c (sw_changed s) -> in_interval j c <-> in_interval k c;
  tl_from : forall k e, nth_error (sw_line s) k = Some e -> nth_error before (origin k e) = Some (unmark e);
  tl_ok : Forall (SweepProofs8.post_ok a (sw_y s)) (sw_line s);
  tl_members : NoDup (members (sw_line s));
  tl_horiz : NoDup (sw_horiz s);
  tl_old : forall i, In i (old_segs (sw_line s)) <-> registered a i /\ flt (start_y a i) (sw_y s) = true /\ fle (sw_y s) (end_y a i) = true;
  tl_new : forall i, In i (new_segs (sw_line s)) <-> registered a i /\ fle (start_y a i) (sw_y s) = true /\ flt (sw_y s) (end_y a i) = true;
  tl_all : forall i, In i (members (sw_line s)) <-> registered a i /\ slanted a i = true /\ fle (start_y a i) (sw_y s) = true /\ fle (sw_y s) (end_y a i) = true;
  tl_hor : forall i, In i (sw_horiz s) <-> registered a i /\ slanted a i = false /\ feq (start_y a i) (sw_y s) = true;
  tl_rep : forall k c buf, nth_error (sw_changed s) k = Some c ->
    exists evs buf', next_range a eps lower upper at_y sort_by s buf k = Ok (Some (evs, c, buf')) /\ range_report a s c evs /\
    old_positions_ordered evs /\ new_positions_ordered evs }.

Lemma in_origins l : forall k j, In j (origins k l) <-> exists i e, nth_error l i = Some e /\ j = origin (k + i) e.
Proof.
  induction l as [|e l IH]; intros k j; cbn [origins In]; [split; [intros []|intros (i & e & H & _); destruct i; discriminate]|]. rewrite IH. split.
  - intros [H|(i & f & H & E)]; [exists 0, e; rewrite Nat.add_0_r; auto|]. exists (S i), f. split; [exact H|]. rewrite E. f_equal. lia.
  - intros ([|i] & f & H & E); cbn in H; [left; injection H as ->; rewrite Nat.add_0_r in E; auto|]. right. exists i, f. split; [exact H|]. rewrite E. f_equal. lia.
Qed.
Lemma gap_dec s k : gap s k \/ exists c, In c (sw_changed s) /\ in_interval k c.
Proof.
  unfold gap. induction (sw_changed s) as [|c l IH]; [left; intros c []|]. destruct IH as [IH|(d & Hd & X)]; [|right; exists d; split; [right; exact Hd|exact X]].
  destruct (le_lt_dec (fst (ci_segs c)) k) as [L1|L1]; [destruct (le_lt_dec (snd (ci_segs c)) k) as [L2|L2]|].
  - left. intros d [<-|Hd]; [unfold in_interval; lia|apply IH, Hd].
  - right. exists c. split; [left; reflexivity|split; assumption].
  - left. intros d [<-|Hd]; [unfold in_interval; lia|apply IH, Hd].
Qed.

Lemma sorted_apart (l : list cinterval) c d : StronglySorted (fun c d => snd (ci_segs c) < fst (ci_segs d)) l -> In c l -> In d l -> forall k, in_interval k c -> in_interval k d -> c = d.
Proof.
  intros S Hc Hd k H1 H2. unfold in_interval in *. induction S as [|x l S IH F]; [destruct Hc|]. rewrite Forall_forall in F. destruct Hc as [->|Hc], Hd as [->|Hd]; auto.
  - specialize (F d Hd). lia.
  - specialize (F c Hc). lia.
Qed.

Section Env.
Variables cmp ccmp : nat -> nat -> curve_order.
Variables min_x max_x : segment -> f64.
Variable pps : nat -> ((lentry -> bool) -> list lentry -> nat) * ((lentry -> bool) -> list lentry -> nat).
Hypothesis SET : sound_setting a cmp ccmp pps sort_by.
Hypothesis PS : positions_numbers a eps lower upper at_y.
Variables (fuel n : nat) (l : list sweeper) (done : bool).
Hypothesis RUN : sweep a eps cmp ccmp min_x max_x lower upper pps sort_by fuel n 0 (sweeper_new a) = Ok (l, done).

Lemma tline_of t s s' : nth_error (sweeper_new a :: l) t = Some s -> nth_error (sweeper_new a :: l) (S t) = Some s' -> boxes_ordered a eps lower upper (sw_y s') (sw_line s') ->
  exists before, tline s' before /\ old_segs before = new_segs (sw_line s).
Proof.
  intros H1 H2 BOX. assert (HI : In s' l) by (eapply nth_error_In; exact H2).
  destruct (lines_continue a eps cmp ccmp min_x max_x lower upper pps sort_by SET _ _ _ _ RUN t s s' H1 H2) as (before & B1 & B2 & B3).
  destruct (line_holds_active_segments a eps cmp ccmp min_x max_x lower upper pps sort_by SET _ _ _ _ RUN s' HI) as (L1 & L2 & L3 & L4 & L5 & L6 & L7 & L8).
  destruct (changed_intervals_closed a eps cmp ccmp min_x max_x lower upper pps sort_by SET _ _ _ _ RUN s' HI) as [I1 I2 I3 I4 I5 I6 I7 I8].
  assert (GAP : forall k e, nth_error (sw_line s') k = Some e -> gap s' k -> origin k e = k /\ le_enter e = false /\ le_exit e = false).
  { intros k e He G. destruct (Nat.eq_dec (origin k e) k) as [E|E]; [|destruct (I3 k e He) as (c & Hc & X); [auto|exfalso; apply (G c Hc X)]]. split; [exact E|].
    destruct (le_enter e) eqn:E1; [destruct (I3 k e He) as (c & Hc & X); [auto|exfalso; apply (G c Hc X)]|].
    destruct (le_exit e) eqn:E2; [destruct (I3 k e He) as (c & Hc & X); [auto|exfalso; apply (G c Hc X)]|]. auto. }
  assert (ORI : forall k e c, nth_error (sw_line s') k = Some e -> In c (sw_changed s') -> in_interval k c -> in_interval (origin k e) c).
  { intros k e c He Hc X. pose proof (I4 c Hc) as P. unfold in_interval in *. assert (Y : In (origin k e) (seq (fst (ci_segs c)) (snd (ci_segs c) - fst (ci_segs c)))); [|apply in_seq in Y; lia].
    rewrite <- P. apply in_origins. exists (k - fst (ci_segs c)), e. split; [|f_equal; lia]. fold (piece (sw_line s') (fst (ci_segs c)) (snd (ci_segs c))). rewrite piece_nth by lia. rewrite <- He. f_equal. lia. }
  exists before. split; [|exact B3]. constructor; try assumption.
  - destruct (line_post a eps cmp ccmp min_x max_x lower upper pps sort_by SET _ _ _ _ _ RUN HI) as (P & _). apply (SweepProofs8.po_ahead _ _ _ _ _ P).
  - intros k e He G. destruct (GAP k e He G) as (E1 & E2 & E3). split; [rewrite <- E1; apply B2; rewrite <- He; reflexivity|]. split; [|auto].
    destruct (le_old_seg e) as [p|] eqn:E4; [|reflexivity]. exfalso.
    (* a shared slot enters *)
    destruct (line_post a eps cmp ccmp min_x max_x lower upper pps sort_by SET _ _ _ _ _ RUN HI) as (P & _). pose proof (SweepProofs8.po_ok _ _ _ _ _ P) as PO. rewrite Forall_forall in PO. specialize (PO e (nth_error_In _ _ He)).
    destruct PO as [_ PO]. rewrite E4 in PO. destruct PO as (PO & _). congruence.
  - intros j b Hb. assert (Lj : j < length (sw_line s')) by (rewrite <- B1; apply nth_error_Some; congruence). destruct (gap_dec s' j) as [G|(c & Hc & X)].
    + destruct (nth_error (sw_line s') j) as [e|] eqn:He; [|apply nth_error_None in He; lia]. destruct (GAP j e He G) as (E1 & _). exists j, e. split; [exact He|]. split; [exact E1|]. split; [|intros; reflexivity].
      pose proof (B2 j e He) as Q. rewrite E1 in Q. congruence.
    + assert (Y : In j (seq (fst (ci_segs c)) (snd (ci_segs c) - fst (ci_segs c)))) by (unfold in_interval in X; apply in_seq; lia).
      rewrite <- (I4 c Hc) in Y. apply in_origins in Y. destruct Y as (i & e & He & E). fold (piece (sw_line s') (fst (ci_segs c)) (snd (ci_segs c))) in He.
      assert (Li : i < snd (ci_segs c) - fst (ci_segs c)). { apply Nat.nle_gt. intros L. assert (Z : nth_error (piece (sw_line s') (fst (ci_segs c)) (snd (ci_segs c))) i = None); [|congruence]. apply nth_error_None. unfold piece. rewrite firstn_length. lia. }
      rewrite piece_nth in He by exact Li. exists (fst (ci_segs c) + i), e. split; [exact He|]. split; [congruence|]. split; [pose proof (B2 _ e He) as Q; rewrite <- E in Q; congruence|].
      assert (Z : in_interval (fst (ci_segs c) + i) c) by (unfold in_interval; lia). intros d Hd. split; intros Q.
      * assert (c = d) by (eapply sorted_apart; [exact I2|exact Hc|exact Hd|exact X|exact Q]). subst d. exact Z.
      * assert (c = d) by (eapply sorted_apart; [exact I2|exact Hc|exact Hd|exact Z|exact Q]). subst d. exact X.
  - destruct (line_post a eps cmp ccmp min_x max_x lower upper pps sort_by SET _ _ _ _ _ RUN HI) as (P & _). apply P.
  - intros k c buf Hc. edestruct range_positions as (evs & buf' & Q1 & Q2 & Q3 & Q4 & _); [eassumption..|]. eauto 10.
Qed.
End Env.
End Line.
