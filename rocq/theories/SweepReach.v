(** Arenas built through the public constructors can be swept. *)
From Coq Require Import List Bool ZArith Lia Permutation Sorted Arith.
From Verif Require Import F64 F64Arith TreeVecModel GeomModel SegmentsModel SegmentsSpec SegmentsProofs
  SegmentsProofs2 SegmentsProofs3 SegmentsProofs4 SegmentsProofs5 PropsSegments CurveOrderModel CurveOrderSpec CurveOrderProofs
  SweepModel SweepSpec.
Import ListNotations.

Section R.
Variable eval : cubic -> f64 -> point.
Variable ctrl : cubic -> f64 -> f64 -> point * point.
Variable monic : f64 -> f64 -> f64 * f64.
Variable quad_ctrl : point -> point -> point -> point * point.
Variable at_y : segment -> f64 -> f64.
Variable sort_by : ((f64 * nat) -> (f64 * nat) -> comparison) -> list (f64 * nat) -> list (f64 * nat).

Lemma seg_def_nth a i s : nth_error (segs a) i = Some s -> seg_def a i = s.
Proof. intros H. unfold seg_def. apply nth_error_nth. exact H. Qed.

Lemma fin_point_eq p q : point_fin p -> same_point p q -> point_eq p q = true.
Proof.
  intros [F1 F2] [<-|H]; [|exact H]. apply fin_nonnan in F1, F2. apply peq_refl. split; assumption.
Qed.
Lemma point_eq_y p q : point_eq p q = true -> feq (py p) (py q) = true.
Proof. unfold point_eq. intros H. apply andb_true_iff in H. tauto. Qed.


Lemma same_point_y p q : point_fin p -> same_point p q -> key (py p) = key (py q).
Proof.
  intros F H. pose proof (fin_point_eq _ _ F H) as E. apply point_eq_y in E. destruct F as [_ F]. apply fin_nonnan in F.
  destruct (feq_nonnan _ _ E). fk. zb. lia.
Qed.

Lemma point_le_y p q : point_fin p -> point_fin q -> point_le p q = true ->
  (key (py p) < key (py q))%Z \/ (key (py p) = key (py q) /\ (key (px p) <= key (px q))%Z).
Proof.
  intros [P1 P2] [Q1 Q2] H. apply fin_nonnan in P1, P2, Q1, Q2. unfold point_le, point_cmp in H.
  rewrite !cof_cmp_key in H by assumption.
  destruct (Z.compare_spec (key (py p)) (key (py q))); try discriminate; [|lia].
  destruct (Z.compare_spec (key (px p)) (key (px q))); try discriminate; lia.
Qed.

(** Every history of successful additions through the public constructors, other than of open
    Bezier paths, with finite coordinates, gives an arena that can be swept. *)
Theorem reachable_sweepable : sort_spec sort_by -> forall ops a,
  (forall p, ~ In (OpBez false p) ops) -> (forall op, In op ops -> op_exact eval monic quad_ctrl op) ->
  (forall op, In op ops -> op_nonnan eval monic quad_ctrl op) ->
  reachable_ok eval ctrl monic quad_ctrl at_y sort_by ops a ->
  (forall s, In s (segs a) -> point_fin (seg_start s) /\ point_fin (seg_end s) /\ at_y_ok at_y s) ->
  sweepable a.
Proof.
  intros Hs ops a NB EX NN R FN.
  assert (RC : reachable eval ctrl monic quad_ctrl at_y sort_by ops a) by (eexists; exact R).
  pose proof (segments_read_back eval ctrl monic quad_ctrl at_y sort_by Hs ops a RC) as (_ & _ & WF).
  rewrite Forall_forall in WF.
  destruct (events_enumerate eval ctrl monic quad_ctrl at_y sort_by Hs ops a R) as (PE & (sl & PX & SL) & EN & EXI).
  destruct (events_sorted_by_height eval ctrl monic quad_ctrl at_y sort_by Hs ops a RC) as [SE SX]; [apply FN|exact NN|].
  assert (AT : forall i, i < arena_len a -> nth_error (segs a) i = Some (seg_def a i)).
  { intros i Hi. unfold seg_def. apply nth_error_nth'. exact Hi. }
  assert (FI : forall i, i < arena_len a -> point_fin (seg_start (seg_def a i)) /\ point_fin (seg_end (seg_def a i))).
  { intros i Hi. apply AT, nth_error_In, FN in Hi. tauto. }
  assert (PL : forall i, i < arena_len a -> (key (start_y a i) < key (end_y a i))%Z \/
    (key (start_y a i) = key (end_y a i) /\ (key (px (seg_start (seg_def a i))) <= key (px (seg_end (seg_def a i))))%Z)).
  { intros i Hi. destruct (FI i Hi). apply point_le_y; [assumption|assumption|]. apply AT, nth_error_In, WF in Hi. apply Hi. }
  assert (NA : forall i, i < arena_len a -> nan (start_y a i) = false /\ nan (end_y a i) = false).
  { intros i Hi. destruct (FI i Hi) as [[_ F1] [_ F2]]. split; apply fin_nonnan; assumption. }
  assert (RG : forall i, SweepSpec.registered a i <-> i < arena_len a).
  { intros i. unfold SweepSpec.registered. split; intros H.
    - eapply Permutation_in in H; [|exact PE]. apply in_seq in H. lia.
    - eapply Permutation_in; [symmetry; exact PE|]. apply in_seq. lia. }
  assert (HZ : forall i, i < arena_len a -> is_horizontal (seg_def a i) = Some (negb (slanted a i))).
  { intros i Hi. rewrite is_horizontal_wf by (apply AT, nth_error_In, WF in Hi; exact Hi). f_equal.
    destruct (NA i Hi). unfold slanted. fold (start_y a i) (end_y a i). pose proof (PL i Hi) as P.
    destruct (flt (start_y a i) (end_y a i)) eqn:F1, (feq (start_y a i) (end_y a i)) eqn:F2; fk; zb; try reflexivity; lia. }
  assert (SLE : forall i, i < arena_len a -> sl i = slanted a i).
  { intros i Hi. specialize (SL i _ (AT i Hi)). rewrite HZ in SL by exact Hi. assert (E : negb (slanted a i) = negb (sl i)) by congruence. clear -E. destruct (sl i), (slanted a i); cbn in E; congruence. }
  (* neighbours *)
  assert (OS : forall i, i < arena_len a -> exists o, nth_error (orientation a) i = Some o).
  { intros i Hi. destruct (nth_error (orientation a) i) eqn:E; [eauto|]. exfalso. apply nth_error_None in E.
    pose proof (reachable_stores eval ctrl monic quad_ctrl at_y sort_by ops a Hs RC) as S. rewrite (st_orient _ _ S) in E. unfold arena_len in Hi. lia. }
  assert (MEET : forall i j, nth_error (contour_next a) i = Some (Some j) -> i < arena_len a /\ j < arena_len a /\
     exists oi oj, nth_error (orientation a) i = Some oi /\ nth_error (orientation a) j = Some oj /\
       same_point (if (oi : bool) then seg_end (seg_def a i) else seg_start (seg_def a i))
                  (if (oj : bool) then seg_start (seg_def a j) else seg_end (seg_def a j))).
  { intros i j H. destruct (contour_links_meet eval ctrl monic quad_ctrl at_y sort_by Hs ops a NB EX R i j H) as (p & q & Hp & Hq & M).
    unfold oriented_end, oriented_start in *.
    destruct (nth_error (segs a) i) as [si|] eqn:Si; [|discriminate]. destruct (nth_error (segs a) j) as [sj|] eqn:Sj; [|discriminate].
    cbn [option_bind] in *.
    destruct (nth_error (orientation a) i) as [oi|] eqn:Oi; [|discriminate]. destruct (nth_error (orientation a) j) as [oj|] eqn:Oj; [|discriminate].
    cbn [option_bind] in *. rewrite (seg_def_nth _ _ _ Si), (seg_def_nth _ _ _ Sj).
    split; [apply nth_error_Some; congruence|]. split; [apply nth_error_Some; congruence|]. exists oi, oj. split; [reflexivity|]. split; [reflexivity|].
    injection Hp as <-. injection Hq as <-. exact M. }
  assert (LEN : length (contour_prev a) = arena_len a /\ length (contour_next a) = arena_len a).
  { pose proof (reachable_stores eval ctrl monic quad_ctrl at_y sort_by ops a Hs RC) as S. rewrite (st_prev _ _ S), (st_next _ _ S), !links_length.
    pose proof (segments_read_back eval ctrl monic quad_ctrl at_y sort_by Hs ops a RC) as (L & _). auto. }
  split.
  - exact FI.
  - intros i Hi. split; [|apply HZ, Hi]. destruct (NA i Hi). pose proof (PL i Hi). fk. apply Z.leb_le. lia.
  - intros i Hi S. destruct (FI i Hi) as [[F1 _] [F2 _]]. apply fin_nonnan in F1, F2. destruct (NA i Hi). pose proof (PL i Hi). unfold slanted in S. fk. zb. lia.
  - eapply Permutation_NoDup; [symmetry; exact PE|apply seq_NoDup].
  - intros y i H. destruct (EN y i H) as (s & S1 & ->). split; [apply nth_error_Some; congruence|]. unfold start_y. rewrite (seg_def_nth _ _ _ S1). reflexivity.
  - exact SE.
  - eapply Permutation_NoDup; [symmetry; exact PX|apply NoDup_filter, seq_NoDup].
  - intros y i. rewrite RG. split.
    + intros H. destruct (EXI y i H) as (s & S1 & ->). assert (Hi : i < arena_len a) by (apply nth_error_Some; congruence).
      split; [exact Hi|]. split; [|unfold end_y; rewrite (seg_def_nth _ _ _ S1); reflexivity].
      rewrite <- (SLE i Hi). apply (in_map snd) in H. eapply Permutation_in in H; [|exact PX]. apply filter_In in H. apply H.
    + intros (Hi & S & ->). assert (HI : In i (map snd (exit_ a))).
      { eapply Permutation_in; [symmetry; exact PX|]. apply filter_In. split; [apply in_seq; lia|]. rewrite SLE; assumption. }
      apply in_map_iff in HI. destruct HI as ([y j] & <- & HI). cbn [snd] in *. destruct (EXI y j HI) as (s & S1 & ->).
      unfold end_y. rewrite (seg_def_nth _ _ _ S1). exact HI.
  - exact SX.
  - intros i Hi. apply RG in Hi. destruct (OS i Hi) as [o Ho]. unfold sweep_prev. rewrite Ho. cbn [orerr rbind].
    destruct LEN as [LP LN].
    destruct (nth_error (if o then contour_prev a else contour_next a) i) as [p|] eqn:Ep.
    2:{ apply nth_error_None in Ep. destruct o; lia. }
    exists p. split; [reflexivity|]. intros q ->.
    assert (ME : q < arena_len a /\ exists oq,
      same_point (if (oq : bool) then seg_end (seg_def a q) else seg_start (seg_def a q)) (seg_start (seg_def a i))).
    { destruct o.
      - apply (contour_links_inverse eval ctrl monic quad_ctrl at_y sort_by Hs ops a NB R) in Ep.
        destruct (MEET q i Ep) as (Q1 & _ & oq & oi & O1 & O2 & M). split; [exact Q1|]. exists oq. replace oi with true in M by congruence. exact M.
      - destruct (MEET i q Ep) as (_ & Q1 & oi & oq & O1 & O2 & M). split; [exact Q1|]. exists (negb oq). replace oi with false in M by congruence.
        destruct (FI i Hi) as [F _].
        assert (M' : same_point (if oq then seg_start (seg_def a q) else seg_end (seg_def a q)) (seg_start (seg_def a i))).
        { destruct M as [M|M]; [left; congruence|right; apply peq_sym, M]. }
        destruct oq; exact M'. }
    destruct ME as (Hq & oq & M). split; [exact Hq|]. intros FL. destruct oq; [apply fin_point_eq; [apply FI, Hq|exact M]|].
    exfalso. apply same_point_y in M; [|apply FI, Hq]. fold (start_y a q) (start_y a i) in M. destruct (NA q Hq), (NA i Hi). fk. zb. lia.
Qed.
End R.
Print Assumptions reachable_sweepable.
