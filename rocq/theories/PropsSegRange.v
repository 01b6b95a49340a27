(** Property theorems about the segments of a range in the old and the new order: C74. *)
From Coq Require Import List Bool ZArith Arith Lia Permutation Sorted.
From Verif Require Import F64 F64Arith TreeVecModel GeomModel SegmentsModel SegmentsSpec SegmentsProofs CurveOrderModel CurveOrderProofs
  SweepModel SweepSpec SweepProofs SweepProofs2 SweepProofs3 SweepProofs6 SweepProofs8 SweepProofs10 PropsSweep RangeModel RangeSpec RangeProofs RangeProofs2 RangeProofs3
  PropsRange SegRangeModel SegRangeSpec SegRangeProofs.
Import ListNotations.

Section Oracles.
Variable a : arena.
Variable eps : f64.
Variables cmp ccmp : nat -> nat -> curve_order.
Variables min_x max_x : segment -> f64.
Variables lower upper : segment -> f64 -> f64 -> f64.
Variable pps : nat -> ((lentry -> bool) -> list lentry -> nat) * ((lentry -> bool) -> list lentry -> nat).
Variable sort_by : forall A : Type, (A -> A -> comparison) -> list A -> list A.
Notation sweep := (SweepModel.sweep a eps cmp ccmp min_x max_x lower upper pps sort_by).
Hypothesis SET : sound_setting a cmp ccmp pps sort_by.

(** ** C74 *)
(** For a weakly ordered line, [old_segment_range] and [segment_range] answer for every changed interval, and replacing the former by the latter, interval
    by interval from left to right, turns the segments below the previous line into the segments below this one, in order. *)
Theorem segment_ranges_patch : forall fuel n l done, sweep fuel n 0 (sweeper_new a) = Ok (l, done) ->
  forall t s s', nth_error (sweeper_new a :: l) t = Some s -> nth_error (sweeper_new a :: l) (S t) = Some s' ->
  boxes_ordered a eps lower upper (sw_y s') (sw_line s') ->
  exists ranges,
    Forall2 (fun c p => old_segment_range s' (ci_segs c) = Ok (fst p) /\ segment_range s' (ci_segs c) = Ok (snd p)) (sw_changed s') ranges /\
    patched ranges (new_segs (sw_line s)) (new_segs (sw_line s')).
Proof.
  intros fuel n l done H t s s' H1 H2 BOX. destruct (lines_continue a eps cmp ccmp min_x max_x lower upper pps sort_by SET _ _ _ _ H _ _ _ H1 H2) as (L0 & LEN & BEF & <-).
  assert (HI : In s' l) by (cbn [nth_error] in H2; eapply nth_error_In, H2).
  pose proof (changed_intervals_closed a eps cmp ccmp min_x max_x lower upper pps sort_by SET _ _ _ _ H s' HI) as IV.
  destruct (line_post a eps cmp ccmp min_x max_x lower upper pps sort_by SET _ _ _ _ _ H HI) as (P & _).
  destruct (patches a eps lower upper s' L0 LEN BEF (po_ok _ _ _ _ _ P) IV BOX (sw_changed s') 0) as (r & F & PT); [lia| |auto|apply IV|].
  - intros c I. split; [exact I|lia].
  - exists r. split; [exact F|exact PT].
Qed.

(** As documented: the old range of an interval lists, without repetition, segments coming from above, the new range segments going on below; a segment of the
    old range is also in the new one unless it ends at this height, and conversely unless it starts at this height. *)
Theorem segment_ranges_members : forall fuel n l done, sweep fuel n 0 (sweeper_new a) = Ok (l, done) ->
  forall s, In s l -> boxes_ordered a eps lower upper (sw_y s) (sw_line s) ->
  forall c, In c (sw_changed s) ->
  exists old new, old_segment_range s (ci_segs c) = Ok old /\ segment_range s (ci_segs c) = Ok new /\ NoDup old /\ NoDup new /\
    (forall i, In i old -> registered a i /\ flt (start_y a i) (sw_y s) = true /\ fle (sw_y s) (end_y a i) = true /\
       (In i new <-> flt (sw_y s) (end_y a i) = true)) /\
    (forall i, In i new -> registered a i /\ fle (start_y a i) (sw_y s) = true /\ flt (sw_y s) (end_y a i) = true /\
       (In i old <-> flt (start_y a i) (sw_y s) = true)).
Proof.
  intros fuel n l done H s HI BOX c HC. destruct (In_nth_error _ _ HI) as [t Ht].
  assert (exists p, nth_error (sweeper_new a :: l) t = Some p) as (p & H1).
  { destruct (nth_error (sweeper_new a :: l) t) eqn:Q; [eauto|]. apply nth_error_None in Q. cbn in Q. assert (t < length l) by (apply nth_error_Some; congruence). lia. }
  destruct (lines_continue a eps cmp ccmp min_x max_x lower upper pps sort_by SET _ _ _ _ H _ _ _ H1 Ht) as (L0 & LEN & BEF & EO).
  pose proof (changed_intervals_closed a eps cmp ccmp min_x max_x lower upper pps sort_by SET _ _ _ _ H s HI) as IV.
  destruct (line_post a eps cmp ccmp min_x max_x lower upper pps sort_by SET _ _ _ _ _ H HI) as (P & _).
  destruct (line_holds_active_segments a eps cmp ccmp min_x max_x lower upper pps sort_by SET _ _ _ _ H s HI) as (MN & MO & MM & _ & NDN & NDO & _).
  pose proof (bnd a eps lower upper s IV c HC) as B. pose proof (ss_arena _ _ _ _ _ SET) as SP.
  assert (NN : forall i, registered a i -> nan (start_y a i) = false /\ nan (end_y a i) = false).
  { intros i R. pose proof (registered_lt _ SP _ R) as Lt. destruct (sp_finite _ SP _ Lt) as [[_ F1] [_ F2]]. split; apply fin_nonnan; assumption. }
  assert (Ns : nan (sw_y s) = false) by (apply (po_ahead _ _ _ _ _ P)).
  pose proof (po_ok _ _ _ _ _ P) as PO. 
  eexists _, _. split; [eapply old_range; eassumption|]. split; [eapply new_range; eassumption|].
  set (n0 := snd (ci_segs c) - fst (ci_segs c)). set (st := fst (ci_segs c)).
  assert (EN : forall i, In i (new_segs (firstn n0 (skipn st (sw_line s)))) <-> exists e, In e (range_entries s c) /\ le_seg e = i /\ really_exits e = false).
  { intros i. unfold new_segs. rewrite in_map_iff. split.
    - intros (e & Q & I). apply filter_In in I. destruct I as [I J]. exists e. split; [exact I|]. split; [exact Q|]. destruct (really_exits e); [discriminate|reflexivity].
    - intros (e & I & Q & J). exists e. split; [exact Q|]. apply filter_In. rewrite J. auto. }
  assert (SUB : forall e, In e (range_entries s c) -> In e (sw_line s)).
  { intros e I. apply In_nth_error in I. destruct I as [k I]. apply (E_nth s c B) in I. eapply nth_error_In, I. }
  pose proof (old_in a eps lower upper s L0 LEN BEF IV BOX c HC) as EOI. fold n0 st in EOI.
  assert (INN : forall i, In i (new_segs (firstn n0 (skipn st (sw_line s)))) -> In i (new_segs (sw_line s))).
  { intros i I. apply EN in I. destruct I as (e & I & Q & J). unfold new_segs. apply in_map_iff. exists e. split; [exact Q|]. apply filter_In. rewrite J. auto. }
  assert (INO : forall i, In i (old_segs (firstn n0 (skipn st L0))) -> In i (old_segs (sw_line s))).
  { intros i I. apply EOI in I. destruct I as (e & I & J). unfold old_segs. apply in_flat_map. exists e. auto. }
  split.
  { assert (D : NoDup (old_segs L0)).
    { rewrite EO. destruct t as [|t]; [cbn in H1; injection H1 as <-; constructor|]. cbn [nth_error] in H1.
      apply (line_holds_active_segments a eps cmp ccmp min_x max_x lower upper pps sort_by SET _ _ _ _ H p (nth_error_In _ _ H1)). }
    rewrite <- (firstn_skipn st L0), <- (firstn_skipn n0 (skipn st L0)), !old_segs_app in D. apply NoDup_app_r, NoDup_app_l in D. exact D. }
  split.
  { pose proof NDN as D. rewrite <- (firstn_skipn st (sw_line s)), <- (firstn_skipn n0 (skipn st (sw_line s))), !new_segs_app in D. apply NoDup_app_r, NoDup_app_l in D. exact D. }
  rewrite Forall_forall in PO. split; intros i I.
  - pose proof (proj1 (MO i) (INO i I)) as (R & L1 & L2). split; [exact R|]. split; [exact L1|]. split; [exact L2|]. split.
    + intros J. apply INN, MN in J. apply J.
    + intros L3. apply EN. apply EOI in I. destruct I as (e & Ie & Io). destruct (PO e (SUB e Ie)) as [_ Q]. destruct (NN i R).
      exists e. split; [exact Ie|]. unfold old_of in Io. unfold really_exits. destruct (le_old_seg e) as [q|].
      * exfalso. destruct Io as [<-|[]]. destruct Q as (_ & _ & _ & _ & _ & Q & _). fk. zb. lia.
      * destruct (le_enter e); [destruct Io|]. destruct Io as [<-|[]]. split; [reflexivity|]. destruct (le_exit e); [|reflexivity]. exfalso.
        destruct Q as [[Q _] _]. specialize (Q eq_refl). fk. zb. lia.
  - pose proof (proj1 (MN i) (INN i I)) as (R & L1 & L2). split; [exact R|]. split; [exact L1|]. split; [exact L2|]. split.
    + intros J. apply INO, MO in J. apply J.
    + intros L3. apply EOI. apply EN in I. destruct I as (e & Ie & <- & Io). destruct (PO e (SUB e Ie)) as [_ Q]. destruct (NN (le_seg e) R).
      exists e. split; [exact Ie|]. unfold old_of. destruct (le_old_seg e) as [q|].
      * exfalso. destruct Q as (_ & _ & Q & _). fk. zb. lia.
      * destruct (le_enter e); [exfalso|left; reflexivity]. destruct Q as [_ [Q _]]. specialize (Q eq_refl). fk. zb. lia.
Qed.
End Oracles.

(** The ranges of the example sweep of [PropsSweep.v], to which the theorems apply ([ex_sound], [ex_lines_ordered]): old and new segments of each interval. *)
Example ex_segment_ranges :
  match ex_sweep 100 100 with
  | Ok (l, _) => map (fun s => map (fun c => (old_segment_range s (ci_segs c), segment_range s (ci_segs c))) (sw_changed s)) l =
     [ [(Ok [], Ok [0; 1; 3])]; [(Ok [0; 1], Ok [0; 1])]; [(Ok [0; 1; 3], Ok [1; 0; 4])]; [(Ok [1; 0; 4], Ok [])] ]
  | Err _ => False
  end.
Proof. vm_compute. reflexivity. Qed.

Print Assumptions segment_ranges_patch.
Print Assumptions segment_ranges_members.
