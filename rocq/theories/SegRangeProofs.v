(** Proofs about the segments of a range. *)
From Coq Require Import List Bool ZArith Arith Lia Permutation Sorted.
From Verif Require Import F64 F64Arith TreeVecModel GeomModel SegmentsModel SegmentsSpec SegmentsProofs CurveOrderModel CurveOrderProofs
  SweepModel SweepSpec SweepProofs SweepProofs2 SweepProofs3 SweepProofs6 SweepProofs8 SweepProofs10 RangeModel RangeSpec RangeProofs RangeProofs2 RangeProofs3
  SegRangeModel SegRangeSpec.
Import ListNotations.

Lemma nth_ext_err {A} (l l' : list A) : (forall k, nth_error l k = nth_error l' k) -> l = l'.
Proof.
  revert l'. induction l as [|x l IH]; intros [|y l'] H; [reflexivity|specialize (H 0); discriminate|specialize (H 0); discriminate|].
  pose proof (H 0) as H0. injection H0 as ->. f_equal. apply IH. intros k. exact (H (S k)).
Qed.
Lemma new_segs_flat l : flat_map (fun e => if le_exit e && match le_old_seg e with None => true | Some _ => false end then [] else [le_seg e]) l = new_segs l.
Proof.
  induction l as [|e l IH]; [reflexivity|]. cbn [flat_map]. rewrite IH. unfold new_segs. cbn [filter]. unfold really_exits at 2. destruct (_ && _); reflexivity.
Qed.
Lemma new_segs_app l m : new_segs (l ++ m) = new_segs l ++ new_segs m.
Proof. unfold new_segs. rewrite filter_app, map_app. reflexivity. Qed.
Lemma old_segs_app l m : old_segs (l ++ m) = old_segs l ++ old_segs m.
Proof. apply flat_map_app. Qed.
Lemma skipn_split {A} (l : list A) p q : p <= q -> skipn p l = firstn (q - p) (skipn p l) ++ skipn q l.
Proof. intros H. rewrite <- (firstn_skipn (q - p) (skipn p l)) at 1. f_equal. rewrite <- SweepProofs.skipn_add. f_equal. lia. Qed.

Section Line.
Variable a : arena.
Variable eps : f64.
Variables lower upper : segment -> f64 -> f64 -> f64.
Variable s : sweeper.
Variable L0 : list lentry.
Hypothesis LEN : length L0 = length (sw_line s).
Hypothesis BEF : forall k e, nth_error (sw_line s) k = Some e -> nth_error L0 (origin k e) = Some (unmark e).
Hypothesis OK : Forall (post_ok a (sw_y s)) (sw_line s).
Hypothesis IV : intervals_ok a eps lower upper s.
Hypothesis BOX : boxes_ordered a eps lower upper (sw_y s) (sw_line s).

Lemma shared e : In e (sw_line s) -> le_old_seg e <> None -> le_enter e = true.
Proof. intros I N. rewrite Forall_forall in OK. destruct (OK _ I) as [_ H]. destruct (le_old_seg e); [apply H|congruence]. Qed.
Lemma old_of_src e : In e (sw_line s) -> old_of e = match (if le_enter e then le_old_seg e else Some (le_seg e)) with Some g => [g] | None => [] end.
Proof.
  intros I. unfold old_of. pose proof (shared e I) as H. destruct (le_old_seg e), (le_enter e); try reflexivity. discriminate H; congruence.
Qed.

(** Outside of the intervals nothing happens. *)
Lemma gap_entry k e : nth_error (sw_line s) k = Some e -> (forall c, In c (sw_changed s) -> ~ in_interval k c) ->
  nth_error L0 k = Some (unmark e) /\ old_of (unmark e) = [le_seg e] /\ really_exits e = false.
Proof.
  intros H N. assert (F : le_enter e = false /\ le_exit e = false /\ origin k e = k).
  { destruct (le_enter e) eqn:E1; [exfalso|]. { destruct (iv_cover _ _ _ _ _ IV k e H) as (c & I & J); [auto|]. exact (N c I J). }
    destruct (le_exit e) eqn:E2; [exfalso|]. { destruct (iv_cover _ _ _ _ _ IV k e H) as (c & I & J); [auto|]. exact (N c I J). }
    split; [reflexivity|]. split; [reflexivity|]. destruct (Nat.eq_dec (origin k e) k) as [|D]; [assumption|exfalso].
    destruct (iv_cover _ _ _ _ _ IV k e H) as (c & I & J); [auto|]. exact (N c I J). }
  destruct F as (F1 & F2 & F3). pose proof (BEF _ _ H) as B. rewrite F3 in B. split; [exact B|].
  pose proof (shared e (nth_error_In _ _ H)) as SH. unfold old_of, really_exits. cbn [unmark le_old_seg le_enter le_seg]. rewrite F1, F2.
  destruct (le_old_seg e); [|split; reflexivity]. rewrite F1 in SH. discriminate SH; congruence.
Qed.
Lemma gap_same p q : p <= q -> q <= length (sw_line s) -> (forall k c, p <= k < q -> In c (sw_changed s) -> ~ in_interval k c) ->
  old_segs (firstn (q - p) (skipn p L0)) = new_segs (firstn (q - p) (skipn p (sw_line s))).
Proof.
  intros Hpq Hq N. assert (E : firstn (q - p) (skipn p L0) = map unmark (firstn (q - p) (skipn p (sw_line s)))).
  { apply nth_ext_err. intros k. rewrite nth_error_map'. destruct (Nat.lt_ge_cases k (q - p)) as [L|L].
    - rewrite !nth_error_firstn, !nth_error_skipn by exact L. destruct (nth_error (sw_line s) (p + k)) as [e|] eqn:H.
      + destruct (gap_entry _ _ H) as (-> & _); [intros c; apply N; lia|reflexivity].
      + apply nth_error_None in H. lia.
    - replace (nth_error (firstn (q - p) (skipn p L0)) k) with (@None lentry) by (symmetry; apply nth_error_None; rewrite firstn_length; lia).
      replace (nth_error (firstn (q - p) (skipn p (sw_line s))) k) with (@None lentry) by (symmetry; apply nth_error_None; rewrite firstn_length; lia). reflexivity. }
  rewrite E. clear E.
  assert (F : Forall (fun e => old_of (unmark e) = [le_seg e] /\ really_exits e = false) (firstn (q - p) (skipn p (sw_line s)))).
  { apply Forall_forall. intros e I. apply In_nth_error in I. destruct I as [k I]. assert (L : k < q - p).
    { assert (k < length (firstn (q - p) (skipn p (sw_line s)))) by (apply nth_error_Some; congruence). rewrite firstn_length in *. lia. }
    rewrite nth_error_firstn, nth_error_skipn in I by exact L. apply (gap_entry _ _ I). intros c. apply N. lia. }
  induction F as [|e l [F1 F2] F IH]; [reflexivity|]. unfold old_segs, new_segs in *. cbn [map flat_map filter]. rewrite F1, F2, IH. reflexivity.
Qed.

(** In an interval. *)
Section Interval.
Variable c : cinterval.
Hypothesis HC : In c (sw_changed s).
Notation start := (fst (ci_segs c)).
Notation end_ := (snd (ci_segs c)).
Notation E := (range_entries s c).
Notation n := (end_ - start).
Lemma bnd : start <= end_ <= length (sw_line s).
Proof. apply (iv_bounds _ _ _ _ _ IV), HC. Qed.
Lemma known e : In e E -> le_old_idx e <> None.
Proof.
  intros H. apply In_nth_error in H. destruct H as [k H]. pose proof bnd as B. assert (L : k < length E) by (apply nth_error_Some; congruence). rewrite (E_length s c B) in L.
  apply (E_nth s c B) in H. apply (iv_known _ _ _ _ _ IV BOX c (start + k) e HC); [unfold in_interval; lia|exact H].
Qed.
Notation opos := (opos c).
Definition src (e : lentry) : option nat := if le_enter e then le_old_seg e else Some (le_seg e).
Lemma fill_segs_ok : forall l k ret, (forall e, In e l -> In e E) -> NoDup (map opos l) -> length ret = n ->
  exists r, fill_segs start k l ret = Ok r /\ length r = n /\
    (forall e, In e l -> nth_error r (opos e) = match src e with Some g => Some (Some g) | None => nth_error ret (opos e) end) /\
    (forall i, ~ In i (map opos l) -> nth_error r i = nth_error ret i).
Proof.
  pose proof (fun e => old_idx_of s c bnd (iv_perm _ _ _ _ _ IV c HC) known e) as OI.
  induction l as [|e l IH]; intros k ret Sub ND L; cbn [fill_segs].
  - exists ret. split; [reflexivity|]. split; [exact L|]. split; [intros ? []|reflexivity].
  - destruct (OI e (Sub _ (or_introl eq_refl))) as [O Lo]. cbn [map] in ND. inversion ND as [|? ? NI ND']; subst.
    fold (src e). destruct (src e) as [g|] eqn:SR.
    + rewrite O. replace (start <=? start + opos e) with true by (symmetry; apply Nat.leb_le; lia). replace (start + opos e - start) with (opos e) by lia.
      destruct (upd_nth ret (opos e) (Some g) ltac:(lia)) as (b1 & -> & L1 & N1 & O1). cbn [orerr rbind].
      destruct (IH (S k) b1 (fun x Hx => Sub x (or_intror Hx)) ND' ltac:(lia)) as (r & -> & Lr & R1 & R2).
      exists r. split; [reflexivity|]. split; [exact Lr|]. split.
      * intros f [<-|If]; [rewrite R2 by exact NI; rewrite SR; exact N1|]. rewrite (R1 f If). destruct (src f); [reflexivity|].
        apply O1. intros X. apply NI. rewrite <- X. apply in_map, If.
      * intros i Hi. rewrite R2; [|intros X; apply Hi; right; exact X]. apply O1. intros ->. apply Hi. left. reflexivity.
    + destruct (IH (S k) ret (fun x Hx => Sub x (or_intror Hx)) ND' L) as (r & -> & Lr & R1 & R2).
      exists r. split; [reflexivity|]. split; [exact Lr|]. split.
      * intros f [<-|If]; [rewrite R2 by exact NI; rewrite SR; reflexivity|]. apply R1, If.
      * intros i Hi. apply R2. intros X. apply Hi. right. exact X.
Qed.
Lemma old_range : old_segment_range s (ci_segs c) = Ok (old_segs (firstn n (skipn start L0))).
Proof.
  pose proof bnd as B. pose proof (iv_perm _ _ _ _ _ IV c HC) as PERM. unfold old_segment_range. rewrite (E_slice s c B). cbn [rbind].
  pose proof (opos_perm s c B PERM known) as OP.
  destruct (fill_segs_ok E 0 (repeat None n) (fun e H => H)) as (r & -> & L & R1 & _).
  { eapply Permutation_NoDup; [symmetry; exact OP|apply seq_NoDup]. } { apply repeat_length. }
  cbn [rbind]. f_equal.
  assert (X : r = map (fun e => hd_error (old_of e)) (firstn n (skipn start L0))).
  { apply nth_ext_err. intros i. rewrite nth_error_map'. destruct (Nat.lt_ge_cases i n) as [Li|Li].
    - assert (I : In i (map opos E)) by (rewrite OP; apply in_seq; lia). apply in_map_iff in I. destruct I as (e & Oe & Ie).
      destruct (old_idx_of s c B PERM known e Ie) as [OI _]. pose proof (R1 _ Ie) as R. rewrite Oe in R. rewrite R.
      apply In_nth_error in Ie. destruct Ie as [k Ik]. apply (E_nth s c B) in Ik. pose proof (BEF _ _ Ik) as BF. unfold origin in BF. rewrite OI, Oe in BF.
      rewrite nth_error_firstn, nth_error_skipn by exact Li. rewrite BF. cbn [option_map]. change (old_of (unmark e)) with (old_of e).
      rewrite (old_of_src e (nth_error_In _ _ Ik)). fold (src e). destruct (src e); [reflexivity|]. cbn [hd_error].
      destruct (nth_error (repeat None n) i) as [o|] eqn:Q; [|apply nth_error_None in Q; rewrite repeat_length in Q; lia].
      apply nth_error_In, repeat_spec in Q. subst. reflexivity.
    - replace (nth_error r i) with (@None (option nat)) by (symmetry; apply nth_error_None; lia).
      replace (nth_error (firstn n (skipn start L0)) i) with (@None lentry) by (symmetry; apply nth_error_None; rewrite firstn_length; lia). reflexivity. }
  rewrite X. clear. induction (firstn n (skipn start L0)) as [|e l IH]; [reflexivity|]. unfold flatten, old_segs in *. cbn [map flat_map]. rewrite IH.
  f_equal. unfold old_of. destruct (le_old_seg e); [reflexivity|]. destruct (le_enter e); reflexivity.
Qed.
Lemma new_range : segment_range s (ci_segs c) = Ok (new_segs (firstn n (skipn start (sw_line s)))).
Proof. unfold segment_range. rewrite (E_slice s c bnd). cbn [rbind]. rewrite new_segs_flat. reflexivity. Qed.
Lemma before_in e0 : In e0 (firstn n (skipn start L0)) <-> exists e, In e E /\ e0 = unmark e.
Proof.
  pose proof bnd as B. pose proof (iv_perm _ _ _ _ _ IV c HC) as PERM. pose proof (opos_perm s c B PERM known) as OP. 
  assert (K : forall e, In e E -> nth_error (firstn n (skipn start L0)) (opos e) = Some (unmark e)).
  { intros e Ie. destruct (old_idx_of s c B PERM known e Ie) as [OI Lo]. rewrite nth_error_firstn, nth_error_skipn by exact Lo.
    apply In_nth_error in Ie. destruct Ie as [k Ik]. apply (E_nth s c B) in Ik. pose proof (BEF _ _ Ik) as BF. unfold origin in BF. rewrite OI in BF. exact BF. }
  split.
  - intros I. apply In_nth_error in I. destruct I as [i I]. assert (Li : i < n).
    { assert (i < length (firstn n (skipn start L0))) by (apply nth_error_Some; congruence). rewrite firstn_length in *. lia. }
    assert (J : In i (map opos E)) by (rewrite OP; apply in_seq; lia). apply in_map_iff in J. destruct J as (e & Oe & Ie).
    exists e. split; [exact Ie|]. apply K in Ie. rewrite Oe, I in Ie. congruence.
  - intros (e & Ie & ->). eapply nth_error_In, K, Ie.
Qed.
Lemma old_in i : In i (old_segs (firstn n (skipn start L0))) <-> exists e, In e E /\ In i (old_of e).
Proof.
  unfold old_segs. rewrite in_flat_map. split.
  - intros (e0 & H & I). apply before_in in H. destruct H as (e & H & ->). exists e. split; [exact H|exact I].
  - intros (e & H & I). exists (unmark e). split; [apply before_in; eauto|exact I].
Qed.
End Interval.

Lemma patches cs : forall p, p <= length (sw_line s) -> (forall c, In c cs -> In c (sw_changed s) /\ p <= fst (ci_segs c)) ->
  (forall c, In c (sw_changed s) -> In c cs \/ snd (ci_segs c) <= p) -> StronglySorted (fun c d => snd (ci_segs c) < fst (ci_segs d)) cs ->
  exists l, Forall2 (fun c p => old_segment_range s (ci_segs c) = Ok (fst p) /\ segment_range s (ci_segs c) = Ok (snd p)) cs l /\
    patched l (old_segs (skipn p L0)) (new_segs (skipn p (sw_line s))).
Proof.
  induction cs as [|c cs IH]; intros p Lp SUB ALL SS.
  - exists []. split; [constructor|]. pose proof (gap_same p (length (sw_line s)) Lp (Nat.le_refl _)) as G.
    rewrite !firstn_all2 in G by (rewrite skipn_length; lia). rewrite G; [constructor|]. intros k c Hk I [J1 J2]. destruct (ALL c I) as [[]|Q]. lia.
  - destruct (SUB c (or_introl eq_refl)) as [HC Ps]. pose proof (bnd c HC) as B.
    inversion SS as [|? ? SS' FC]; subst. rewrite Forall_forall in FC.
    destruct (IH (snd (ci_segs c))) as (l & FL & PT).
    + lia.
    + intros d I. split; [apply SUB; right; exact I|]. specialize (FC _ I). lia.
    + intros d I. destruct (ALL d I) as [[<-|J]|J]; [right; lia|left; exact J|right; lia].
    + exact SS'.
    + exists ((old_segs (firstn (snd (ci_segs c) - fst (ci_segs c)) (skipn (fst (ci_segs c)) L0)), new_segs (firstn (snd (ci_segs c) - fst (ci_segs c)) (skipn (fst (ci_segs c)) (sw_line s)))) :: l).
      split; [constructor; [|exact FL]; split; cbn [fst snd]; [exact (old_range c HC)|exact (new_range c HC)]|].
      assert (E1 : forall l : list lentry, skipn p l = firstn (fst (ci_segs c) - p) (skipn p l) ++ firstn (snd (ci_segs c) - fst (ci_segs c)) (skipn (fst (ci_segs c)) l) ++ skipn (snd (ci_segs c)) l).
      { intros q. rewrite <- (skipn_split q (fst (ci_segs c)) (snd (ci_segs c))) by lia. apply skipn_split, Ps. }
      rewrite (f_equal old_segs (E1 L0)), (f_equal new_segs (E1 (sw_line s))), !old_segs_app, !new_segs_app. rewrite <- (gap_same p (fst (ci_segs c))); [constructor; exact PT|lia|lia|].
      intros k d Hk I [J1 J2]. destruct (ALL d I) as [[<-|J]|J]; [lia|specialize (FC _ J); lia|lia].
Qed.
End Line.
