(** Proofs about the output events of the ranges of a sweep. *)
From Coq Require Import List Bool ZArith Arith Lia Permutation Sorted.
From Verif Require Import F64 F64Arith TreeVecModel GeomModel SegmentsModel SegmentsSpec SegmentsProofs CurveOrderModel CurveOrderProofs
  SweepModel SweepSpec SweepProofs2 SweepProofs3 SweepProofs6 SweepProofs8 SweepProofs10 RangeModel RangeSpec RangeProofs RangeProofs2 RangeProofs3 RangeProofs4 RangeProofs5.
Import ListNotations.

Section Report.
Variable a : arena.
Variable eps : f64.
Variable cmp : nat -> nat -> curve_order.
Variables lower upper : segment -> f64 -> f64 -> f64.
Variable at_y : segment -> f64 -> f64.
Variable sort_by : forall A : Type, (A -> A -> comparison) -> list A -> list A.
Hypothesis SORT : forall A, sort_spec (sort_by A).
Hypothesis SP : sweepable a.
Hypothesis PN : positions_numbers a eps lower upper at_y.
Variable tr : Prop.
Variable s : sweeper.
Hypothesis P : POST a cmp tr (sw_y s) s.
Hypothesis IV : intervals_ok a eps lower upper s.
Hypothesis HOR : forall i, In i (sw_horiz s) -> registered a i /\ slanted a i = false /\ key (start_y a i) = key (sw_y s).
Hypothesis BOX : boxes_ordered a eps lower upper (sw_y s) (sw_line s).
Variable c : cinterval.
Hypothesis HC : In c (sw_changed s).
Notation start := (fst (ci_segs c)).
Notation end_ := (snd (ci_segs c)).
Notation E := (range_entries s c).
Notation y := (sw_y s).

Lemma BND : start <= end_ <= length (sw_line s).
Proof. apply (iv_bounds _ _ _ _ _ IV), HC. Qed.
Lemma Elen : length E = end_ - start.
Proof. pose proof BND. unfold range_entries. rewrite firstn_length, skipn_length. lia. Qed.
Lemma Enth k e : nth_error E k = Some e -> nth_error (sw_line s) (start + k) = Some e /\ in_interval (start + k) c.
Proof.
  intros H. assert (L : k < length E) by (apply nth_error_Some; congruence). split; [eapply E_nth; [apply BND|exact H]|].
  rewrite Elen in L. unfold in_interval. lia.
Qed.
Lemma Enth' k e : nth_error (sw_line s) k = Some e -> in_interval k c -> nth_error E (k - start) = Some e.
Proof.
  intros H [L1 L2]. unfold range_entries. rewrite nth_error_firstn, nth_error_skipn by lia. replace (start + (k - start)) with k by lia. exact H.
Qed.
Lemma Ein e : In e E -> In e (sw_line s) /\ post_ok a y e.
Proof.
  intros H. apply In_nth_error in H. destruct H as [k H]. apply Enth in H. destruct H as [H _]. apply nth_error_In in H. split; [exact H|].
  pose proof (po_ok _ _ _ _ _ P) as F. rewrite Forall_forall in F. apply F, H.
Qed.
Lemma KNOWN e : In e E -> le_old_idx e <> None.
Proof.
  intros H. apply In_nth_error in H. destruct H as [k H]. apply Enth in H. destruct H as [H I]. eapply (iv_known _ _ _ _ _ IV BOX); eassumption.
Qed.
Lemma live_num i : live a y i -> i < arena_len a /\ nan (start_y a i) = false /\ nan (end_y a i) = false /\ nan (start_x a i) = false /\ nan (end_x a i) = false.
Proof.
  intros (R & _). pose proof (registered_lt _ SP _ R) as L. destruct (sp_finite _ SP _ L) as [[F1 F2] [F3 F4]]. split; [exact L|].
  repeat split; apply fin_nonnan; assumption.
Qed.
Lemma Ny : nan y = false.
Proof. apply (po_ahead _ _ _ _ _ P). Qed.
Lemma live_placed i : live a y i -> placed a eps lower upper at_y y i.
Proof.
  intros L. pose proof Ny. destruct (live_num i L) as (Lt & N1 & N2 & _). destruct L as (R & S & K). split; [exact Lt|]. fk. zb.
  split; [lia|]. split; [lia|]. apply PN; [assumption|]. split; [exact R|]. auto.
Qed.
Lemma le_old_live e : In e E -> live a y (le_old e).
Proof. intros H. destruct (Ein e H) as [_ [L M]]. unfold le_old. destruct (le_old_seg e); [apply M|exact L]. Qed.
Lemma ENT : Forall (entry_ok a eps lower upper at_y y) E.
Proof.
  apply Forall_forall. intros e He. destruct (Ein e He) as [_ [L _]]. pose proof (le_old_live e He) as L'. split; [apply live_placed, L|]. split; [apply live_placed, L'|].
  destruct (live_num _ L) as (_ & _ & _ & N & _). destruct (live_num _ L') as (_ & _ & _ & _ & N'). split; assumption.
Qed.
Lemma HIN h : In h (range_horizontals s c) -> In h (sw_horiz s).
Proof. unfold range_horizontals. destruct (ci_hor c); [|intros []]. intros H. apply firstn_In in H || idtac. rewrite <- (firstn_skipn (fst p) (sw_horiz s)). apply in_or_app. right.
  rewrite <- (firstn_skipn (snd p - fst p) (skipn (fst p) (sw_horiz s))). apply in_or_app. left. exact H. Qed.
Lemma HSN h : In h (range_horizontals s c) -> h < arena_len a /\ nan (start_x a h) = false /\ nan (end_x a h) = false.
Proof.
  intros H. apply HIN, HOR in H. destruct H as (R & _). pose proof (registered_lt _ SP _ R) as L. destruct (sp_finite _ SP _ L) as [[F1 F2] [F3 F4]].
  split; [exact L|]. split; apply fin_nonnan; assumption.
Qed.

Lemma entries_in X0 X1 v l : forall k, In v (entries_events a c X0 X1 k l) <-> exists j e, nth_error l j = Some e /\ In v (entry_events a c X0 X1 (k + j) e).
Proof.
  induction l as [|e l IH]; intros k; cbn [entries_events].
  - split; [intros []|intros ([|] & e & H & _); discriminate].
  - rewrite in_app_iff, IH. split.
    + intros [H|(j & f & H1 & H2)]; [exists 0, e; rewrite Nat.add_0_r; auto|]. exists (S j), f. rewrite <- Nat.add_succ_comm. auto.
    + intros ([|j] & f & H1 & H2); cbn [nth_error] in H1; [left; injection H1 as <-; rewrite Nat.add_0_r in H2; exact H2|right]. exists j, f. rewrite Nat.add_succ_comm. auto.
Qed.
Lemma entries_segs X0 X1 l : forall k, Permutation (map ev_seg (entries_events a c X0 X1 k l)) (members l).
Proof.
  induction l as [|e l IH]; intros k; [constructor|]. cbn [entries_events]. rewrite map_app, members_cons. apply Permutation_app; [|apply IH].
  unfold entry_events, le_old. destruct (lone c), (le_old_seg e); cbn; try reflexivity; constructor.
Qed.

(** What an event of an entry looks like. *)
Lemma entry_event X0 X1 k e v : nth_error E k = Some e -> In v (entry_events a c X0 X1 (start + k) e) ->
  (forall i, start <= i < end_ -> nan (X0 i) = false /\ nan (X1 i) = false) -> (lone c = true -> X0 = X1) ->
  ev_numbers v /\ live a y (ev_seg v) /\
  ev_above v = flt (start_y a (ev_seg v)) y /\ ev_below v = flt y (end_y a (ev_seg v)) /\
  (ev_above v = true -> In (ev_seg v) (old_of e) /\ ev_seg v = le_old e /\ ev_old v = Some (origin (start + k) e) /\
      ((lone c = false /\ ev_x0 v = X0 (start + opos c e)) \/ (lone c = true /\ ev_x0 v = X1 (start + k)))) /\
  (ev_below v = true -> ev_seg v = le_seg e /\ ev_sweep v = Some (start + k) /\ ev_x1 v = X1 (start + k)) /\
  (lone c = false -> ev_above v = false -> ev_x0 v = start_x a (ev_seg v)) /\
  (lone c = false -> ev_below v = false -> ev_x1 v = end_x a (ev_seg v)) /\
  (lone c = true -> ev_x0 v = X1 (start + k) /\ ev_x1 v = X1 (start + k)).
Proof.
  intros He Hv HX HL. pose proof (nth_error_In _ _ He) as Ie. destruct (Ein e Ie) as [_ [L M]]. pose proof (le_old_live e Ie) as Lo. pose proof Ny as NY.
  assert (Hk : start <= start + k < end_). { pose proof Elen. assert (k < length E) by (apply nth_error_Some; congruence). lia. }
  destruct (HX _ Hk) as [_ NX1].
  assert (OR : le_old_idx e = Some (origin (start + k) e)). { unfold origin. pose proof (KNOWN e Ie). destruct (le_old_idx e); congruence. }
  assert (OP : start <= start + opos c e < end_).
  { destruct (old_idx_of s c) with (e := e) as [_ Q]; [apply BND|apply (iv_perm _ _ _ _ _ IV), HC|apply KNOWN|exact Ie|]. lia. }
  destruct (HX _ OP) as [NX0 _].
  destruct (live_num _ L) as (_ & N1 & N2 & N3 & N4). destruct (live_num _ Lo) as (_ & N5 & N6 & N7 & N8).
  assert (SK : (key (start_y a (le_seg e)) < key (end_y a (le_seg e)))%Z) by (apply (slanted_key _ SP); apply L).
  unfold entry_events, le_old in *. destruct (le_old_seg e) as [o|] eqn:O.
  - destruct M as (ME & MX & K1 & LO & K2 & K3 & _). destruct (lone c) eqn:LC.
    + assert (XX : X0 = X1) by auto. destruct Hv as [<-|[<-|[]]]; unfold ev_numbers; cbn [ev_x0 ev_x1 ev_above ev_below ev_seg ev_sweep ev_old].
      * fk. split; [auto|]. split; [exact LO|]. split; [symmetry; apply Z.ltb_lt; lia|]. split; [symmetry; apply Z.ltb_ge; lia|].
        split; [intros _; unfold old_of; rewrite O; cbn; auto 10|]. repeat split; try discriminate.
      * fk. split; [auto|]. split; [exact L|]. split; [symmetry; apply Z.ltb_ge; lia|]. split; [symmetry; apply Z.ltb_lt; lia|].
        repeat split; try discriminate.
    + unfold from_above in Hv. rewrite O, MX in Hv. destruct Hv as [<-|[<-|[]]]; unfold ev_numbers; cbn [ev_x0 ev_x1 ev_above ev_below ev_seg ev_sweep ev_old negb].
      * fk. split; [auto|]. split; [exact LO|]. split; [symmetry; apply Z.ltb_lt; lia|]. split; [symmetry; apply Z.ltb_ge; lia|].
        split; [intros _; unfold old_of; rewrite O; cbn; auto 10|]. repeat split; try discriminate.
      * fk. split; [auto|]. split; [exact L|]. split; [symmetry; apply Z.ltb_ge; lia|]. split; [symmetry; apply Z.ltb_lt; lia|].
        repeat split; try discriminate.
  - destruct M as [MX ME]. pose proof L as (_ & _ & LK).
    assert (AB : negb (le_enter e) = (key (start_y a (le_seg e)) <? key y)%Z).
    { destruct (le_enter e); cbn; symmetry; [apply Z.ltb_ge; rewrite (proj1 ME eq_refl); lia|]. apply Z.ltb_lt. destruct (Z.eq_dec (key (start_y a (le_seg e))) (key y)) as [Q|Q]; [apply ME in Q; discriminate|lia]. }
    assert (BE : negb (le_exit e) = (key y <? key (end_y a (le_seg e)))%Z).
    { destruct (le_exit e); cbn; symmetry; [apply Z.ltb_ge; rewrite (proj1 MX eq_refl); lia|]. apply Z.ltb_lt. destruct (Z.eq_dec (key (end_y a (le_seg e))) (key y)) as [Q|Q]; [apply MX in Q; discriminate|lia]. }
    destruct (lone c) eqn:LC.
    + destruct Hv as [<-|[]]; unfold ev_numbers; cbn [ev_x0 ev_x1 ev_above ev_below ev_seg ev_sweep ev_old].
      fk. split; [auto|]. split; [exact L|]. split; [exact AB|]. split; [exact BE|]. split.
      * intros Q. unfold old_of. rewrite O. destruct (le_enter e); [discriminate Q|]. cbn. auto 10.
      * repeat split; try discriminate; auto.
    + unfold from_above in Hv. rewrite O in Hv. destruct Hv as [<-|[]]; unfold ev_numbers; cbn [ev_x0 ev_x1 ev_above ev_below ev_seg ev_sweep ev_old].
      fk. split; [split; [destruct (negb (le_enter e))|destruct (le_exit e)]; assumption|]. split; [exact L|]. split; [exact AB|]. split; [exact BE|]. split.
      * intros Q. unfold old_of. rewrite O, Q. destruct (le_enter e); [discriminate Q|]. cbn. auto 10.
      * split; [intros Q; destruct (le_exit e); [discriminate Q|auto]|]. split; [intros _ ->; reflexivity|]. split; [intros _ Q; destruct (le_exit e); [reflexivity|discriminate Q]|discriminate].
Qed.

Lemma hor_report h : In h (range_horizontals s c) -> ev_numbers (hor_event a h) /\ flt (start_y a h) y = false /\ flt y (end_y a h) = false /\ lone c = false.
Proof.
  intros H. destruct (HSN h H) as (_ & N1 & N2). pose proof (HIN h H) as HI. apply HOR in HI. destruct HI as (R & S & K). pose proof Ny as NY.
  pose proof (registered_lt _ SP _ R) as L. destruct (sp_finite _ SP _ L) as [[F1 F2] [F3 F4]]. apply fin_nonnan in F2, F4. fold (start_y a h) in F2. fold (end_y a h) in F4.
  destruct (sp_down _ SP _ L) as [D _]. unfold slanted in S. split; [split; assumption|]. fk. zb. split; [apply Z.ltb_ge; lia|]. split; [apply Z.ltb_ge; lia|].
  unfold lone, range_horizontals in *. destruct (ci_hor c); [apply andb_false_r|destruct H].
Qed.

Theorem report buf : exists evs buf', range_events a eps lower upper at_y sort_by s buf c = Ok (evs, buf') /\ range_report a s c evs /\
  old_positions_ordered evs /\ new_positions_ordered evs /\
  (positions_sound a eps lower upper at_y -> old_weakly_ordered a eps lower upper s c -> old_positions_close a eps lower upper s evs) /\
  (positions_sound a eps lower upper at_y -> new_weakly_ordered a eps lower upper s c -> new_positions_close a eps lower upper s evs).
Proof.
  assert (PERM : Permutation (origins start E) (seq start (end_ - start))) by (apply (iv_perm _ _ _ _ _ IV), HC).
  assert (HB : forall q, ci_hor c = Some q -> fst q <= snd q <= length (sw_horiz s)).
  { intros q Hq. pose proof (iv_hbound _ _ _ _ _ IV c q HC Hq). lia. }
  assert (RD : exists evs buf' X0 X1, range_events a eps lower upper at_y sort_by s buf c = Ok (evs, buf') /\
     Permutation evs (entries_events a c X0 X1 start E ++ map (hor_event a) (range_horizontals s c)) /\ desc a eps lower upper at_y s c X0 X1 /\ (lone c = true -> X0 = X1) /\ ev_sorted evs).
  { destruct (lone c) eqn:L.
    - destruct (lone_desc a eps lower upper at_y sort_by s c BND PERM KNOWN ENT HB buf L) as (evs & X & A & -> & B & D). eexists; exists buf, X, X. split; [exact A|]. auto.
    - destruct (full_desc a eps lower upper at_y sort_by SORT s c BND PERM KNOWN ENT HB HSN buf L) as (evs & X0 & X1 & A & B & C & D). exists evs, E, X0, X1. split; [exact A|]. split; [exact B|]. split; [exact C|]. split; [discriminate|exact D]. }
  destruct RD as (evs & buf' & X0 & X1 & R1 & R2 & (D1 & D2 & D3 & D4 & D5) & R4 & R3). exists evs, buf'. split; [exact R1|].
  assert (CASES : forall v, In v evs -> (exists h, In h (range_horizontals s c) /\ v = hor_event a h) \/ (exists k e, nth_error E k = Some e /\ In v (entry_events a c X0 X1 (start + k) e))).
  { intros v Hv. rewrite R2 in Hv. apply in_app_iff in Hv. destruct Hv as [Hv|Hv]; [right; apply entries_in, Hv|]. apply in_map_iff in Hv. destruct Hv as (h & <- & Hh). left. eauto. }
  assert (OLDE : forall v, In v evs -> ev_above v = true -> exists k e, nth_error E k = Some e /\ In v (entry_events a c X0 X1 (start + k) e)).
  { intros v Hv Q. destruct (CASES v Hv) as [(h & Hh & ->)|K]; [discriminate Q|exact K]. }
  assert (NEWE : forall v, In v evs -> ev_below v = true -> exists k e, nth_error E k = Some e /\ In v (entry_events a c X0 X1 (start + k) e)).
  { intros v Hv Q. destruct (CASES v Hv) as [(h & Hh & ->)|K]; [discriminate Q|exact K]. }
  assert (OI : forall e, In e E -> le_old_idx e = Some (start + opos c e) /\ opos c e < end_ - start) by (intros e He; apply (old_idx_of s c BND PERM KNOWN e He)).
  assert (ORI : forall k e, In e E -> origin k e = start + opos c e) by (intros k e He; unfold origin; rewrite (proj1 (OI e He)); reflexivity).
  assert (IP : positions_sound a eps lower upper at_y -> in_place a eps lower upper at_y s c).
  { intros PS e He. destruct (Ein e He) as [_ [L _]]. split; (apply (ps_band _ _ _ _ _ PS); [exact Ny|]); [exact L|apply le_old_live, He]. }
  split; [|split; [|split]].
  - split.
    + apply Forall_forall. intros v Hv. destruct (CASES v Hv) as [(h & Hh & ->)|(k & e & H1 & H2)]; [apply hor_report, Hh|]. apply (entry_event _ _ _ _ _ H1 H2 D1 R4).
    + exact R3.
    + rewrite R2, map_app, map_map. cbn [hor_event ev_seg]. rewrite map_id. apply Permutation_app_tail, entries_segs.
    + intros v Hv. destruct (CASES v Hv) as [(h & Hh & ->)|(k & e & H1 & H2)]; [symmetry; apply hor_report, Hh|]. apply (entry_event _ _ _ _ _ H1 H2 D1 R4).
    + intros v Hv. destruct (CASES v Hv) as [(h & Hh & ->)|(k & e & H1 & H2)]; [symmetry; apply hor_report, Hh|]. apply (entry_event _ _ _ _ _ H1 H2 D1 R4).
    + intros v Hv Q. destruct (OLDE v Hv Q) as (k & e & H1 & H2). exists (start + k), e. destruct (Enth _ _ H1) as [N I]. split; [exact I|]. split; [exact N|].
      destruct (entry_event _ _ _ _ _ H1 H2 D1 R4) as (_ & _ & _ & _ & W & _). specialize (W Q). tauto.
    + intros v Hv Q. destruct (NEWE v Hv Q) as (k & e & H1 & H2). exists (start + k), e. destruct (Enth _ _ H1) as [N I]. split; [exact I|]. split; [exact N|].
      destruct (entry_event _ _ _ _ _ H1 H2 D1 R4) as (_ & _ & _ & _ & _ & W & _). specialize (W Q). tauto.
    + intros v Hv LC Q. destruct (CASES v Hv) as [(h & Hh & ->)|(k & e & H1 & H2)]; [reflexivity|]. apply (entry_event _ _ _ _ _ H1 H2 D1 R4); assumption.
    + intros v Hv LC Q. destruct (CASES v Hv) as [(h & Hh & ->)|(k & e & H1 & H2)]; [reflexivity|]. apply (entry_event _ _ _ _ _ H1 H2 D1 R4); assumption.
    + assert (LN : forall v, In v evs -> lone c = true -> ev_x0 v = X1 start /\ ev_x1 v = X1 start).
      { intros v Hv LC. destruct (CASES v Hv) as [(h & Hh & ->)|(k & e & H1 & H2)]; [destruct (hor_report h Hh) as (_ & _ & _ & Q); congruence|].
        destruct (entry_event _ _ _ _ _ H1 H2 D1 R4) as (_ & _ & _ & _ & _ & _ & _ & _ & W). replace start with (start + k) at 1 2; [apply W, LC|].
        unfold lone in LC. apply andb_true_iff in LC. destruct LC as [LC _]. apply Nat.eqb_eq in LC. pose proof Elen. assert (k < length E) by (apply nth_error_Some; congruence). lia. }
      intros v w Hv Hw LC. destruct (LN v Hv LC) as [-> _]. destruct (LN w Hw LC) as [_ ->]. reflexivity.
  - intros v w i j Hv Hw Qv Qw Oi Oj Lt. destruct (OLDE v Hv Qv) as (k & e & H1 & H2). destruct (OLDE w Hw Qw) as (k' & f & H3 & H4).
    destruct (entry_event _ _ _ _ _ H1 H2 D1 R4) as (_ & _ & _ & _ & W1 & _). destruct (entry_event _ _ _ _ _ H3 H4 D1 R4) as (_ & _ & _ & _ & W2 & _).
    specialize (W1 Qv). specialize (W2 Qw). destruct W1 as (_ & _ & O1 & W1), W2 as (_ & _ & O2 & W2).
    pose proof (nth_error_In _ _ H1) as Ie. pose proof (nth_error_In _ _ H3) as If. rewrite ORI in O1, O2 by assumption.
    pose proof (D2 e f Ie If) as D2a. assert (LT : opos c e < opos c f) by (rewrite Oi in O1; rewrite Oj in O2; injection O1; injection O2; lia).
    destruct W1 as [[LC W1]|[LC W1]], W2 as [[LC' W2]|[LC' W2]]; try congruence; rewrite W1, W2; [apply D2a, LT|].
    exfalso. unfold lone in LC. apply andb_true_iff in LC. destruct LC as [LC _]. apply Nat.eqb_eq in LC. destruct (OI e Ie), (OI f If). lia.
  - intros v w i j Hv Hw Qv Qw Oi Oj Lt. destruct (NEWE v Hv Qv) as (k & e & H1 & H2). destruct (NEWE w Hw Qw) as (k' & f & H3 & H4).
    destruct (entry_event _ _ _ _ _ H1 H2 D1 R4) as (_ & _ & _ & _ & _ & W1 & _). destruct (entry_event _ _ _ _ _ H3 H4 D1 R4) as (_ & _ & _ & _ & _ & W2 & _).
    specialize (W1 Qv). specialize (W2 Qw). destruct W1 as (_ & O1 & ->), W2 as (_ & O2 & ->). apply (D3 k k' e f H1 H3). rewrite Oi in O1. rewrite Oj in O2. injection O1. injection O2. lia.
  - split.
    + intros PS OW.
      assert (OB : old_bands a eps lower upper s c).
      { intros e f He Hf Lt. pose proof He as He'. pose proof Hf as Hf'. apply In_nth_error in He', Hf'. destruct He' as [i He'], Hf' as [j Hf'].
        destruct (Enth _ _ He') as [A1 A2], (Enth _ _ Hf') as [B1 B2]. apply (OW _ _ _ _ A2 B2 A1 B1). rewrite !ORI by assumption. lia. }
      assert (ME : meeting a eps lower upper at_y s c).
      { intros e o He O. destruct (Ein e He) as [_ [L M]]. rewrite O in M. destruct M as (_ & _ & K1 & LO & _ & K2 & SPV). pose proof Ny.
        destruct (live_num _ L) as (_ & N1 & _). destruct (live_num _ LO) as (_ & _ & N2 & _).
        apply (ps_meet _ _ _ _ _ PS); try assumption; fk; zb; assumption. }
      specialize (D4 (IP PS) OB ME).
      intros v Hv Qv. destruct (OLDE v Hv Qv) as (k & e & H1 & H2). destruct (entry_event _ _ _ _ _ H1 H2 D1 R4) as (_ & _ & _ & _ & W1 & _).
      specialize (W1 Qv). destruct W1 as (_ & -> & _ & W1). pose proof (nth_error_In _ _ H1) as Ie. pose proof (D4 e Ie) as B.
      destruct W1 as [[_ ->]|[LC ->]]; [exact B|]. rewrite <- (R4 LC). replace (start + k) with (start + opos c e); [exact B|].
      unfold lone in LC. apply andb_true_iff in LC. destruct LC as [LC _]. apply Nat.eqb_eq in LC. destruct (OI e Ie). pose proof Elen. assert (k < length E) by (apply nth_error_Some; congruence). lia.
    + intros PS NW.
      assert (NB : new_bands a eps lower upper s c).
      { intros i j u w Lt Hu Hw. rewrite nth_error_map' in Hu, Hw. destruct (nth_error E i) as [e|] eqn:A; [|discriminate]. destruct (nth_error E j) as [f|] eqn:B; [|discriminate].
        cbn in Hu, Hw. injection Hu as <-. injection Hw as <-. destruct (Enth _ _ A) as [A1 A2], (Enth _ _ B) as [B1 B2]. apply (NW _ _ _ _ A2 B2 A1 B1). lia. }
      specialize (D5 (IP PS) NB).
      intros v Hv Qv. destruct (NEWE v Hv Qv) as (k & e & H1 & H2). destruct (entry_event _ _ _ _ _ H1 H2 D1 R4) as (_ & _ & _ & _ & _ & W1 & _).
      specialize (W1 Qv). destruct W1 as (-> & _ & ->). apply (D5 k e H1).
Qed.
End Report.
