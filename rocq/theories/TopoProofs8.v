(** Proofs about building a topology: invariants of the whole run. *)
From Coq Require Import List Bool ZArith Arith Lia Permutation Sorted.
From Verif Require Import F64 F64Arith TreeVecModel GeomModel SegmentsModel SegmentsSpec SegmentsProofs CurveOrderModel CurveOrderProofs SweepModel SweepSpec
  SweepProofs2 SweepProofs10 RangeModel RangeSpec RangeProofs3 RangeProofs4 RangeProofs5 PropsSweep PropsRange TopoModel TopoSpec TopoProofs TopoProofs2 TopoProofs3 TopoProofs4 TopoProofs5 TopoProofs6 TopoProofs7.
Import ListNotations.

Lemma sorted_nth {A} (R : A -> A -> Prop) l : StronglySorted R l -> forall i j x y, i < j -> nth_error l i = Some x -> nth_error l j = Some y -> R x y.
Proof.
  induction 1 as [|u l S IH F]; intros i j x y L Hi Hj; [destruct i; discriminate|]. destruct j as [|j]; [lia|]. destruct i as [|i]; cbn in Hi, Hj.
  - injection Hi as ->. rewrite Forall_forall in F. apply F. eapply nth_error_In, Hj.
  - eapply IH; [|exact Hi|exact Hj]. lia.
Qed.

Section Build.
Context {W T : Type}.
Variable ops : wops W T.
Variable a : arena.
Variable tag : list T.
Variable eps : f64.
Variables lower upper : segment -> f64 -> f64 -> f64.
Variable at_y : segment -> f64 -> f64.
Variable sort_by : forall A : Type, (A -> A -> comparison) -> list A -> list A.
Hypothesis SP : sweepable a.
Hypothesis SORT : forall A, sort_spec (sort_by A).
Hypothesis TAG : length tag = arena_len a.
Hypothesis ORI : length (orientation a) = arena_len a.
Implicit Types t : topo W.
Notation TI := (TI a).
Notation none := (fun _ : nat => @None nat).
Notation tline := (tline a eps lower upper at_y sort_by).
Notation st c := (fst (ci_segs c)).
Notation en c := (snd (ci_segs c)).

Definition west_of (s : sweeper) (c : cinterval) (O : nat -> option nat) : option nat :=
  match st c with 0 => None | S i => match line_segment s i with Some g => O g | None => None end end.
Definition wind_of t (o : option nat) : W :=
  match o with None => w_zero ops | Some o => match nth_error (t_wind t) o with Some w => wn_ccw w | None => w_zero ops end end.

(** What processing range [c] does. *)
Record rstep (s : sweeper) (before : list lentry) (c : cinterval) (evs : list oevent) (l : list view) t R O t' R' O' : Prop := {
  rs_line : tline s before;
  rs_in : In c (sw_changed s);
  rs_rep : range_report a s c evs;
  rs_oldpos : old_positions_ordered evs;
  rs_newpos : new_positions_ordered evs;
  rs_views : views_of evs l;
  rs_ti : TI t R none O none;
  rs_open : forall i, O i <> None <-> In i (mixed (sw_line s) before (st c));
  rs_R : R' = R ++ map vring (vrecs (length (t_wind t)) O [] l);
  rs_O : O' = reopen O evs l (vrecs (length (t_wind t)) O [] l);
  rs_ti' : TI t' R' none O' none;
  rs_open' : forall i, O' i <> None <-> In i (mixed (sw_line s) before (en c));
  rs_west : forall e i, st c = S i -> nth_error (sw_line s) i = Some e -> exists o, west_of s c O = Some o /\ O (le_seg e) = Some o;
  rs_grown : exists t1, grown t t1 (vwinds ops a tag (wind_of t (west_of s c O)) l) (vwests (west_of s c O) (length (t_wind t)) l) (vorig l) (vpos a l) (map (fun v => mkPoint (sw_y s) (vw_x v)) l) /\
     TI t1 R' none O' none /\ scan_links s c (vlast None (length (t_wind t)) l) t1 = Ok t' }.

(** The end of a range changes only [scan_east] and [scan_after]. *)
Definition quiet t t' : Prop := exists e f, t' = with_after (with_east t e) f /\ length e = length (t_east t).
Lemma quiet_ti t t' R hz old nw : quiet t t' -> TI t R hz old nw -> TI t' R hz old nw.
Proof. intros (e & f & -> & L) [I RI]. split; [destruct I; constructor; try assumption; cbn; congruence|]. destruct RI. constructor; assumption. Qed.

Lemma front_ok t R O i : TI t R none O none -> i < arena_len a -> open_front t i = Ok (O i).
Proof.
  intros [I _] L. unfold open_front. rewrite (li_open _ _ _ _ _ I i L). cbn [orerr rbind ol app]. rewrite app_nil_r. destruct (O i); reflexivity.
Qed.
Lemma mem_lt s before k e : tline s before -> nth_error (sw_line s) k = Some e -> le_seg e < arena_len a.
Proof.
  intros TL He. assert (X : In (le_seg e) (members (sw_line s))) by (eapply mem_in; [exact He|left; reflexivity]).
  apply (tl_all _ _ _ _ _ _ _ _ TL) in X. apply (registered_lt _ SP), X.
Qed.
(** The entries beside an interval are unchanged. *)
Lemma left_gap s before c i : tline s before -> In c (sw_changed s) -> st c = S i -> gap s i.
Proof.
  intros TL Hc E d Hd X. pose proof (tl_apart _ _ _ _ _ _ _ _ TL) as S. pose proof (tl_bounds _ _ _ _ _ _ _ _ TL c Hc). unfold in_interval in X. revert S Hc Hd.
  generalize (sw_changed s). intros L S Hc Hd. induction S as [|x L S IH F]; [destruct Hc|]. rewrite Forall_forall in F. destruct Hc as [->|Hc], Hd as [->|Hd].
  - lia. - specialize (F d Hd). lia. - specialize (F c Hc). lia. - apply IH; assumption.
Qed.
Lemma right_gap s before c : tline s before -> In c (sw_changed s) -> gap s (en c).
Proof.
  intros TL Hc d Hd X. pose proof (tl_apart _ _ _ _ _ _ _ _ TL) as S. pose proof (tl_bounds _ _ _ _ _ _ _ _ TL d Hd). pose proof (tl_bounds _ _ _ _ _ _ _ _ TL c Hc). unfold in_interval in X. revert S Hc Hd.
  generalize (sw_changed s). intros L S Hc Hd. induction S as [|x L S IH F]; [destruct Hc|]. rewrite Forall_forall in F. destruct Hc as [->|Hc], Hd as [->|Hd].
  - lia. - specialize (F d Hd). lia. - specialize (F c Hc). lia. - apply IH; assumption.
Qed.
Lemma left_in_mixed s before pos i e : tline s before -> i < pos -> nth_error (sw_line s) i = Some e -> gap s i -> In (le_seg e) (mixed (sw_line s) before pos).
Proof.
  intros TL L He G. apply in_or_app. left. rewrite new_segs_flat. apply in_flat_map. exists e. split; [apply in_firstn; eauto|].
  destruct (tl_gap _ _ _ _ _ _ _ _ TL _ _ He G) as (_ & E1 & E2 & E3). unfold newl, really_exits. rewrite E1, E3. left. reflexivity.
Qed.
Lemma right_in_mixed s before pos i e : tline s before -> pos <= i -> nth_error (sw_line s) i = Some e -> gap s i -> In (le_seg e) (mixed (sw_line s) before pos).
Proof.
  intros TL L He G. apply in_or_app. right. destruct (tl_gap _ _ _ _ _ _ _ _ TL _ _ He G) as (Hb & E1 & E2 & E3). apply in_flat_map. exists (unmark e). split; [apply in_skipn; eauto|].
  rewrite old_unmark. unfold old_of. rewrite E1, E2. left. reflexivity.
Qed.

Lemma scan_links_ok s before c t R O ld : tline s before -> In c (sw_changed s) -> TI t R none O none -> (forall i, O i <> None <-> In i (mixed (sw_line s) before (en c))) ->
  (forall o, ld = Some o -> o < length (t_wind t)) -> exists t', scan_links s c ld t = Ok t' /\ quiet t t'.
Proof.
  intros TL Hc I HO LD. unfold scan_links. assert (Q0 : quiet t t) by (exists (t_east t), (t_after t); split; [destruct t; reflexivity|reflexivity]). destruct ld as [o|].
  - destruct (nth_error (sw_line s) (en c)) as [e|] eqn:E; [|eauto]. destruct (le_changed e); [eauto|]. rewrite (front_ok t R O) by (try exact I; eapply mem_lt; eassumption). cbn [rbind].
    assert (L : o < length (t_east t)) by (rewrite (li_east _ _ _ _ _ (proj1 I)); apply LD; reflexivity). destruct (upd_in_range (t_east t) o (O (le_seg e)) L) as [v U].
    unfold set_east. rewrite U. cbn [orerr rbind]. eexists. split; [reflexivity|]. exists v, (t_after t). split; [destruct t; reflexivity|]. destruct (upd_spec _ _ _ _ U) as (_ & X & _). exact X.
  - assert (NB : forall i, (forall e, nth_error (sw_line s) i = Some e -> In (le_seg e) (mixed (sw_line s) before (en c))) ->
      exists r, match line_segment s i with None => Ok None | Some i0 => do! f := open_front t i0 in do! o := orerr EOpen f in Ok (Some o) end = Ok r).
    { intros i Hi. unfold line_segment. destruct (nth_error (sw_line s) i) as [e|] eqn:E; cbn [option_map]; [|eauto]. rewrite (front_ok t R O) by (try exact I; eapply mem_lt; eassumption). cbn [rbind].
      specialize (Hi e eq_refl). apply HO in Hi. destruct (O (le_seg e)) as [o|]; [|contradiction]. cbn. eauto. }
    destruct (NB (en c)) as [r2 E2]. { intros e He. eapply right_in_mixed; [exact TL|apply le_n|exact He|eapply right_gap; eassumption]. }
    assert (X : exists r1, match (match st c with 0 => None | S i => line_segment s i end) with None => Ok None | Some i0 => do! f := open_front t i0 in do! o := orerr EOpen f in Ok (Some o) end = Ok r1).
    { destruct (st c) as [|i] eqn:E; [eauto|]. apply NB. intros e He. pose proof (tl_bounds _ _ _ _ _ _ _ _ TL c Hc). eapply left_in_mixed; [exact TL| |exact He|eapply left_gap; eassumption]. lia. }
    destruct X as [r1 E1]. rewrite E1. cbn [rbind]. rewrite E2. cbn [rbind]. destruct r1 as [o|], r2 as [o'|]; eexists; (split; [reflexivity|]); try exact Q0;
      exists (t_east t); eexists; (split; [destruct t; reflexivity|reflexivity]).
Qed.

Lemma lastw_lt west k m o : lastw west k m = Some o -> west = Some o \/ o < k + m.
Proof. revert west k. induction m as [|m IH]; intros west k H; cbn in H; [auto|]. apply IH in H. destruct H as [H|H]; [injection H as <-|]; right; lia. Qed.
Lemma vlast_lt l : forall ld N o, vlast ld N l = Some o -> ld = Some o \/ o < N + length (vorig l).
Proof.
  induction l as [|v l IH]; intros ld N o H; cbn in H; [auto|]. apply IH in H. unfold vorig. cbn. fold (vorig l). rewrite !app_length, map_length. destruct H as [H|H]; [|right; lia].
  apply lastw_lt in H. destruct H as [H|H]; [auto|right; lia].
Qed.
Lemma vwinds_length w l : length (vwinds ops a tag w l) = length (vorig l).
Proof. revert w. induction l as [|v l IH]; intros w; [reflexivity|]. unfold vorig. cbn. fold (vorig l). rewrite !app_length, IH, !wlist_length. unfold dgains, ogains. rewrite !map_length. reflexivity. Qed.

Lemma perm_length_range s c evs before : tline s before -> In c (sw_changed s) -> range_report a s c evs -> length evs <= arena_len a.
Proof.
  intros TL Hc REP. pose proof (segs_nodup a eps lower upper at_y sort_by s before TL c evs REP) as ND.
  rewrite <- (map_length ev_seg). rewrite <- (seq_length (arena_len a) 0). apply NoDup_incl_length; [exact ND|]. intros i Hi. apply in_map_iff in Hi. destruct Hi as (e & <- & He).
  apply in_seq. split; [lia|]. apply (registered_lt _ SP). eapply seg_registered; eassumption.
Qed.

Lemma range_ok fuel s before k c buf t R O : 2 * arena_len a < fuel -> tline s before -> nth_error (sw_changed s) k = Some c ->
  TI t R none O none -> (forall i, O i <> None <-> In i (mixed (sw_line s) before (st c))) ->
  exists evs l buf' west t' R' O', next_range a eps lower upper at_y sort_by s buf k = Ok (Some (evs, c, buf')) /\ range_west s c t = Ok west /\
    process_range ops a tag sort_by fuel s c evs west t = Ok t' /\ rstep s before c evs l t R O t' R' O'.
Proof.
  intros F TL Hk I HO. assert (Hc : In c (sw_changed s)) by (eapply nth_error_In, Hk). destruct (tl_rep _ _ _ _ _ _ _ _ TL k c buf Hk) as (evs & buf' & E1 & REP & OP & NP).
  pose proof (perm_length_range _ _ _ _ TL Hc REP) as LE.
  assert (OLD : forall e, In e evs -> ev_above e = true -> ev_old e <> None). { intros e He A. destruct (rr_old _ _ _ _ REP e He A) as (? & ? & _ & _ & _ & Q). congruence. }
  assert (NEW : forall e, In e evs -> ev_below e = true -> ev_sweep e <> None). { intros e He A. destruct (rr_new _ _ _ _ REP e He A) as (? & ? & _ & _ & _ & Q). congruence. }
  destruct (walk_x_views sort_by SORT evs (rr_num _ _ _ _ REP) (rr_sorted _ _ _ _ REP) OLD NEW fuel) as (l & WX & V1 & V2 & V3 & V4 & V5 & V6); [lia|].
  assert (V : views_of evs l) by (constructor; try assumption; [apply REP|eapply segs_nodup; eassumption]).
  assert (WST : forall e i, st c = S i -> nth_error (sw_line s) i = Some e -> exists o, west_of s c O = Some o /\ O (le_seg e) = Some o).
  { intros e i E He. unfold west_of. rewrite E. unfold line_segment. rewrite He. cbn [option_map]. assert (X : O (le_seg e) <> None).
    { apply HO. eapply left_in_mixed; [exact TL| |exact He|eapply left_gap; eassumption]. lia. } destruct (O (le_seg e)) as [o|]; [eauto|contradiction]. }
  assert (RW : range_west s c t = Ok (west_of s c O)).
  { unfold range_west, west_of. destruct (st c) as [|i] eqn:E; [reflexivity|]. unfold line_segment.
    destruct (nth_error (sw_line s) i) as [e|] eqn:He; [|apply nth_error_None in He; pose proof (tl_bounds _ _ _ _ _ _ _ _ TL c Hc); lia]. cbn [option_map orerr rbind].
    rewrite (front_ok t R O) by (try exact I; eapply mem_lt; eassumption). cbn [rbind]. destruct (WST e i eq_refl He) as (o & _ & Q). rewrite Q. reflexivity. }
  destruct (range_loop ops a tag (sw_y s) evs l V) with (w := wind_of t (west_of s c O)) (west := west_of s c O) (t := t) (R := R) (O := O) as (t1 & EL & I1 & G1).
  { intros e He. eapply seg_usable; try eassumption. } { exact I. } { intros e He. eapply open_iff_above; eassumption. }
  set (O' := reopen O evs l (vrecs (length (t_wind t)) O [] l)) in *.
  assert (HO' : forall i, O' i <> None <-> In i (mixed (sw_line s) before (en c))) by (intros i; eapply reopen_mixed; eassumption).
  assert (LT : forall o, vlast None (length (t_wind t)) l = Some o -> o < length (t_wind t1)).
  { intros o Q. apply vlast_lt in Q. destruct Q as [Q|Q]; [discriminate|]. rewrite (gr_wind _ _ _ _ _ _ _ G1), app_length, vwinds_length. exact Q. }
  destruct (scan_links_ok s before c t1 _ O' _ TL Hc I1 HO' LT) as (t' & E2 & QT).
  exists evs, l, buf', (west_of s c O), t', (R ++ map vring (vrecs (length (t_wind t)) O [] l)), O'. split; [exact E1|]. split; [exact RW|]. split.
  - unfold process_range. assert (WE : match west_of s c O with None => Ok (w_zero ops) | Some o => do! w := orerr EIndex (nth_error (t_wind t) o) in Ok (wn_ccw w) end = Ok (wind_of t (west_of s c O))).
    { destruct (west_of s c O) as [o|] eqn:E; [|reflexivity]. cbn [wind_of]. unfold west_of in E. destruct (st c) as [|i]; [discriminate|]. destruct (line_segment s i) as [g|]; [|discriminate].
      assert (L : o < length (t_wind t)) by (eapply LI_own_lt; [apply I|right; left; exact E]). destruct (nth_error (t_wind t) o) as [w|] eqn:Ew; [reflexivity|]. apply nth_error_None in Ew. lia. }
    rewrite WE. cbn [rbind]. rewrite (process_views _ _ _ _ _ _ _ _ _ _ _ _ WX), EL. cbn [rbind]. exact E2.
  - constructor; try assumption; try reflexivity; [|exists t1; auto]. eapply quiet_ti; eassumption.
Qed.

(** *** The rule for invariants *)
Section Invariant.
Variable P : sweeper -> list lentry -> nat -> topo W -> list (list half) -> (nat -> option nat) -> Prop.
Variable good_line : sweeper -> Prop.
Hypothesis P_gap : forall s before p q t R O, good_line s -> tline s before -> p <= q -> q <= length (sw_line s) -> (forall j, p <= j < q -> gap s j) -> P s before p t R O -> P s before q t R O.
Hypothesis P_range : forall s before c evs l t R O t' R' O', good_line s -> rstep s before c evs l t R O t' R' O' -> P s before (st c) t R O -> P s before (en c) t' R' O'.
Hypothesis P_line : forall s before s' before' t R O, good_line s' -> tline s' before' -> old_segs before' = new_segs (sw_line s) -> (key (sw_y s) < key (sw_y s'))%Z ->
  TI t R none O none -> (forall i, O i <> None <-> In i (new_segs (sw_line s))) ->
  P s before (length (sw_line s)) t R O -> P s' before' 0 t R O.

Definition state s before pos t R O : Prop := TI t R none O none /\ (forall i, O i <> None <-> In i (mixed (sw_line s) before pos)) /\ P s before pos t R O.

Lemma line_ok fuel s before : 2 * arena_len a < fuel -> good_line s -> tline s before -> forall m k pos buf t R O, m + k = length (sw_changed s) ->
  (forall k' c, nth_error (sw_changed s) k' = Some c -> if k' <? k then en c <= pos else pos <= st c) -> pos <= length (sw_line s) ->
  state s before pos t R O ->
  exists buf' t' R' O', process_line ops a tag sort_by eps lower upper at_y fuel s m k buf t = Ok (buf', t') /\ state s before (length (sw_line s)) t' R' O'.
Proof.
  intros F GL TL. induction m as [|m IH]; intros k pos buf t R O LM HP LP (I & HO & HPP); cbn [process_line].
  - exists buf, t, R, O. split; [reflexivity|].
    assert (G : forall j, pos <= j < length (sw_line s) -> gap s j).
    { intros j Lj c Hc X. apply In_nth_error in Hc. destruct Hc as [k' Hc]. pose proof (HP k' c Hc) as Y. assert (k' < length (sw_changed s)) by (apply nth_error_Some; congruence).
      destruct (Nat.ltb_spec k' k); [|lia]. unfold in_interval in X. lia. }
    assert (MG : mixed (sw_line s) before pos = mixed (sw_line s) before (length (sw_line s))) by (eapply mixed_gap; eassumption).
    split; [exact I|]. split; [rewrite <- MG; exact HO|].
    eapply P_gap; [exact GL|exact TL|exact LP|apply le_n|exact G|exact HPP].
  - destruct (nth_error (sw_changed s) k) as [c|] eqn:Hk; [|apply nth_error_None in Hk; lia].
    assert (Hc : In c (sw_changed s)) by (eapply nth_error_In, Hk). pose proof (HP k c Hk) as PS. destruct (Nat.ltb_spec k k); [lia|]. pose proof (tl_bounds _ _ _ _ _ _ _ _ TL c Hc) as BD.
    assert (G : forall j, pos <= j < st c -> gap s j).
    { intros j Lj d Hd X. apply In_nth_error in Hd. destruct Hd as [k' Hd]. pose proof (HP k' d Hd) as Y. unfold in_interval in X. destruct (Nat.ltb_spec k' k) as [Q|Q]; [lia|].
      destruct (Nat.eq_dec k' k) as [->|N]; [assert (d = c) by congruence; subst d; lia|].
      assert (Z : en c < st d). { refine (sorted_nth _ _ (tl_apart _ _ _ _ _ _ _ _ TL) k k' c d _ Hk Hd). lia. } lia. }
    assert (HO2 : forall i, O i <> None <-> In i (mixed (sw_line s) before (st c))) by (replace (mixed (sw_line s) before (st c)) with (mixed (sw_line s) before pos) by (eapply mixed_gap; eassumption); exact HO).
    assert (HP2 : P s before (st c) t R O) by (eapply P_gap; [exact GL|exact TL|exact PS|lia|exact G|exact HPP]).
    destruct (range_ok fuel s before k c buf t R O F TL Hk I HO2) as (evs & l & buf' & west & t' & R' & O' & E1 & E2 & E3 & RS).
    rewrite E1. cbn [rbind]. rewrite E2. cbn [rbind]. rewrite E3. cbn [rbind]. apply (IH (S k) (en c) buf' t' R' O'); [lia| |lia|].
    + intros k' d Hd. destruct (Nat.ltb_spec k' (S k)) as [Q|Q].
      * destruct (Nat.eq_dec k' k) as [->|N]; [assert (d = c) by congruence; subst d; lia|].
        assert (Z : en d < st c). { refine (sorted_nth _ _ (tl_apart _ _ _ _ _ _ _ _ TL) k' k d c _ Hd Hk). lia. } lia.
      * assert (Z : en c < st d). { refine (sorted_nth _ _ (tl_apart _ _ _ _ _ _ _ _ TL) k k' c d _ Hk Hd). lia. } lia.
    + split; [apply RS|]. split; [apply RS|]. eapply P_range; eassumption.
Qed.

(** Consecutive lines. *)
Inductive lines_ok : sweeper -> list sweeper -> Prop :=
| lk_nil s : lines_ok s []
| lk_cons s s' before l : tline s' before -> good_line s' -> old_segs before = new_segs (sw_line s) -> (key (sw_y s) < key (sw_y s'))%Z -> lines_ok s' l -> lines_ok s (s' :: l).

Lemma lines_run fuel : 2 * arena_len a < fuel -> forall l s before buf t R O, lines_ok s l -> TI t R none O none -> (forall i, O i <> None <-> In i (new_segs (sw_line s))) ->
  P s before (length (sw_line s)) t R O ->
  exists t' R' O' before', process_lines ops a tag sort_by eps lower upper at_y fuel l buf t = Ok t' /\ TI t' R' none O' none /\
    (forall i, O' i <> None <-> In i (new_segs (sw_line (last l s)))) /\ P (last l s) before' (length (sw_line (last l s))) t' R' O'.
Proof.
  intros F. induction l as [|s' l IH]; intros s before buf t R O LK I HO HP; cbn [process_lines].
  - exists t, R, O, before. auto.
  - inversion LK as [|? ? before' ? TL GL EB KY LK']; subst.
    destruct (line_ok fuel s' before' F GL TL (length (sw_changed s')) 0 0 buf t R O) as (buf' & t' & R' & O' & E & I' & HO' & HP').
    + lia.
    + intros k1 c Hc. destruct (Nat.ltb_spec k1 0); lia.
    + lia.
    + split; [exact I|]. split.
      * intros i. rewrite HO. unfold mixed. cbn [firstn skipn]. rewrite EB. reflexivity.
      * eapply P_line; eassumption.
    + rewrite E. cbn [rbind]. destruct (IH s' before' buf' t' R' O' LK' I') as (t2 & R2 & O2 & b2 & E2 & I2 & HO2 & HP2).
      * intros i. rewrite HO'. unfold mixed. rewrite firstn_all, skipn_all2 by (rewrite (tl_len _ _ _ _ _ _ _ _ TL); lia). cbn. rewrite app_nil_r. reflexivity.
      * exact HP'.
      * exists t2, R2, O2, b2. split; [exact E2|]. split; [exact I2|]. split.
        -- destruct l as [|s2 l]; [exact HO2|]. replace (last (s' :: s2 :: l) s) with (last (s2 :: l) s'); [exact HO2|]. clear. cbn [last]. revert s2. induction l as [|x l IH]; intros s2; [reflexivity|apply IH].
        -- destruct l as [|s2 l]; [exact HP2|]. replace (last (s' :: s2 :: l) s) with (last (s2 :: l) s'); [exact HP2|]. clear. cbn [last]. revert s2. induction l as [|x l IH]; intros s2; [reflexivity|apply IH].
Qed.
End Invariant.
End Build.
