(** Proofs about scan-line orders: a finer rule for invariants of a run, which counts ranges and remembers the lines. *)
From Coq Require Import List Bool ZArith Arith Lia Permutation Sorted.
From Verif Require Import F64 F64Arith TreeVecModel GeomModel SegmentsModel SegmentsSpec SegmentsProofs CurveOrderModel CurveOrderProofs SweepModel SweepSpec
  SweepProofs2 SweepProofs8 SweepProofs10 RangeModel RangeSpec RangeProofs3 RangeProofs4 RangeProofs5 PropsSweep PropsRange TopoModel TopoSpec TopoProofs TopoProofs2 TopoProofs3 TopoProofs4
  TopoProofs5 TopoProofs6 TopoProofs7 TopoProofs8 TopoProofs9 TopoProofs10 PropsTopo.
Import ListNotations.

Section Rule.
Context {W T : Type}.
Variable ops : wops W T.
Variable a : arena.
Variable tag : list T.
Variable eps : f64.
Variables lower upper : segment -> f64 -> f64 -> f64.
Variable at_y : segment -> f64 -> f64.
Variable sort_by : forall A : Type, (A -> A -> comparison) -> list A -> list A.
Hypothesis SP : sweepable a.
Hypothesis SORT : forall A, sort_spec (sort_by A).
Hypothesis TAG : length tag = arena_len a.
Hypothesis ORI : length (orientation a) = arena_len a.
Implicit Types t : topo W.
Notation TI := (TI a).
Notation none := (fun _ : nat => @None nat).
Notation tline := (tline a eps lower upper at_y sort_by).
Notation rstep := (rstep ops a tag eps lower upper at_y sort_by).
Notation st c := (fst (ci_segs c)).
Notation en c := (snd (ci_segs c)).

Section Invariant.
Variable P : list sweeper -> sweeper -> list lentry -> nat -> nat -> topo W -> list (list half) -> (nat -> option nat) -> Prop.
Variable good_line : sweeper -> Prop.
Hypothesis P_gap : forall D s before k p q t R O, good_line s -> tline s before -> p <= q -> q <= length (sw_line s) -> (forall j, p <= j < q -> gap s j) ->
  (forall k' c, nth_error (sw_changed s) k' = Some c -> k' < k -> en c <= p) -> P D s before k p t R O -> P D s before k q t R O.
Hypothesis P_range : forall D s before k c evs l t R O t' R' O', good_line s -> rstep s before c evs l t R O t' R' O' -> nth_error (sw_changed s) k = Some c ->
  P D s before k (st c) t R O -> P D s before (S k) (en c) t' R' O'.
Hypothesis P_line : forall D s before s' before' t R O, good_line s' -> tline s' before' -> old_segs before' = new_segs (sw_line s) -> (key (sw_y s) < key (sw_y s'))%Z ->
  TI t R none O none -> (forall i, O i <> None <-> In i (new_segs (sw_line s))) ->
  P D s before (length (sw_changed s)) (length (sw_line s)) t R O -> P (D ++ [s]) s' before' 0 0 t R O.

Definition state2 D s before k pos t R O : Prop := TI t R none O none /\ (forall i, O i <> None <-> In i (mixed (sw_line s) before pos)) /\ P D s before k pos t R O.

Lemma line_ok2 fuel D s before : 2 * arena_len a < fuel -> good_line s -> tline s before -> forall m k pos buf t R O, m + k = length (sw_changed s) ->
  (forall k' c, nth_error (sw_changed s) k' = Some c -> if k' <? k then en c <= pos else pos <= st c) -> pos <= length (sw_line s) ->
  state2 D s before k pos t R O ->
  exists buf' t' R' O', process_line ops a tag sort_by eps lower upper at_y fuel s m k buf t = Ok (buf', t') /\ state2 D s before (length (sw_changed s)) (length (sw_line s)) t' R' O'.
Proof.
  intros F GL TL. induction m as [|m IH]; intros k pos buf t R O LM HP LP (I & HO & HPP); cbn [process_line].
  - exists buf, t, R, O. split; [reflexivity|].
    assert (G : forall j, pos <= j < length (sw_line s) -> gap s j).
    { intros j Lj c Hc X. apply In_nth_error in Hc. destruct Hc as [k' Hc]. pose proof (HP k' c Hc) as Y. assert (k' < length (sw_changed s)) by (apply nth_error_Some; congruence).
      destruct (Nat.ltb_spec k' k); [|lia]. unfold in_interval in X. lia. }
    assert (MG : mixed (sw_line s) before pos = mixed (sw_line s) before (length (sw_line s))) by (eapply mixed_gap; eassumption).
    split; [exact I|]. split; [rewrite <- MG; exact HO|]. cbn in LM. rewrite <- LM.
    eapply P_gap; [exact GL|exact TL|exact LP|apply le_n|exact G| |exact HPP]. intros k' c Hc L. specialize (HP k' c Hc). destruct (Nat.ltb_spec k' k); lia.
  - destruct (nth_error (sw_changed s) k) as [c|] eqn:Hk; [|apply nth_error_None in Hk; lia].
    assert (Hc : In c (sw_changed s)) by (eapply nth_error_In, Hk). pose proof (HP k c Hk) as PS. destruct (Nat.ltb_spec k k); [lia|]. pose proof (tl_bounds _ _ _ _ _ _ _ _ TL c Hc) as BD.
    assert (G : forall j, pos <= j < st c -> gap s j).
    { intros j Lj d Hd X. apply In_nth_error in Hd. destruct Hd as [k' Hd]. pose proof (HP k' d Hd) as Y. unfold in_interval in X. destruct (Nat.ltb_spec k' k) as [Q|Q]; [lia|].
      destruct (Nat.eq_dec k' k) as [->|N]; [assert (d = c) by congruence; subst d; lia|].
      assert (Z : en c < st d). { refine (sorted_nth _ _ (tl_apart _ _ _ _ _ _ _ _ TL) k k' c d _ Hk Hd). lia. } lia. }
    assert (HO2 : forall i, O i <> None <-> In i (mixed (sw_line s) before (st c))) by (replace (mixed (sw_line s) before (st c)) with (mixed (sw_line s) before pos) by (eapply mixed_gap; eassumption); exact HO).
    assert (HP2 : P D s before k (st c) t R O).
    { eapply P_gap; [exact GL|exact TL|exact PS|lia|exact G| |exact HPP]. intros k' d Hd L. specialize (HP k' d Hd). destruct (Nat.ltb_spec k' k); lia. }
    destruct (range_ok ops a tag eps lower upper at_y sort_by SP SORT TAG ORI fuel s before k c buf t R O F TL Hk I HO2) as (evs & l & buf' & west & t' & R' & O' & E1 & E2 & E3 & RS).
    rewrite E1. cbn [rbind]. rewrite E2. cbn [rbind]. rewrite E3. cbn [rbind]. apply (IH (S k) (en c) buf' t' R' O'); [lia| |lia|].
    + intros k' d Hd. destruct (Nat.ltb_spec k' (S k)) as [Q|Q].
      * destruct (Nat.eq_dec k' k) as [->|N]; [assert (d = c) by congruence; subst d; lia|].
        assert (Z : en d < st c). { refine (sorted_nth _ _ (tl_apart _ _ _ _ _ _ _ _ TL) k' k d c _ Hd Hk). lia. } lia.
      * assert (Z : en c < st d). { refine (sorted_nth _ _ (tl_apart _ _ _ _ _ _ _ _ TL) k k' c d _ Hk Hd). lia. } lia.
    + split; [apply RS|]. split; [apply RS|]. eapply P_range; eassumption.
Qed.

Notation lines_ok := (lines_ok a eps lower upper at_y sort_by good_line).
Lemma lines_run2 fuel : 2 * arena_len a < fuel -> forall l D s before buf t R O, lines_ok s l -> TI t R none O none -> (forall i, O i <> None <-> In i (new_segs (sw_line s))) ->
  P D s before (length (sw_changed s)) (length (sw_line s)) t R O ->
  exists t' R' O' D' s' before', process_lines ops a tag sort_by eps lower upper at_y fuel l buf t = Ok t' /\ TI t' R' none O' none /\
    D' ++ [s'] = D ++ s :: l /\
    (forall i, O' i <> None <-> In i (new_segs (sw_line s'))) /\ P D' s' before' (length (sw_changed s')) (length (sw_line s')) t' R' O'.
Proof.
  intros F. induction l as [|s' l IH]; intros D s before buf t R O LK I HO HP; cbn [process_lines].
  - exists t, R, O, D, s, before. repeat (split; [solve [auto]|]). exact HP.
  - inversion LK as [|? ? before' ? TL GL EB KY LK']; subst.
    destruct (line_ok2 fuel (D ++ [s]) s' before' F GL TL (length (sw_changed s')) 0 0 buf t R O) as (buf' & t' & R' & O' & E & I' & HO' & HP').
    + lia.
    + intros k1 c Hc. destruct (Nat.ltb_spec k1 0); lia.
    + lia.
    + split; [exact I|]. split.
      * intros i. rewrite HO. unfold mixed. cbn [firstn skipn]. rewrite EB. reflexivity.
      * eapply P_line; eassumption.
    + rewrite E. cbn [rbind]. destruct (IH (D ++ [s]) s' before' buf' t' R' O' LK' I') as (t2 & R2 & O2 & D2 & s2 & b2 & E2 & I2 & ED & HO2 & HP2).
      * intros i. rewrite HO'. unfold mixed. rewrite firstn_all, skipn_all2 by (rewrite (tl_len _ _ _ _ _ _ _ _ TL); lia). cbn. rewrite app_nil_r. reflexivity.
      * exact HP'.
      * exists t2, R2, O2, D2, s2, b2. split; [exact E2|]. split; [exact I2|]. split; [rewrite ED, <- app_assoc; reflexivity|]. auto.
Qed.
End Invariant.
End Rule.

Section Run.
Context {W T : Type}.
Variable ops : wops W T.
Variables (tag : list T) (a : arena) (eps : f64) (cmp ccmp : nat -> nat -> curve_order) (min_x max_x : segment -> f64)
  (lower upper : segment -> f64 -> f64 -> f64) (at_y : segment -> f64 -> f64)
  (pps : nat -> ((lentry -> bool) -> list lentry -> nat) * ((lentry -> bool) -> list lentry -> nat))
  (sort_by : forall A : Type, (A -> A -> comparison) -> list A -> list A) (l : list sweeper).
Hypothesis IN : topo_input tag a eps cmp ccmp min_x max_x lower upper at_y pps sort_by l.
Notation st c := (fst (ci_segs c)).
Notation en c := (snd (ci_segs c)).

Lemma run_rule2 (P : list sweeper -> sweeper -> list lentry -> nat -> nat -> topo W -> list (list half) -> (nat -> option nat) -> Prop) (good : sweeper -> Prop) fuel buf :
  (forall s, In s l -> good s) ->
  (forall D s before k p q t R O, good s -> tline a eps lower upper at_y sort_by s before -> p <= q -> q <= length (sw_line s) -> (forall j, p <= j < q -> gap s j) ->
    (forall k' c, nth_error (sw_changed s) k' = Some c -> k' < k -> en c <= p) -> P D s before k p t R O -> P D s before k q t R O) ->
  (forall D s before k c evs vs t R O t' R' O', good s -> rstep ops a tag eps lower upper at_y sort_by s before c evs vs t R O t' R' O' -> nth_error (sw_changed s) k = Some c ->
    P D s before k (st c) t R O -> P D s before (S k) (en c) t' R' O') ->
  (forall D s before s' before' t R O, good s' -> tline a eps lower upper at_y sort_by s' before' -> old_segs before' = new_segs (sw_line s) -> (key (sw_y s) < key (sw_y s'))%Z ->
    TI a t R none O none -> (forall i, O i <> None <-> In i (new_segs (sw_line s))) ->
    P D s before (length (sw_changed s)) (length (sw_line s)) t R O -> P (D ++ [s]) s' before' 0 0 t R O) ->
  P [] start_line [] 0 0 (topo_new (arena_len a)) [] none -> 2 * arena_len a < fuel ->
  exists t R O D s before, process_lines ops a tag sort_by eps lower upper at_y fuel l buf (topo_new (arena_len a)) = Ok t /\ TI a t R none O none /\ (forall i, O i = None) /\
    D ++ [s] = start_line :: l /\ new_segs (sw_line s) = [] /\ P D s before (length (sw_changed s)) (length (sw_line s)) t R O.
Proof.
  intros GOOD PG PR PL PI F. destruct IN as [SET PS TAG ORI (f & n & RUN) BOX].
  destruct (lines_run2 ops a tag eps lower upper at_y sort_by (ss_arena _ _ _ _ _ SET) (ss_sort _ _ _ _ _ SET) TAG ORI P good PG PR PL fuel F l [] start_line [] buf (topo_new (arena_len a)) [] none)
    as (t & R & O & D & s & before & E & TT & ED & HO & HP).
  - eapply lines_all; eassumption.
  - apply TI_new.
  - intros i. cbn. split; [intros H; contradiction|intros []].
  - exact PI.
  - exists t, R, O, D, s, before. split; [exact E|]. split; [exact TT|]. cbn [app] in ED.
    assert (ES : s = last l start_line). { rewrite <- (last_last D s start_line), ED. destruct l; reflexivity. }
    assert (NS : new_segs (sw_line s) = []); [|split; [|split; [exact ED|split; [exact NS|exact HP]]]].
    2:{ intros i. destruct (O i) as [o|] eqn:EO; [|reflexivity]. exfalso. assert (X : O i <> None) by congruence. apply HO in X. rewrite NS in X. destruct X. }
    rewrite ES. destruct (last_line_empty a eps lower upper sort_by cmp ccmp min_x max_x pps SET f n l true RUN (fun _ => True) BOX (fun _ _ => I) start_line eq_refl) as [Q|Q]; [exact Q|]. rewrite Q. reflexivity.
Qed.
End Run.
