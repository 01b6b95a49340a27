(** Property theorems about building topologies: C30 - C31. *)
From Coq Require Import List Bool ZArith Arith Lia Permutation Sorted.
From Verif Require Import F64 F64Arith TreeVecModel GeomModel SegmentsModel SegmentsSpec SegmentsProofs CurveOrderModel CurveOrderProofs SweepModel SweepSpec
  SweepProofs2 SweepProofs8 SweepProofs10 RangeModel RangeSpec RangeProofs3 RangeProofs4 RangeProofs5 PropsSweep PropsRange TopoModel TopoSpec TopoProofs TopoProofs2 TopoProofs3 TopoProofs4
  TopoProofs5 TopoProofs6 TopoProofs7 TopoProofs8 TopoProofs9 TopoProofs10.
Import ListNotations.

Notation none := (fun _ : nat => @None nat).
Lemma TI_new {W} a : TI a (topo_new (W := W) (arena_len a)) [] none none none.
Proof.
  split.
  - constructor; try reflexivity.
    + cbn. apply repeat_length.
    + intros s L. cbn. apply nth_error_repeat, L.
    + intros s o [H|[H|H]]; discriminate.
    + intros s. constructor.
  - constructor; try reflexivity; try constructor.
    + intros []. + intros [H _]. cbn in H. lia.
    + destruct p; discriminate. + destruct p; discriminate.
Qed.

Section Run.
Context {W T : Type}.
Variable ops : wops W T.
Variables (tag : list T) (a : arena) (eps : f64) (cmp ccmp : nat -> nat -> curve_order) (min_x max_x : segment -> f64)
  (lower upper : segment -> f64 -> f64 -> f64) (at_y : segment -> f64 -> f64)
  (pps : nat -> ((lentry -> bool) -> list lentry -> nat) * ((lentry -> bool) -> list lentry -> nat))
  (sort_by : forall A : Type, (A -> A -> comparison) -> list A -> list A) (l : list sweeper).
Hypothesis IN : topo_input tag a eps cmp ccmp min_x max_x lower upper at_y pps sort_by l.

(** The rule for invariants of a whole run. *)
Lemma run_rule (P : sweeper -> list lentry -> nat -> topo W -> list (list half) -> (nat -> option nat) -> Prop) (good : sweeper -> Prop) fuel buf :
  (forall s, In s l -> good s) ->
  (forall s before p q t R O, good s -> tline a eps lower upper at_y sort_by s before -> p <= q -> q <= length (sw_line s) -> (forall j, p <= j < q -> gap s j) -> P s before p t R O -> P s before q t R O) ->
  (forall s before c evs vs t R O t' R' O', good s -> rstep ops a tag eps lower upper at_y sort_by s before c evs vs t R O t' R' O' -> P s before (fst (ci_segs c)) t R O -> P s before (snd (ci_segs c)) t' R' O') ->
  (forall s before s' before' t R O, good s' -> tline a eps lower upper at_y sort_by s' before' -> old_segs before' = new_segs (sw_line s) -> (key (sw_y s) < key (sw_y s'))%Z ->
    TI a t R none O none -> (forall i, O i <> None <-> In i (new_segs (sw_line s))) -> P s before (length (sw_line s)) t R O -> P s' before' 0 t R O) ->
  P start_line [] 0 (topo_new (arena_len a)) [] none -> 2 * arena_len a < fuel ->
  exists t R O s before, process_lines ops a tag sort_by eps lower upper at_y fuel l buf (topo_new (arena_len a)) = Ok t /\ TI a t R none O none /\ (forall i, O i = None) /\ P s before (length (sw_line s)) t R O.
Proof.
  intros GOOD PG PR PL PI F. destruct IN as [SET PS TAG ORI (f & n & RUN) BOX].
  destruct (lines_run ops a tag eps lower upper at_y sort_by (ss_arena _ _ _ _ _ SET) (ss_sort _ _ _ _ _ SET) TAG ORI P good PG PR PL fuel F l start_line [] buf (topo_new (arena_len a)) [] none) as (t & R & O & before & E & TT & HO & HP).
  - eapply lines_all; eassumption.
  - apply TI_new.
  - intros i. cbn. split; [intros H; contradiction|intros []].
  - exact PI.
  - exists t, R, O, (last l start_line), before. split; [exact E|]. split; [exact TT|]. split; [|exact HP].
    intros i. destruct (O i) as [o|] eqn:EO; [|reflexivity]. exfalso. assert (X : O i <> None) by congruence. apply HO in X.
    destruct (last_line_empty a eps lower upper sort_by cmp ccmp min_x max_x pps SET f n l true RUN (fun _ => True) BOX (fun _ _ => I) start_line eq_refl) as [Q|Q]; [rewrite Q in X; destruct X|]. rewrite Q in X. destruct X.
Qed.
End Run.

(** ** C30, C31 *)
(** The builder never panics on such input.  At the end, the half-segments are arranged in one ring per point, no output segment
    is open (each has both ends), and each goes down from its first end to its second end, within the heights of the input segment it comes from. *)
Theorem topology_rings : forall (W T : Type) (ops : wops W T) tag a eps cmp ccmp min_x max_x lower upper at_y pps sort_by l,
  topo_input tag a eps cmp ccmp min_x max_x lower upper at_y pps sort_by l ->
  forall fuel buf, 2 * arena_len a < fuel ->
  exists t R, process_lines ops a tag sort_by eps lower upper at_y fuel l buf (topo_new (arena_len a)) = Ok t /\
    rings t (fun h => h_idx h < length (t_wind t)) R /\ (forall h, h_idx h < length (t_wind t) -> present t h) /\
    Forall (fun q => q = []) (t_open t) /\ segments_run_down a t.
Proof.
  intros W T ops tag a eps cmp ccmp min_x max_x lower upper at_y pps sort_by l IN fuel buf F.
  pose proof (ss_arena _ _ _ _ _ (ti_setting _ _ _ _ _ _ _ _ _ _ _ _ _ IN)) as SP. pose proof (ti_tags _ _ _ _ _ _ _ _ _ _ _ _ _ IN) as TAG. pose proof (ti_orient _ _ _ _ _ _ _ _ _ _ _ _ _ IN) as ORI.
  destruct (run_rule ops tag a eps cmp ccmp min_x max_x lower upper at_y pps sort_by l IN (ends a) (fun _ => True) fuel buf) as (t & R & O & s & before & E & [LI0 RI] & HO & EN).
  - auto.
  - intros s before p q t R O _ _ L _ _ H. eapply ends_gap; eassumption.
  - intros s before c evs vs t R O t' R' O' _ RS H. eapply (ends_range ops a tag); eassumption.
  - intros s before s' before' t R O _ _ _ K _ _ H. eapply (ends_line a tag); eassumption.
  - constructor; [constructor|intros o x y (p & r & H & _); destruct p; discriminate|intros; discriminate|intros h x i (p & r & H & _); destruct p; discriminate].
  - exact F.
  - assert (NO : forall o, ~ opened none O none o) by (intros o (i & [H|[H|H]]); [discriminate|rewrite HO in H; discriminate|discriminate]).
    assert (RI' : rings t (fun h => h_idx h < length (t_wind t)) R).
    { eapply rings_live; [|exact RI]. intros h. unfold placed_half. split; [tauto|]. intros L. split; [exact L|]. right. apply NO. }
    exists t, R. split; [exact E|]. split; [exact RI'|]. split; [|split].
    + intros h L. unfold present. rewrite (li_del _ _ _ _ _ LI0). apply nth_error_repeat, L.
    + apply Forall_forall. intros q Hq. apply In_nth_error in Hq. destruct Hq as [i Hi]. assert (Li : i < arena_len a) by (rewrite <- (li_nopen _ _ _ _ _ LI0); apply nth_error_Some; congruence).
      rewrite (li_open _ _ _ _ _ LI0 i Li), HO in Hi. cbn in Hi. congruence.
    + intros o Lo.
      assert (AT : forall h, h_idx h = o -> exists x, at_vertex t R h x /\ ends_at t h x).
      { intros h Eh. assert (X : In h (concat R)) by (apply (ri_all _ _ _ RI'); lia). apply in_concat in X. destruct X as (r & Hr & Hh). apply In_nth_error in Hr. destruct Hr as [p Hr].
        destruct (nth_error (t_points t) p) as [x|] eqn:EX; [|apply nth_error_None in EX; rewrite <- (ri_points _ _ _ RI') in EX; assert (p < length R) by (apply nth_error_Some; congruence); lia].
        exists x. split; [exists p, r; auto|]. exists p. split; [apply (ri_at _ _ _ RI' p r h Hr Hh)|exact EX]. }
      destruct (AT (first_half o) eq_refl) as (x & X1 & X2). destruct (AT (second_half o) eq_refl) as (y & Y1 & Y2).
      destruct (nth_error (t_orig t) o) as [i|] eqn:EI; [|apply nth_error_None in EI; rewrite (li_orig _ _ _ _ _ LI0) in EI; lia].
      exists x, y, i. destruct (en_span _ _ _ _ _ _ _ EN (first_half o) x i X1 EI) as (RG & S1 & S2). destruct (en_span _ _ _ _ _ _ _ EN (second_half o) y i Y1 EI) as (_ & S3 & S4).
      assert (PN : forall p r h z, nth_error R p = Some r -> In h r -> nth_error (t_points t) p = Some z -> point_nonnan z).
      { intros p r h z' _ _ Hz. pose proof (en_num _ _ _ _ _ _ _ EN) as N. rewrite Forall_forall in N. apply N. eapply nth_error_In, Hz. }
      destruct (sp_finite _ SP i (registered_lt _ SP _ RG)) as [[F1 F2] [F3 F4]]. apply fin_nonnan in F1, F2, F3, F4.
      assert (Nx : point_nonnan x) by (destruct X1 as (p & r & A1 & A2 & A3); eapply PN; eassumption). assert (Ny : point_nonnan y) by (destruct Y1 as (p & r & A1 & A2 & A3); eapply PN; eassumption).
      split; [exact X2|]. split; [exact Y2|]. split; [reflexivity|]. split; [exact RG|]. split.
      * pose proof (en_lt _ _ _ _ _ _ _ EN o x y X1 Y1) as K. unfold point_lt. rewrite (point_cmp_key x y Nx Ny). destruct K as [K|[K1 K2]].
        -- apply Z.compare_lt_iff in K. rewrite K. reflexivity.
        -- rewrite K1, Z.compare_refl. apply Z.compare_lt_iff in K2. rewrite K2. reflexivity.
      * destruct Nx as [Nx1 Nx2], Ny as [Ny1 Ny2]. unfold start_y, end_y in *. fk. zb. lia.
Qed.

(** Attaching half-segments to the ring of the last point, on either side, and deleting output segments: rings stay rings. *)
Theorem attach_keeps_rings : forall (W : Type) (t : topo W) live R r segs,
  rings t live (R ++ [r]) -> (forall h, live h -> valid t h) -> Forall (valid t) segs -> NoDup segs -> (forall h, In h segs -> ~ live h) ->
  (exists t', add_cw (hd_error r) (lastof r) segs (length R) t = Ok (hd_error (r ++ segs), lastof (r ++ segs), t') /\
     rings t' (fun h => In h segs \/ live h) (R ++ [r ++ segs])) /\
  (exists t', add_ccw (hd_error r) (lastof r) segs (length R) t = Ok (hd_error (rev segs ++ r), lastof (rev segs ++ r), t') /\
     rings t' (fun h => In h segs \/ live h) (R ++ [rev segs ++ r])).
Proof.
  intros W t live R r segs RI V VS ND NL. pose proof RI as [RP RN RA RT RL].
  assert (Hr : nth_error (R ++ [r]) (length R) = Some r) by (rewrite nth_error_app2, Nat.sub_diag by lia; reflexivity).
  assert (Vr : Forall (valid t) r) by (apply Forall_forall; intros h Hh; apply V, RA; eapply nth_concat; eassumption).
  assert (NDr : NoDup r) by (rewrite concat_app in RN; cbn in RN; rewrite app_nil_r in RN; apply nodup_app in RN; tauto).
  assert (DJ : forall h, In h segs -> ~ In h r) by (intros h Hs Hh; apply (NL h Hs), RA; eapply nth_concat; eassumption).
  split.
  - destruct (add_cw_spec r segs (length R) t) as (t' & E & AT).
    + apply Forall_app. auto. + apply nodup_app. repeat split; try assumption. intros h H1 H2. apply (DJ h H2 H1). + apply (RL _ _ Hr).
    + exists t'. split; [exact E|]. eapply rings_attach; try eassumption; [apply Permutation_app_comm|]. intros h. reflexivity.
  - destruct (add_ccw_spec r segs (length R) t) as (t' & E & AT).
    + apply Forall_app. split; [apply Forall_rev, VS|exact Vr]. + apply nodup_app. split; [apply NoDup_rev, ND|]. split; [exact NDr|]. intros h H1. apply DJ, in_rev, H1. + apply (RL _ _ Hr).
    + exists t'. split; [exact E|]. eapply rings_attach; try eassumption; [apply Permutation_app_tail; symmetry; apply Permutation_rev|]. intros h. reflexivity.
Qed.
Theorem delete_keeps_rings : forall (W : Type) (t : topo W) live R o,
  rings t live R -> (forall k, live k -> h_idx k < length (t_nbrs t)) -> o < length (t_deleted t) -> live (first_half o) -> live (second_half o) ->
  exists t', delete t o = Ok t' /\ rings t' (fun k => live k /\ h_idx k <> o) (map (without_seg o) R) /\
    (forall r h, In h (without_seg o r) <-> In h r /\ h_idx h <> o) /\
    t_points t' = t_points t /\ t_pidx t' = t_pidx t /\ t_wind t' = t_wind t.
Proof.
  intros W t live R o RI V L L1 L2. destruct (delete_spec t live R o RI V L L1 L2) as (t' & E & D & RI'). exists t'. split; [exact E|]. split; [exact RI'|]. split; [intros; apply without_seg_in|]. destruct D. auto.
Qed.

(** ** Non-vacuity *)
From Verif Require Import PropsSegments SweepReach SweepCheck SegmentsProofs4.
Definition ex_tags : list unit := repeat tt 5.
Definition ex_topo : res (topo Z) :=
  match ex_sweep 100 100 with
  | Ok (l, _) => process_lines i32_wops ex_arena ex_tags (@isort) (f64_of_Z 0) ex_lo ex_hi ex_aty 20 l [] (topo_new (arena_len ex_arena))
  | Err e => Err e
  end.
Lemma ex_sweep_eq f n : ex_sweep f n = sweep ex_arena (f64_of_Z 0) ex_cmp ex_cmp ex_min ex_max ex_lo ex_hi ex_pps (@isort) f n 0 (sweeper_new ex_arena).
Proof. reflexivity. Qed.
Example ex_input_ok : exists l, ex_sweep 100 100 = Ok (l, true) /\ topo_input ex_tags ex_arena (f64_of_Z 0) ex_cmp ex_cmp ex_min ex_max ex_lo ex_hi ex_aty ex_pps (@isort) l.
Proof.
  destruct ex_lines_ordered as (l & E & _ & B). exists l. split; [exact E|]. constructor.
  - exact ex_sound.
  - exact (sound_numbers _ _ _ _ _ ex_positions).
  - vm_compute. reflexivity.
  - vm_compute. reflexivity.
  - exists 100, 100. rewrite <- ex_sweep_eq. exact E.
  - rewrite Forall_forall in B. exact B.
Qed.
Example ex_topology : match ex_topo with
  | Ok t => (length (t_points t), t_orig t, t_pos t, t_west t, map (fun w => (wn_cw w, wn_ccw w)) (t_wind t)) =
            (12, [0; 1; 3; 2; 0; 2; 1; 2; 1; 0; 4], repeat true 11,
             [None; Some 0; Some 1; None; None; Some 4; Some 4; Some 6; None; Some 8; Some 9],
             [(0, 1); (1, 2); (2, 3); (0, 1); (0, 1); (1, 2); (1, 2); (2, 3); (0, 1); (1, 2); (2, 3)]%Z)
  | Err _ => False
  end.
Proof. vm_compute. reflexivity. Qed.

Print Assumptions topology_rings.
Print Assumptions attach_keeps_rings.
Print Assumptions delete_keeps_rings.
