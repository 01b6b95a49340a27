(** C89: the height from which a lone segment has to look at its neighbours again. *)
From Coq Require Import List Bool ZArith Arith Lia Permutation Sorted.
From Verif Require Import F64 F64Arith TreeVecModel GeomModel SegmentsModel SegmentsSpec SegmentsProofs CurveOrderModel CurveOrderSpec CurveOrderProofs CurveOrderProofs2 SweepModel SweepSpec
  SweepProofs2 SweepProofs7 SweepProofs8 SweepProofs10 RangeModel RangeSpec PropsSweep PropsRange TopoModel TopoSpec TopoProofs PropsTopo MergeProofs5
  ScanModel ScanSpec ScanProofs ScanProofs4 PropsScan PropsPath PosProofs4 PropsScanLive CloseSpec CloseProofs.
Import ListNotations.

Section Close.
Context {W : Type}.
Variables (a : arena) (t : topo W) (l : list sweeper) (m : scan_order) (cmp : nat -> nat -> curve_order).
Hypothesis SP : sweepable a.
Hypothesis CO : comparer_ok a cmp.
Hypothesis TB : scan_tables t m.
Hypothesis EX : forall h, flt h finfinity = true -> exact_at t l m h.
Hypothesis ORD : forall h, NoDup (order_below l h).
Hypothesis ROWS : forall o row e, nth_error (so_west m) o = Some row \/ nth_error (so_east m) o = Some row -> In e row -> o < length (t_wind t) /\ crosses t o (fst e).
Hypothesis DOWN : segments_run_down a t.
Notation table west := (if west : bool then so_west m else so_east m).

Lemma row_at west o : o < length (t_wind t) -> exists row, nth_error (table west) o = Some row /\ Forall hnum row /\ StronglySorted hlt row.
Proof.
  intros L. destruct TB as (T1 & T2 & T3 & T4). assert (X : exists row, nth_error (table west) o = Some row). { destruct west; [rewrite <- T1 in L|rewrite <- T2 in L]; apply nth_error_Some in L; destruct (nth_error _ o) as [r|]; eauto; congruence. }
  destruct X as [row R]. exists row. split; [exact R|]. assert (F : Forall hnum row). { apply Forall_forall. intros e He. assert (C : crosses t o (fst e)) by (apply (ROWS o row e); [destruct west; auto|exact He]). apply (crosses_num _ _ _ C). }
  split; [exact F|]. destruct west; [exact (increasing_row _ _ _ T3 R F)|exact (increasing_row _ _ _ T4 R F)].
Qed.
Lemma alive_entry west o row y n : nth_error (table west) o = Some row -> In (y, n) row -> alive_at a t o y /\ forall e, n = Some e -> e <> o /\ alive_at a t e y.
Proof.
  pose proof (west_alive a t l m TB EX ROWS DOWN) as HW. pose proof (east_alive a t l m TB EX ROWS DOWN) as HE. destruct west; [apply HW|apply HE].
Qed.
Lemma distinct_inputs o n y i j : crosses t o y -> crosses t n y -> o < length (t_wind t) -> n < length (t_wind t) -> n <> o -> nth_error (t_orig t) o = Some i -> nth_error (t_orig t) n = Some j -> i <> j.
Proof.
  intros C1 C2 L1 L2 NE H1 H2 <-. destruct (crosses_num _ _ _ C1) as [_ YF]. destruct (EX y YF) as (outs & ND & IO & F & _). assert (I1 : In o outs) by (apply IO; auto). assert (I2 : In n outs) by (apply IO; auto). pose proof (ORD y) as NO.
  clear - F NO I1 I2 H1 H2 NE. induction F as [|x k xs ks HX F IH]; [destruct I1|]. apply NoDup_cons_iff in NO. destruct NO as [NO1 NO2].
  assert (IN : forall z, In z xs -> nth_error (t_orig t) z = Some i -> In i ks). { clear - F. induction F as [|x k xs ks HX F IH]; intros z Hz E; [destruct Hz|]. destruct Hz as [->|Hz]; [left; congruence|right; eapply IH; eassumption]. }
  destruct I1 as [<-|I1], I2 as [<-|I2]; [congruence| | |apply IH; assumption]; apply NO1; assert (k = i) by congruence; subst k; eapply IN; eassumption.
Qed.
Lemma overlapping west o row y n : nth_error (table west) o = Some row -> In (y, Some n) row -> exists i j, nth_error (t_orig t) o = Some i /\ nth_error (t_orig t) n = Some j /\ table_wf (cmp i j).
Proof.
  intros R H. destruct (alive_entry west o row y _ R H) as [(L1 & C1 & i & E1 & S1) X]. destruct (X n eq_refl) as (NE & L2 & C2 & j & E2 & S2). exists i, j. split; [exact E1|]. split; [exact E2|].
  assert (RI : forall o i, o < length (t_wind t) -> nth_error (t_orig t) o = Some i -> i < arena_len a). { intros o' i' L E. destruct (DOWN o' L) as (x & x' & i2 & _ & _ & E3 & RG & _). assert (i2 = i') by congruence. subst. exact (registered_lt a SP _ RG). }
  destruct S1 as [A1 A2], S2 as [B1 B2]. destruct (fle_nonnan _ _ A1), (flt_nonnan _ _ A2), (fle_nonnan _ _ B1), (flt_nonnan _ _ B2).
  apply (CO i j); [exact (RI o i L1 E1)|exact (RI n j L2 E2)|exact (distinct_inputs o n y i j C1 C2 L1 L2 NE E1 E2)|unfold slanted; fk; zb; lia|unfold slanted; fk; zb; lia|fk; zb; lia|fk; zb; lia].
Qed.

Lemma close_query west o y : o < length (t_wind t) -> nan y = false -> exists r, close_after cmp t m west o y = Ok r /\
  (forall h n, fle y h = true -> neighbour_at m west o h n -> becomes_close cmp t o n h -> exists h', r = Some h' /\ fle h' h = true) /\
  (forall h', r = Some h' -> fle y h' = true /\ exists n h, becomes_close cmp t o n h' /\ fle h' h = true /\ neighbour_at m west o h n).
Proof.
  intros L NY. destruct (row_at west o L) as (row & R & F & S). destruct (DOWN o L) as (_ & _ & i & _ & _ & HI & _).
  assert (V : forall y0 y1 n, In (y0, y1, Some n) (half_iter row) -> exists j, nth_error (t_orig t) n = Some j).
  { intros y0 y1 n H. destruct (half_end _ _ _ _ F H) as (_ & _ & Q). destruct (overlapping west o row y0 n R Q) as (i' & j & _ & E & _). eauto. }
  destruct (loop_total cmp (t_orig t) o i y HI (half_iter row) V) as (r & ER). exists r.
  assert (NB : forall h n, neighbour_at m west o h n <-> entries_neighbor_after row h = Some n).
  { intros h n. unfold neighbour_at, west_neighbor_after, east_neighbor_after, neighbor_after. destruct west; rewrite R; cbn [orerr rbind]; (split; [intros [= ->]; reflexivity|intros ->; reflexivity]). }
  split; [unfold close_after, close_neighbor_height_after; destruct west; rewrite R; exact ER|]. split.
  - intros h n L1 HN (i' & j & k & e & E1 & E2 & I). assert (i' = i) by congruence. subst i'. apply NB in HN. apply neighbor_period in HN. destruct HN as (y0 & y1 & HP & P0 & P1).
    destruct (half_end _ _ _ _ F HP) as (N0 & N1 & Q). destruct (overlapping west o row y0 n R Q) as (i2 & j2 & X1 & X2 & WF). assert (i2 = i /\ j2 = j) by (split; congruence). destruct H as [-> ->].
    apply in_split in HP as SPL. destruct SPL as (A & B & EQ). apply (loop_complete cmp (t_orig t) o i y HI NY (half_iter row) A y0 y1 n j B k h e r EQ); try assumption.
    intros p Hp. split; [eapply half_split; eassumption|]. destruct p as [[u v] w]. assert (X : In (u, v, w) (half_iter row)) by (rewrite EQ; apply in_or_app; left; exact Hp). apply (half_end _ _ _ _ F X).
  - intros h' ->. destruct (loop_sound cmp (t_orig t) o i y HI _ _ ER) as (y0 & y1 & n & j & k & e & HP & _ & HJ & I & L1 & L2). split; [exact L1|].
    destruct (half_end _ _ _ _ F HP) as (N0 & N1 & Q). destruct (flt_nonnan _ _ L2) as [Nh _]. exists n.
    assert (P01 : flt y0 y1 = true).
    { destruct (alive_entry west o row y0 _ R Q) as [(_ & C & _) _]. destruct (crosses_num _ _ _ C) as [_ YF]. apply in_split in HP. destruct HP as (A & B & EQ). clear - EQ S F YF N0 N1.
      revert A EQ. induction S as [|e0 l0 S IH FF]; intros A EQ; [destruct A; discriminate EQ|]. apply Forall_cons_iff in F. destruct F as [F1 F2]. rewrite half_iter_cons in EQ. destruct A as [|q A]; cbn [app] in EQ; [|injection EQ as _ EQ; eapply IH; eassumption].
      injection EQ as <- <- _ _. destruct l0 as [|e1 l0]; [exact YF|]. apply Forall_cons_iff in FF. destruct FF as [FF _]. unfold hlt, hkey in FF. fk. zb. lia. }
    exists (if fle y0 h' then h' else y0). split; [exists i, j, k, e; auto|]. destruct (fle y0 h') eqn:Z.
    + split; [fk; zb; lia|]. apply NB. eapply period_neighbor; eassumption.
    + split; [fk; zb; lia|]. apply NB. eapply period_neighbor; try eassumption. fk. zb. lia.
Qed.
End Close.

(** In the topology of a sweep, before or after merging, the query never panics.  It misses no height from [y] on at which the neighbour of the moment begins to be close;
    an answer is at or below [y], and a segment that is the neighbour then or further down begins to be close there. *)
Theorem close_heights_complete : forall (W T : Type) (ops : wops W T) tag a eps cmp ccmp min_x max_x lower upper at_y pps sort_by l,
  topo_input tag a eps cmp ccmp min_x max_x lower upper at_y pps sort_by l ->
  forall fuel buf, 2 * arena_len a < fuel ->
  exists t, process_lines ops a tag sort_by eps lower upper at_y fuel l buf (topo_new (arena_len a)) = Ok t /\
  forall t', t' = t \/ (exists close, merge_coincident ops close t = Ok t') ->
  exists m, build_scan_line_orders sort_by t' = Ok m /\
  forall order west o y, comparer_ok a order -> o < length (t_wind t') -> nan y = false ->
  exists r, close_after order t' m west o y = Ok r /\
    (forall h n, fle y h = true -> neighbour_at m west o h n -> becomes_close order t' o n h -> exists h', r = Some h' /\ fle h' h = true) /\
    (forall h', r = Some h' -> fle y h' = true /\ exists n h, becomes_close order t' o n h' /\ fle h' h = true /\ neighbour_at m west o h n).
Proof.
  intros W T ops tag a eps cmp ccmp min_x max_x lower upper at_y pps sort_by l IN fuel buf F.
  destruct (scan_exact ops tag a eps cmp ccmp min_x max_x lower upper at_y pps sort_by l IN fuel buf F) as (t & m & E & B & TB & EX & ROWS). exists t. split; [exact E|].
  destruct (topology_rings W T ops tag a eps cmp ccmp min_x max_x lower upper at_y pps sort_by l IN fuel buf F) as (t2 & R & E2 & _ & _ & _ & DOWN). rewrite E in E2. injection E2 as <-.
  intros t' H. assert (K : keeps t t') by (destruct H as [->|(close & H)]; [apply keeps_refl|eapply merge_keeps, H]). exists m. split; [rewrite (keeps_build t t' sort_by K); exact B|].
  intros order west o y CO L NY. apply (close_query a t' l m order); try assumption.
  - exact (ss_arena _ _ _ _ _ (ti_setting _ _ _ _ _ _ _ _ _ _ _ _ _ IN)).
  - exact (keeps_tables t t' m K TB).
  - intros h Hh. exact (keeps_exact t t' l m h K (EX h Hh)).
  - intros h. eapply order_nodup, IN.
  - intros o' row e HR HE. rewrite (kp_wind _ _ K), (keeps_crosses t t' _ _ K). eapply ROWS; eassumption.
  - exact (keeps_down a t t' K DOWN).
Qed.
Print Assumptions close_heights_complete.

(** ** The documentation ("the next height, greater than or equal to [y], at which [seg] has a close neighbor") does not hold: a neighbour that is close already is not reported. *)
From Verif Require Import SegmentsProofs4 PropsSegments PolyExample PropsWind.
Definition bow_cmp : nat -> nat -> curve_order := po_cmp po_eps (po_arena bowtie).
(** -999.75: the inner path's segments start at -1000 and are close until -999.5. *)
Definition bow_y : f64 := fdiv (f64_of_Z (-3999)) (f64_of_Z 4).
Definition is_none (r : res (option f64)) : bool := match r with Ok None => true | _ => false end.
Definition is_height (r : res (option f64)) (h : f64) : bool := match r with Ok (Some x) => feq x h | _ => false end.
Definition bow_close (f : topo Z -> scan_order -> bool) : bool :=
  match po_topo bowtie 100 100 with Ok t => match build_scan_line_orders (@isort) t with Ok m => f t m | Err _ => false end | Err _ => false end.
Definition bow_test (t : topo Z) (m : scan_order) : bool :=
  (match east_neighbor_after m 4 bow_y with Ok (Some n) => n =? 5 | _ => false end) && is_none (close_after bow_cmp t m false 4 bow_y) &&
  is_height (close_after bow_cmp t m false 4 (f64_of_Z (-1000))) (f64_of_Z (-1000)) &&
  (match nth_error (t_orig t) 4, nth_error (t_orig t) 5 with
   | Some i, Some j => match co_iter (bow_cmp i j) with (s, e, Ish) :: _ => flt s bow_y && flt bow_y e | _ => false end
   | _, _ => false end).
Theorem close_neighbour_not_reported : exists l t m,
  topo_input (po_tags bowtie) (po_arena bowtie) po_eps bow_cmp bow_cmp ex_min ex_max po_lo po_hi po_aty ex_pps (@isort) l /\
  process_lines i32_wops (po_arena bowtie) (po_tags bowtie) (@isort) po_eps po_lo po_hi po_aty 100 l [] (topo_new (arena_len (po_arena bowtie))) = Ok t /\
  build_scan_line_orders (@isort) t = Ok m /\
  exists o n y i j k s e, neighbour_at m false o y n /\ nth_error (t_orig t) o = Some i /\ nth_error (t_orig t) n = Some j /\
    interval (bow_cmp i j) k s e Ish /\ flt s y = true /\ flt y e = true /\
    close_after bow_cmp t m false o y = Ok None.
Proof.
  destruct bowtie_winding as (l & E & IN & _).
  assert (X : bow_close bow_test = true) by (vm_compute; reflexivity). unfold bow_close, po_topo in X. rewrite E in X. cbn [rbind] in X. exists l.
  destruct (process_lines _ _ _ _ _ _ _ _ 100 l [] _) as [t|]; [|discriminate X]. exists t. destruct (build_scan_line_orders (@isort) t) as [m|]; [|discriminate X]. exists m.
  split; [exact IN|]. split; [reflexivity|]. split; [reflexivity|]. unfold bow_test in X. apply andb_true_iff in X. destruct X as [X X4]. apply andb_true_iff in X. destruct X as [X X3]. apply andb_true_iff in X. destruct X as [X1 X2].
  destruct (nth_error (t_orig t) 4) as [i|] eqn:E4; [|discriminate X4]. destruct (nth_error (t_orig t) 5) as [j|] eqn:E5; [|discriminate X4].
  destruct (co_iter (bow_cmp i j)) as [|[[s e] []] r] eqn:EI; try discriminate X4. apply andb_true_iff in X4. destruct X4 as [X4 X5].
  exists 4, 5, bow_y, i, j, 0, s, e. split; [|split; [exact E4|split; [exact E5|split; [|split; [exact X4|split; [exact X5|]]]]]].
  - unfold neighbour_at. destruct (east_neighbor_after m 4 bow_y) as [[n|]|]; try discriminate X1. apply Nat.eqb_eq in X1. subst n. reflexivity.
  - apply iter_interval. rewrite EI. reflexivity.
  - unfold is_none in X2. destruct (close_after bow_cmp t m false 4 bow_y) as [[h|]|]; try discriminate X2. reflexivity.
Qed.
Print Assumptions close_neighbour_not_reported.

(** The hypotheses of [close_heights_complete] are met by the bow tie, whose comparison is sound; at -1000 the query for segment 4 answers -1000. *)
Example bowtie_close : exists l, po_sweep bowtie 100 100 = Ok (l, true) /\
  topo_input (po_tags bowtie) (po_arena bowtie) po_eps bow_cmp bow_cmp ex_min ex_max po_lo po_hi po_aty ex_pps (@isort) l /\ comparer_ok (po_arena bowtie) bow_cmp /\
  bow_close (fun t m => (4 <? length (t_wind t)) && is_height (close_after bow_cmp t m false 4 (f64_of_Z (-1000))) (f64_of_Z (-1000))) = true.
Proof.
  destruct bowtie_winding as (l & E & IN & _). exists l. split; [exact E|]. split; [exact IN|]. split; [exact (ss_ccmp _ _ _ _ _ (ti_setting _ _ _ _ _ _ _ _ _ _ _ _ _ IN))|]. vm_compute. reflexivity.
Qed.
