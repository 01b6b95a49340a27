(** Property theorems about merging coincident segments: C33. *)
From Coq Require Import List Bool ZArith Arith Lia Permutation Sorted.
From Verif Require Import F64 F64Arith TreeVecModel GeomModel SegmentsModel SegmentsSpec SegmentsProofs CurveOrderModel CurveOrderProofs SweepModel SweepSpec
  SweepProofs2 SweepProofs7 SweepProofs8 SweepProofs10 RangeModel RangeSpec RangeProofs3 RangeProofs4 RangeProofs5 PropsSweep PropsRange TopoModel TopoSpec TopoProofs TopoProofs2 TopoProofs3 TopoProofs4
  TopoProofs5 TopoProofs6 TopoProofs7 TopoProofs8 TopoProofs9 TopoProofs10 PropsTopo ContoursModel ContoursSpec WindSpec WindProofs WindProofs2 WindProofs3 WindProofs4 WindProofs5 PropsWind
  BinOpModel PropsBinOp PropsContours
  MergeSpec MergeProofs MergeProofs2 MergeProofs3 MergeProofs4 MergeProofs5.
Import ListNotations.

(** The output segments before merging are arranged as the proof about merging expects. *)
Lemma premerge_run : forall (W T : Type) (ops : wops W T) tag a eps cmp ccmp min_x max_x lower upper at_y pps sort_by l close,
  wops_ok ops -> units ops -> topo_input tag a eps cmp ccmp min_x max_x lower upper at_y pps sort_by l -> closed_contours a tag ->
  starts_in_box a eps lower upper -> close_sound a eps lower upper close (map sw_y l) ->
  forall fuel buf, 2 * arena_len a < fuel ->
  exists t V, process_lines ops a tag sort_by eps lower upper at_y fuel l buf (topo_new (arena_len a)) = Ok t /\ premerge close t V.
Proof.
  intros W T ops tag a eps cmp ccmp min_x max_x lower upper at_y pps sort_by l close OK UN IN CC SIB CLS fuel buf F.
  pose proof (ss_arena _ _ _ _ _ (ti_setting _ _ _ _ _ _ _ _ _ _ _ _ _ IN)) as SP. pose proof (ti_tags _ _ _ _ _ _ _ _ _ _ _ _ _ IN) as TAG. pose proof (ti_orient _ _ _ _ _ _ _ _ _ _ _ _ _ IN) as ORI.
  set (MIx := fun s before pos (t : topo W) R O => ends a s before pos t R O /\ winv ops tag a s before pos t R O /\ exists V, MI a eps lower upper (map sw_y l) s before pos t R O V).
  destruct (run_rule ops tag a eps cmp ccmp min_x max_x lower upper at_y pps sort_by l IN MIx
    (fun s => In s l /\ reaches a eps lower upper s /\ forall c, In c (sw_changed s) -> corners_together a s c) fuel buf)
    as (t & R & O & s & before & E & [LI0 RI] & HO & EN & WI & V & M).
  - intros s Hs. split; [exact Hs|]. split.
    + destruct IN as [SET PS _ _ (f & n & RUN) BOX]. destruct (line_post a eps cmp ccmp min_x max_x lower upper pps sort_by SET _ _ _ _ s RUN Hs) as (P & p & TT). exact (step_at _ _ _ _ _ _ _ _ _ P TT).
    + intros c Hc. eapply corners_stay_together; eassumption.
  - intros s before p q t R O _ TL L _ G (H1 & H2 & V & H3). split; [eapply ends_gap; eassumption|]. split; [eapply winv_gap; eassumption|]. exists V. eapply MI_gap; eassumption.
  - intros s before c evs vs t R O t' R' O' (G0 & GR & G) RS (H1 & H2 & V & H3). pose proof (G c (rs_in _ _ _ _ _ _ _ _ _ _ _ _ _ _ _ _ _ _ _ RS)) as G3.
    split; [eapply (ends_range ops a tag); eassumption|]. split; [eapply winv_range; eassumption|]. eexists. eapply (MI_range ops a tag); try eassumption. apply in_map, G0.
  - intros s before s' before' t R O _ TL E K _ _ (H1 & H2 & V & H3). split; [eapply (ends_line a tag); eassumption|]. split; [eapply winv_line; eassumption|]. exists V. eapply MI_line; try eassumption. apply H2.
  - split; [constructor; [constructor|intros o x y (p & r & H & _); destruct p; discriminate|intros; discriminate|intros h x i (p & r & H & _); destruct p; discriminate]|].
    split; [eapply winv_start; eassumption|]. exists []. apply MI_start.
  - exact F.
  - assert (NO : forall o, ~ opened none O none o) by (intros o (i & [H|[H|H]]); [discriminate|rewrite HO in H; discriminate|discriminate]).
    assert (RI' : rings t (fun h => h_idx h < length (t_wind t)) R).
    { eapply rings_live; [|exact RI]. intros h. unfold placed_half. split; [tauto|]. intros L. split; [exact L|]. right. apply NO. }
    assert (LT : forall h p, pt t h = Some p -> h_idx h < length (t_wind t)).
    { intros h p H. rewrite <- (li_pidx _ _ _ _ _ LI0). unfold pt, hv_get in H. apply nth_error_Some. destruct (nth_error (t_pidx t) (h_idx h)); [discriminate|destruct (h_first h); discriminate]. }
    assert (AT : forall h x, ends_at t h x -> at_vertex t R h x).
    { intros h x (p & P & X). assert (Y : In h (concat R)) by (apply (ri_all _ _ _ RI'), (LT h p P)). apply in_concat in Y. destruct Y as (r & Hr & Hh). apply In_nth_error in Hr. destruct Hr as [q Hr].
      exists q, r. split; [exact Hr|]. split; [exact Hh|]. pose proof (ri_at _ _ _ RI' q r h Hr Hh). congruence. }
    assert (NUM : forall x p, nth_error (t_points t) p = Some x -> point_nonnan x).
    { intros x p X. pose proof (en_num _ _ _ _ _ _ _ EN) as N. rewrite Forall_forall in N. apply N. eapply nth_error_In, X. }
    assert (INY : forall x p, nth_error (t_points t) p = Some x -> In (py x) (map sw_y l)).
    { intros x p X. pose proof (mi_pts _ _ _ _ _ _ _ _ _ _ _ _ M) as N. rewrite Forall_forall in N. apply N. eapply nth_error_In, X. }
    exists t, V. split; [exact E|]. pose proof (mi_R _ _ _ _ _ _ _ _ _ _ _ _ M) as ER. constructor.
    + rewrite <- ER. exact RI'.
    + exact (mi_laid _ _ _ _ _ _ _ _ _ _ _ _ M).
    + exact (li_del _ _ _ _ _ LI0).
    + exact (li_nbrs _ _ _ _ _ LI0).
    + exact (li_west _ _ _ _ _ LI0).
    + exact (li_orig _ _ _ _ _ LI0).
    + rewrite <- ER. exact (wv_rings _ _ _ _ _ _ _ _ _ WI).
    + intros o w H X. destruct (wv_steps _ _ _ _ _ _ _ _ _ WI o) as (w' & i & g & b & H1 & _ & _ & _ & H2); [apply nth_error_Some; congruence|]. assert (w' = w) by congruence. subst w'. rewrite X in H2.
      apply (UN g b). destruct OK as [AS CM ZE IV _ _]. destruct (IV (wn_ccw w)) as (z & Hz). rewrite <- (ZE (w_single ops g b)), <- Hz, (CM (wn_ccw w) z), <- AS, <- H2, CM. reflexivity.
    + intros v o x y Hv Ho (p & P & X) (q & Q & Y). pose proof (mi_slant _ _ _ _ _ _ _ _ _ _ _ _ M v o x y Hv Ho (AT _ _ (ex_intro _ p (conj P X))) (AT _ _ (ex_intro _ q (conj Q Y)))) as K.
      destruct (NUM _ _ X) as [_ N1], (NUM _ _ Y) as [_ N2]. fk. zb. lia.
    + intros v o x y Hv Ho (p & P & X) (q & Q & Y). apply In_nth_error in Hv. destruct Hv as [k Hk]. assert (NE : co_out v <> []) by (intros Z; rewrite Z in Ho; destruct Ho).
      destruct (mi_flat _ _ _ _ _ _ _ _ _ _ _ _ M k v Hk NE) as (x' & z & X' & Z & EY). destruct (laid_next _ _ _ _ _ _ (mi_laid _ _ _ _ _ _ _ _ _ _ _ _ M) Hk NE) as (u & Hu & Eu).
      assert (p = k). { assert (QR : nth_error R k = Some (cring v)) by (rewrite ER, nth_error_map, Hk; reflexivity). assert (IH : In (first_half o) (cring v)) by (apply in_cring; left; eauto). pose proof (ri_at _ _ _ RI' _ _ _ QR IH). congruence. }
      assert (q = S k). { assert (QR : nth_error R (S k) = Some (cring u)) by (rewrite ER, nth_error_map, Hu; reflexivity). assert (IH : In (second_half o) (cring u)) by (apply in_cring; right; right; exists o; rewrite Eu; auto). pose proof (ri_at _ _ _ RI' _ _ _ QR IH). congruence. }
      subst p q. assert (x' = x) by congruence. assert (z = y) by congruence. subst. rewrite EY. destruct (NUM _ _ Y) as [_ N]. fk. zb. lia.
    + intros o x y X Y. exact (en_lt _ _ _ _ _ _ _ EN o x y (AT _ _ X) (AT _ _ Y)).
    + exact (mi_west _ _ _ _ _ _ _ _ _ _ _ _ M).
    + exact (mi_next _ _ _ _ _ _ _ _ _ _ _ _ M).
    + intros v o x y i j p r Hv H1 H2 PE X Y Gi Gj CL Hr Hh. rewrite <- ER in Hr.
      assert (H2r : In (second_half (S o)) r).
      { pose proof (ri_at _ _ _ RI' _ _ _ Hr Hh) as Q. rewrite PE in Q. pose proof (LT _ _ Q) as L. apply (ri_all _ _ _ RI') in L. apply in_concat in L. destruct L as (r' & R1 & R2). apply In_nth_error in R1. destruct R1 as [q R1].
        pose proof (ri_at _ _ _ RI' _ _ _ R1 R2). assert (q = p) by congruence. subst q. assert (r' = r) by congruence. subst r'. exact R2. }
      destruct (mi_done _ _ _ _ _ _ _ _ _ _ _ _ M v o i j x y p r Hv H1 H2 Gi Gj (AT _ _ X) (AT _ _ Y) Hr Hh H2r) as [D|(z & N & IZ & K & FL)]; [exact D|exfalso].
      destruct (en_span _ _ _ _ _ _ _ EN (first_half o) x i (AT _ _ X) Gi) as (RG1 & _).
      assert (RG2 : registered a j). { assert (X2 : exists x2, at_vertex t R (first_half (S o)) x2).
        { apply In_nth_error in Hv. destruct Hv as [k Hk]. exists x. exists k, (cring v). split; [rewrite ER, nth_error_map, Hk; reflexivity|]. split; [apply in_cring; right; left; eauto|].
          destruct X as (q & Q & X). assert (QR : nth_error R k = Some (cring v)) by (rewrite ER, nth_error_map, Hk; reflexivity). assert (IH : In (first_half o) (cring v)) by (apply in_cring; right; left; eauto). pose proof (ri_at _ _ _ RI' _ _ _ QR IH). congruence. }
        destruct X2 as (x2 & X2). apply (en_span _ _ _ _ _ _ _ EN (first_half (S o)) x2 j X2 Gj). }
      destruct X as (p1 & P1 & X), Y as (p2 & P2 & Y). destruct (NUM _ _ X) as [_ N1], (NUM _ _ Y) as [_ N2].
      assert (C : fle (fsub (lower (seg_def a j) z eps) eps) (fadd (upper (seg_def a i) z eps) eps) = true); [|congruence].
      apply (CLS i j (py x) (py y) z); try assumption; [eapply INY; eassumption|eapply INY; eassumption|fk; zb; lia|fk; zb; lia].
Qed.

(** ** C33 *)
(** Merging succeeds.  It keeps points, ends, and origins of the output segments.  The half-segments that remain are arranged in rings round
    the points, and winding numbers still agree round each point.  The output segments fall into groups that join the same
    points; crossing a group changes the winding number exactly as before: what remains of it is nothing, if its two outer sides have the same winding
    number, or else one segment with the winding numbers of the outer sides.  In particular no segment that remains has the same winding
    number on both sides.  At most one horizontal segment that remains leaves each point to the right, and of two neighbours found coincident at most
    one remains. *)
Theorem merging_sound : forall (W T : Type) (ops : wops W T) tag a eps cmp ccmp min_x max_x lower upper at_y pps sort_by l close,
  wops_ok ops -> units ops -> topo_input tag a eps cmp ccmp min_x max_x lower upper at_y pps sort_by l -> closed_contours a tag ->
  starts_in_box a eps lower upper -> close_sound a eps lower upper close (map sw_y l) ->
  forall fuel buf, 2 * arena_len a < fuel ->
  exists t t', process_lines ops a tag sort_by eps lower upper at_y fuel l buf (topo_new (arena_len a)) = Ok t /\ merge_coincident ops close t = Ok t' /\
    same_layout t t' /\ well_formed t' /\
    (exists G, concat G = seq 0 (length (t_wind t)) /\ Forall (merged t t') G) /\
    (forall o w, remains t' o -> nth_error (t_wind t') o = Some w -> wn_cw w <> wn_ccw w) /\
    (forall i j, remains t' i -> remains t' j -> level t i -> level t j -> pt t (first_half i) = pt t (first_half j) -> i = j) /\
    (forall o m, found_coincident close t o m -> ~ (remains t' o /\ remains t' m)).
Proof.
  intros W T ops tag a eps cmp ccmp min_x max_x lower upper at_y pps sort_by l close OK UN IN CC SIB CLS fuel buf F.
  destruct (premerge_run W T ops tag a eps cmp ccmp min_x max_x lower upper at_y pps sort_by l close OK UN IN CC SIB CLS fuel buf F) as (t & V & E & PM).
  destruct (merge_all ops close (wo_eqb _ OK) t V PM) as (t' & E' & [SO FU (G & GC & GM) TH TI]). exists t, t'. split; [exact E|]. split; [exact E'|]. pose proof (so_frame _ _ _ SO) as FR.
  assert (LD : length (t_deleted t) = length (t_wind t)) by (rewrite (pm_del _ _ _ PM), repeat_length; reflexivity).
  assert (LO : forall o b, remains t' o -> exists p v x, nth_error V p = Some v /\ In (mkHalf o b) (cring v) /\ pt t (mkHalf o b) = Some p /\ nth_error (t_points t) p = Some x).
  { intros o b Ro. apply (all_ends close t V PM). rewrite <- LD, <- (fr_del _ _ FR). apply nth_error_Some. unfold remains in Ro. congruence. }
  assert (DN : forall p v o, nth_error V p = Some v -> In (first_half o) (cring v) -> ~ level t o -> In o (co_down v)).
  { intros p v o Ev Hh NL. apply in_cring in Hh. destruct Hh as [(k & Ik & X)|[(k & Ik & X)|(k & _ & X)]]; [exfalso|injection X as ->; exact Ik|discriminate]. injection X as ->.
    destruct (pt_at close t V PM p v (first_half k) Ev) as [P L]; [apply in_cring; left; eauto|]. cbn in L.
    destruct (ends_ex close t V PM k true L) as (_ & x & _ & _ & X), (ends_ex close t V PM k false L) as (_ & y & _ & _ & Y). apply NL. exists x, y. split; [exact X|]. split; [exact Y|].
    pose proof (pm_flat _ _ _ PM v k x y (nth_error_In _ _ Ev) Ik X Y) as Q. unfold fne in Q. apply negb_false_iff in Q. exact Q. }
  assert (OU : forall p v o, nth_error V p = Some v -> In (first_half o) (cring v) -> level t o -> In o (co_out v)).
  { intros p v o Ev Hh (x & y & X & Y & LV). apply in_cring in Hh. destruct Hh as [(k & Ik & Z)|[(k & Ik & Z)|(k & _ & Z)]]; [injection Z as ->; exact Ik|exfalso|discriminate]. injection Z as ->.
    pose proof (pm_slant _ _ _ PM v k x y (nth_error_In _ _ Ev) Ik X Y) as Q. unfold fne in Q. unfold feq in LV. rewrite LV in Q. discriminate. }
  split; [|split; [|split; [|split; [|split]]]].
  - destruct FR. repeat split; assumption.
  - constructor.
    + exists (now (map cring V) t'). split; [exact (so_rings _ _ _ SO)|]. intros p r Hr. pose proof (so_agree _ _ _ SO) as A. rewrite Forall_forall in A. specialize (A r (nth_error_In _ _ Hr)).
      eapply Forall_impl; [|exact A]. intros [h k] (w & A1 & A2). cbn [fst snd] in *. congruence.
    + rewrite (fr_del _ _ FR), (fr_wind _ _ FR). exact LD.
    + rewrite (fr_west _ _ FR), (fr_wind _ _ FR). exact (pm_lwest _ _ _ PM).
    + intros o w. rewrite (fr_west _ _ FR). apply (pm_west _ _ _ PM).
  - exists G. split; [exact GC|exact GM].
  - intros o w Ro Hw. assert (Lo : o < length (t_wind t)) by (rewrite <- (fr_wind _ _ FR); apply nth_error_Some; congruence).
    assert (X : In o (concat G)) by (rewrite GC; apply in_seq; lia). apply in_concat in X. destruct X as (g & Hg & Ho). rewrite Forall_forall in GM. destruct (GM g Hg) as (o' & r & u & u' & -> & _ & _ & DR & CASE).
    destruct Ho as [->|Ho]; [|apply DR in Ho; unfold removed, remains in *; congruence]. destruct CASE as [[_ X]|(NE & _ & X)]; [unfold removed, remains in *; congruence|].
    rewrite X in Hw. injection Hw as <-. cbn. exact NE.
  - intros i j Ri Rj Vi Vj PE. destruct (LO i true Ri) as (p & v & x & Ev & Hi & Pi & _), (LO j true Rj) as (q & u & y & Eu & Hj & Pj & _). change (mkHalf i true) with (first_half i) in *. change (mkHalf j true) with (first_half j) in *.
    assert (p = q) by congruence. subst q. assert (u = v) by congruence. subst u.
    apply (TH v i j); try assumption; [eapply nth_error_In; exact Ev|exact (OU p v i Ev Hi Vi)|exact (OU p v j Ev Hj Vj)| |]; rewrite <- LD, <- (fr_del _ _ FR); apply nth_error_Some; unfold remains in *; congruence.
  - intros o m (WE & [S1 S2] & NL & x & y & i & j & X & Y & Gi & Gj & CL) [Ro Rm]. destruct (LO m true Rm) as (p & v & x' & Ev & Hm & Pm & _), (LO o true Ro) as (q & u & y' & Eu & Hq & Pq & _).
    change (mkHalf m true) with (first_half m) in *. change (mkHalf o true) with (first_half o) in *. assert (p = q) by congruence. subst q. assert (u = v) by congruence. subst u.
    pose proof (DN p v m Ev Hm NL) as Dm. assert (Do : In o (co_down v)).
    { apply (DN p v o Ev Hq). intros (x1 & y1 & (a1 & A1 & A2) & (a2 & A3 & A4) & LV). apply NL. exists x1, y1. split; [exists a1; split; [congruence|exact A2]|]. split; [exists a2; split; [congruence|exact A4]|exact LV]. }
    pose proof (pm_west _ _ _ PM _ _ WE) as LW. destruct (laid_at _ _ _ _ _ _ (pm_laid _ _ _ PM) Ev) as (B & _ & B1 & _). pose proof Do as Do'. pose proof Dm as Dm'. rewrite B1 in Do', Dm'. apply in_seq in Do', Dm'.
    assert (Ip : In (m - 1) (co_down v)) by (rewrite B1; apply in_seq; lia). pose proof (pm_next _ _ _ PM v (m - 1) (nth_error_In _ _ Ev) Ip) as NX. replace (S (m - 1)) with m in NX by lia. specialize (NX Dm). rewrite WE in NX. injection NX as NX.
    assert (Em : m = S o) by lia. subst m. clear NX Ip. apply (TI v o (nth_error_In _ _ Ev)); try assumption.
    + split; [exact Do|]. split; [exact Dm|]. split; [exact S2|]. exists x, y, i, j. destruct X as (a1 & A1 & A2), Y as (a2 & A3 & A4).
      split; [exists a1; split; [congruence|exact A2]|]. split; [exists a2; split; [congruence|exact A4]|]. auto.
    + rewrite <- LD, <- (fr_del _ _ FR). apply nth_error_Some. unfold remains in Rm. congruence.
Qed.

(** ** From the segments to the contours *)
(** If the sweep finishes, building the topology succeeds, and so does finding its contours: they are closed walks along exactly the boundary,
    visit each point at most once, and are nested as parents and children. *)
Theorem from_segments_sound : forall (W T : Type) (ops : wops W T) tag a eps cmp ccmp min_x max_x lower upper at_y pps sort_by l close,
  wops_ok ops -> units ops -> topo_input tag a eps cmp ccmp min_x max_x lower upper at_y pps sort_by l -> closed_contours a tag ->
  starts_in_box a eps lower upper -> close_sound a eps lower upper close (map sw_y l) ->
  forall fuel n, 2 * arena_len a < fuel -> sweep a eps cmp ccmp min_x max_x lower upper pps sort_by fuel n 0 (sweeper_new a) = Ok (l, true) ->
  exists t, from_segments ops a tag eps cmp ccmp min_x max_x lower upper at_y pps sort_by close fuel n = Ok t /\ well_formed t /\
  (forall o w, remains t o -> nth_error (t_wind t) o = Some w -> wn_cw w <> wn_ccw w) /\
  forall inside, exists cs, contours t inside = Ok cs /\
    NoDup (map h_idx (concat (map c_segs cs))) /\
    (forall o, In o (map h_idx (concat (map c_segs cs))) <-> boundary t inside o) /\
    Forall (fun c => closed_walk t (c_segs c) /\ set_on_left t inside (c_segs c) /\ visits_once t (c_segs c)) cs /\ contour_forest cs.
Proof.
  intros W T ops tag a eps cmp ccmp min_x max_x lower upper at_y pps sort_by l close OK UN IN CC SIB CLS fuel n F RUN.
  destruct (merging_sound W T ops tag a eps cmp ccmp min_x max_x lower upper at_y pps sort_by l close OK UN IN CC SIB CLS fuel [] F) as (t0 & t & E1 & E2 & _ & WF & _ & NZ & _).
  exists t. split; [unfold from_segments; rewrite RUN; cbv beta iota; cbn [negb rbind]; rewrite E1; exact E2|]. split; [exact WF|]. split; [exact NZ|]. intros inside.
  destruct (contours_partition W t inside WF) as (cs & C & N & B & FC). exists cs. split; [exact C|]. split; [exact N|]. split; [exact B|].
  pose proof (contours_simple W t inside cs WF C) as S. destruct (contours_nest W t inside cs WF C) as [NE _]. split; [|exact NE].
  rewrite Forall_forall in *. intros c Hc. destruct (FC c Hc) as [X Y]. split; [exact X|]. split; [exact Y|apply S, Hc].
Qed.

(** ** The hypotheses are met *)
From Verif Require Import SegmentsProofs4 PropsSegments PolyExample.
(** The winding numbers in use. *)
Lemma unary_units : units unary_i32_wops.
Proof. intros g [|] E; apply (f_equal i32_val) in E; vm_compute in E; discriminate. Qed.
Lemma binary_units : units binary_i32_wops.
Proof. intros [|] [|] E; first [apply (f_equal (fun w => i32_val (shape_a w))) in E; vm_compute in E; discriminate|apply (f_equal (fun w => i32_val (shape_b w))) in E; vm_compute in E; discriminate]. Qed.
Lemma unary_Z_units : units i32_wops.
Proof. intros g [|] E; discriminate E. Qed.

Definition close_b (a : arena) (ys : list f64) : bool :=
  forallb (fun i => forallb (fun j => forallb (fun y0 => forallb (fun y1 => negb (po_close a j i y0 y1) || forallb (fun y => negb (fle y0 y && fle y y1) ||
    fle (fsub (po_lo (seg_def a j) y po_eps) po_eps) (fadd (po_hi (seg_def a i) y po_eps) po_eps)) ys) ys) ys) (seq 0 (arena_len a))) (seq 0 (arena_len a)).
Definition starts_b (a : arena) : bool :=
  forallb (fun i => forallb (fun y => fle (fsub (po_lo (seg_def a i) y po_eps) po_eps) (px (seg_start (seg_def a i))) &&
    fle (px (seg_start (seg_def a i))) (fadd (po_hi (seg_def a i) y po_eps) po_eps)) (zeros (start_y a i))) (seq 0 (arena_len a)).
Lemma close_b_ok a ys : sweepable a -> close_b a ys = true -> close_sound a po_eps po_lo po_hi (po_close a) ys.
Proof.
  intros SP H i j y0 y1 y Ri Rj I0 I1 I2 C L1 L2. unfold close_b in H. rewrite forallb_forall in H. specialize (H i ltac:(apply in_seq; pose proof (registered_lt _ SP _ Ri); lia)).
  rewrite forallb_forall in H. specialize (H j ltac:(apply in_seq; pose proof (registered_lt _ SP _ Rj); lia)). rewrite forallb_forall in H. specialize (H y0 I0).
  rewrite forallb_forall in H. specialize (H y1 I1). rewrite C in H. cbn [negb orb] in H. rewrite forallb_forall in H. specialize (H y I2). rewrite L1, L2 in H. exact H.
Qed.
Lemma starts_b_ok a : sweepable a -> starts_b a = true -> starts_in_box a po_eps po_lo po_hi.
Proof.
  intros SP H i y Ri _ E. unfold starts_b in H. rewrite forallb_forall in H. specialize (H i ltac:(apply in_seq; pose proof (registered_lt _ SP _ Ri); lia)).
  rewrite forallb_forall in H. specialize (H y (zeros_in _ _ E)). apply andb_true_iff in H. exact H.
Qed.
Definition all_b (pss : list (list point)) : bool :=
  match po_sweep pss 100 100 with Ok (l, d) => d && forallb (fun s => boxes_b (po_arena pss) po_eps po_lo po_hi (sw_y s) (sw_line s)) l | Err _ => false end &&
  closed_b (po_arena pss) && starts_b (po_arena pss) &&
  match po_sweep pss 100 100 with Ok (l, _) => close_b (po_arena pss) (map sw_y l) | Err _ => false end.
(** The polygons meet all hypotheses. *)
Definition mergeable (pss : list (list point)) : Prop := exists l, po_sweep pss 100 100 = Ok (l, true) /\
  wops_ok i32_wops /\ units i32_wops /\
  topo_input (po_tags pss) (po_arena pss) po_eps (po_cmp po_eps (po_arena pss)) (po_cmp po_eps (po_arena pss)) ex_min ex_max po_lo po_hi po_aty ex_pps (@isort) l /\
  closed_contours (po_arena pss) (po_tags pss) /\
  starts_in_box (po_arena pss) po_eps po_lo po_hi /\ close_sound (po_arena pss) po_eps po_lo po_hi (po_close (po_arena pss)) (map sw_y l).
Lemma mergeable_b pss : po_ok pss = true -> all_b pss = true -> mergeable pss.
Proof.
  intros OK A. unfold all_b in A. rewrite !andb_true_iff in A. destruct A as (((B & C) & S) & D). destruct (po_input pss 100 100 OK B) as (l & E & IN). exists l. split; [exact E|].
  rewrite E in D. pose proof (ss_arena _ _ _ _ _ (ti_setting _ _ _ _ _ _ _ _ _ _ _ _ _ IN)) as SP.
  split; [exact unary_Z_ok|]. split; [exact unary_Z_units|]. split; [exact IN|]. split; [apply closed_ok, C|]. split; [apply starts_b_ok; assumption|apply close_b_ok; assumption].
Qed.

(** Two copies of a triangle: the two copies of each side merge into one with the outer winding numbers.  A triangle and its reverse: nothing remains. *)
Definition tri : list point := [pt 0 0; pt 4000 8000; pt (-4000) 8000].
Example twice_ok : mergeable [tri; tri].
Proof. apply mergeable_b; vm_compute; reflexivity. Qed.
Example twice_merged : match po_from [tri; tri] 100 100 with
  | Ok t => (t_deleted t, map (fun w => (wn_cw w, wn_ccw w)) (t_wind t)) = ([false; true; false; true; false; true], [(0, -2); (-1, -2); (-2, 0); (-1, 0); (0, -2); (-1, -2)]%Z) | Err _ => False end.
Proof. vm_compute. reflexivity. Qed.
Example opposite_ok : mergeable [tri; rev tri].
Proof. apply mergeable_b; vm_compute; reflexivity. Qed.
Example opposite_merged : match po_from [tri; rev tri] 100 100 with Ok t => t_deleted t = [true; true; true; true; true; true] | Err _ => False end.
Proof. vm_compute. reflexivity. Qed.

(** ** C56 *)
Definition three : list (list point) := [tri; tri; tri].
Lemma three_ok : mergeable three.
Proof. apply mergeable_b; vm_compute; reflexivity. Qed.
(** Merging is not complete: three copies of a triangle leave two output segments with the same ends, running along copies of the
    same side, although the closeness test accepts the pair. *)
Theorem coincident_left : mergeable three /\ exists t i j x y k m, po_from three 100 100 = Ok t /\ i <> j /\ remains t i /\ remains t j /\ same_ends t i j /\ ~ level t i /\ ends_at t (first_half i) x /\ ends_at t (second_half i) y /\ nth_error (t_orig t) i = Some k /\ nth_error (t_orig t) j = Some m /\ point_eq (seg_start (seg_def (po_arena three) k)) (seg_start (seg_def (po_arena three) m)) = true /\
  point_eq (seg_end (seg_def (po_arena three) k)) (seg_end (seg_def (po_arena three) m)) = true /\ po_close (po_arena three) m k (py x) (py y) = true.
Proof.
  split; [exact three_ok|]. destruct (po_from three 100 100) as [t|] eqn:E; [|exfalso; assert (X : match po_from three 100 100 with Ok _ => True | _ => False end) by (vm_compute; exact I); rewrite E in X; exact X].
  assert (V : match po_from three 100 100 with
    | Ok t => (map (nth_error (t_deleted t)) [0; 2], map (nth_error (t_orig t)) [0; 2], map (TopoSpec.pt t) [first_half 0; second_half 0; first_half 2; second_half 2]) =
              ([Some false; Some false], [Some 8; Some 2], [Some 0; Some 1; Some 0; Some 1]) | _ => False end) by (vm_compute; reflexivity).
  rewrite E in V. cbn [map] in V. injection V as D0 D2 O0 O2 P1 P2 P3 P4.
  assert (Y : match po_from three 100 100 with
    | Ok t => match nth_error (t_points t) 0, nth_error (t_points t) 1 with Some x, Some y => negb (feq (py x) (py y)) && po_close (po_arena three) 2 8 (py x) (py y) | _, _ => false end | _ => false end = true) by (vm_compute; reflexivity).
  rewrite E in Y. destruct (nth_error (t_points t) 0) as [x|] eqn:X0; [|discriminate Y]. destruct (nth_error (t_points t) 1) as [y|] eqn:X1; [|discriminate Y]. apply andb_true_iff in Y. destruct Y as [Y1 Y2].
  exists t, 0, 2, x, y, 8, 2. split; [reflexivity|]. split; [discriminate|]. split; [exact D0|]. split; [exact D2|]. split; [split; congruence|]. split; [|split; [|split; [|split; [exact O0|split; [exact O2|split; [|split; [|exact Y2]]]]]]].
  - intros (x' & y' & (p & Q1 & Q2) & (q & Q3 & Q4) & EQ). assert (x' = x) by congruence. assert (y' = y) by congruence. subst. unfold feq in *. rewrite EQ in Y1. discriminate Y1.
  - exists 0. auto.
  - exists 1. auto.
  - vm_compute. reflexivity.
  - vm_compute. reflexivity.
Qed.
Print Assumptions merging_sound.
Print Assumptions from_segments_sound.
Print Assumptions coincident_left.
