(** C90: Boolean operations from the input paths to the drawn contours. *)
From Coq Require Import List Bool ZArith Arith Lia Reals.
From Flocq Require Import Core BinarySingleNaN.
From Verif Require Import F64 F64Arith TreeVecModel GeomModel SegmentsModel SegmentsSpec SegmentsProofs SegmentsProofs2 SegmentsProofs3 SegmentsProofs4 SegmentsProofs5 CurveOrderModel CurveOrderProofs SweepModel SweepSpec RangeModel RangeSpec TopoModel TopoSpec BinOpModel ContoursModel ContoursSpec
  WindSpec MergeSpec FromPathsModel FromPathsProofs ScanModel PosModel PosSpec PropsSegments PropsBinOp PropsTopo PropsContours PropsWind PropsFromPaths PropsMerge PropsPos PathModel PathSpec PropsPath BinaryModel.
Import ListNotations.

(** ** What the numerical parts have to provide *)
(** The conditions of the theorems about the single parts: positions within their numbers, sound comparison tables, searches that find a boundary, a sort that sorts, and
    boxes that contain the start of their segment. *)
Record numerics_fit (N : numerics) (a : arena) (eps : f64) : Prop := {
  nf_at_y : forall s, In s (segs a) -> at_y_ok (nm_at_y N) s;
  nf_cmp : comparer_ok a (nm_cmp N a eps);
  nf_ccmp : comparer_ok a (nm_ccmp N a eps);
  nf_pcmp : comparer_ok a (nm_pcmp N a eps);
  nf_search : forall t, search_ok (fst (nm_pps N t)) /\ search_ok (snd (nm_pps N t)) /\ search_mono (snd (nm_pps N t));
  nf_pop : heap_ok (nm_pop N);
  nf_positions : positions_numbers a eps (nm_lower N) (nm_upper N) (nm_at_y N);
  nf_starts : starts_in_box a eps (nm_lower N) (nm_upper N) }.
(** The sweep ends after at most [n] steps, and the lines [l] it went through are weakly ordered; segments found coincident have overlapping boxes. *)
Definition sweep_fits (N : numerics) (a : arena) (eps : f64) (fuel n : nat) (l : list sweeper) : Prop :=
  sweep_binary N a eps fuel n = Ok (l, true) /\
  (forall s, In s l -> boxes_ordered a eps (nm_lower N) (nm_upper N) (sw_y s) (sw_line s)) /\
  close_sound a eps (nm_lower N) (nm_upper N) (nm_close N a eps) (map sw_y l).

(** ** What comes out *)
(** A point with winding numbers [w] is in the result. *)
Definition in_result (r : fill_rule) (op : bin_op) (w : bwn) : Prop := combined op (in_shape r (i32_val (shape_a w))) (in_shape r (i32_val (shape_b w))).
(** The region clockwise, counter-clockwise of a half-segment is in the result. *)
Definition result_cw (t : topo bwn) r op (h : half) : Prop := exists w, winding_cw t h = Some w /\ in_result r op w.
Definition result_ccw (t : topo bwn) r op (h : half) : Prop := exists w, winding_ccw t h = Some w /\ in_result r op w.
(** The arena holds the edges of the two paths, each with the tag of its path. *)
Definition holds (N : numerics) (pa pb : list pathel) (a : arena) (tag : list bool) : Prop :=
  let es := tagged_edges (nm_eval N) (nm_monic N) (nm_quad N) [(pa, true); (pb, false)] in
  arena_len a = length es /\ length tag = arena_len a /\
  forall i, oriented_start a i = option_map (fun et => e_from (fst et)) (nth_error es i) /\
            oriented_end a i = option_map (fun et => e_to (fst et)) (nth_error es i) /\ nth_error tag i = option_map snd (nth_error es i).
(** [t] is a topology of the arena: its winding numbers agree around every point, and it arose by merging groups of coincident output segments from one in which crossing an output segment
    changes the winding number of one of the shapes by one: the one the tag of the input segment says, with the sign of the direction of the piece. *)
Definition topology_of (a : arena) (tag : list bool) (t : topo bwn) : Prop :=
  well_formed t /\ segments_run_down a t /\
  exists t0 : topo bwn, same_layout t0 t /\ (forall o, o < length (t_wind t0) -> winding_steps binary_i32_wops tag t0 o) /\
    (exists G, concat G = seq 0 (length (t_wind t0)) /\ Forall (merged t0 t) G).
(** The contours [cs] are the boundary of the result: every output segment that has the result on exactly one side occurs in exactly one place, and no other does; each contour is
    a closed walk that has the result on its left, not on its right, and visits no point twice; and they are nested as outer and inner contours. *)
Definition bounds_result (t : topo bwn) (r : fill_rule) (op : bin_op) (cs : list contour) : Prop :=
  NoDup (map h_idx (concat (map c_segs cs))) /\
  (forall o, In o (map h_idx (concat (map c_segs cs))) <-> present t (first_half o) /\ ~ (result_cw t r op (first_half o) <-> result_ccw t r op (first_half o))) /\
  Forall (fun c => closed_walk t (c_segs c) /\ Forall (fun h => result_cw t r op h /\ ~ result_ccw t r op h) (c_segs c) /\ visits_once t (c_segs c)) cs /\
  contour_forest cs.
(** The polyline paths: no curves. *)
Definition straight_path (p : list pathel) : Prop := forall e, In e p -> match e with SegmentsModel.QuadTo _ _ | SegmentsModel.CurveTo _ _ _ => False | _ => True end.
(** All coordinates that kurbo computes for a path, its curves cut into monotone pieces, are finite; and it does not start a subpath with [ClosePath]. *)
Definition path_finite (N : numerics) (p : list pathel) : Prop :=
  forall sub, In sub (subpaths p) -> exists ss, kurbo_segments sub = Some ss /\ Forall (pathseg_fin (nm_eval N) (nm_ctrl N) (nm_monic N) (nm_quad N)) ss.

Lemma result_cw_inside t r op h : inside_cw t (inside r op) h <-> result_cw t r op h.
Proof. unfold inside_cw, result_cw, in_result. split; intros (w & E & H); exists w; (split; [exact E|]); apply boolean_operations; exact H. Qed.
Lemma result_ccw_inside t r op h : inside_ccw t (inside r op) h <-> result_ccw t r op h.
Proof. unfold inside_ccw, result_ccw, in_result. split; intros (w & E & H); exists w; (split; [exact E|]); apply boolean_operations; exact H. Qed.

(** ** Collecting *)
Lemma collect_stores N ps a (tag : list bool) : sort_spec (nm_sort N (f64 * nat)%type) ->
  FromPathsModel.collect (nm_eval N) (nm_ctrl N) (nm_monic N) (nm_quad N) (nm_at_y N) (nm_sort N (f64 * nat)%type) ps = Collected a tag ->
  stores (paths_contours (nm_eval N) (nm_monic N) (nm_quad N) ps) a.
Proof.
  intros HS. pose proof stores_default as S0. pose proof S0 as B0. apply stores_split in B0. destruct B0 as [B0 _].
  pose proof (add_paths_ok (nm_eval N) (nm_ctrl N) (nm_monic N) (nm_quad N) ps [] arena_default [] B0 eq_refl ltac:(intros s [])) as K.
  unfold FromPathsModel.collect. destruct (add_paths (nm_eval N) (nm_ctrl N) (nm_monic N) (nm_quad N) arena_default [] ps) as [a1 tag1|sp ep| |] eqn:E; try discriminate.
  destruct K as (G & L & -> & F). destruct (stores_add (nm_at_y N) (nm_sort N _) HS [] (paths_contours (nm_eval N) (nm_monic N) (nm_quad N) ps) arena_default a1 S0 L (contours_reg _ _ _ ps)) as (a2 & U & ST).
  cbn [app] in ST. change (arena_len arena_default) with 0 in U. rewrite U. destruct (check_invariants a2); [|discriminate]. intros [= <- <-]. exact ST.
Qed.
Lemma stores_full cs a : stores cs a -> arena_len a = length (all_edges cs) -> tables_full a.
Proof. intros S L. split; [exact (st_orient _ _ S)|]. rewrite (st_t _ _ S), (st_inp _ _ S), !map_length, L. auto. Qed.

Lemma take_subpath_in l : forall b u v, take_subpath b l = (u, v) -> forall e, In e u \/ In e v -> In e l.
Proof.
  induction l as [|x l IH]; intros b u v H e I; cbn in H; [injection H as <- <-; destruct I as [[]|[]]|].
  repeat match type of H with
  | context [match ?z with _ => _ end] => destruct z eqn:?
  | (_, _) = (_, _) => injection H as <- <-
  end; cbn in I |- *; try tauto;
  match goal with E : take_subpath _ l = _ |- _ => pose proof (IH _ _ _ E e) end; tauto.
Qed.
Lemma subpaths_in p sub e : In sub (subpaths p) -> In e sub -> In e p.
Proof.
  unfold subpaths. generalize (length p). intros f. revert p. induction f as [|f IH]; intros [|x p] Hs He; try (destruct Hs; fail).
  cbn [subpaths_fuel] in Hs. destruct (take_subpath false (x :: p)) as [u v] eqn:E. destruct Hs as [<-|Hs]; [eapply take_subpath_in; [exact E|left; exact He]|]. eapply take_subpath_in; [exact E|right; eapply IH; eassumption].
Qed.
Definition is_line (s : pathseg) : Prop := match s with PLine _ _ => True | _ => False end.
Lemma ksegs_lines l : forall s p, straight_path l -> Forall is_line (ksegs s p l).
Proof.
  induction l as [|e l IH]; intros s p H; [constructor|]. assert (H' : straight_path l) by (intros x I; apply H; right; exact I). pose proof (H e (or_introl eq_refl)) as He.
  destruct e; try destruct He; cbn [ksegs]; try (destruct (negb _)); repeat constructor; apply IH, H'.
Qed.
Lemma straight_edges ev mo qu p sub e : straight_path p -> In sub (subpaths p) -> In e (subpath_edges ev mo qu sub) -> exists u v, e = line_edge u v.
Proof.
  intros SP Hs He. assert (H : straight_path sub) by (intros x I; apply SP; eapply subpaths_in; eassumption).
  unfold subpath_edges in He. destruct (kurbo_segments sub) as [ss|] eqn:K; [|destruct He].
  assert (F : Forall is_line ss). { unfold kurbo_segments in K. destruct sub as [|x sub]; [injection K as <-; constructor|]. destruct x; try discriminate K; match type of K with Some ?k = Some _ => assert (E : ss = k) by congruence; rewrite E; apply (ksegs_lines _ _ _ H) end. }
  apply in_flat_map in He. destruct He as (s & Is & He). rewrite Forall_forall in F. specialize (F s Is). destruct s as [u v| |]; [|destruct F..]. cbn [pathseg_edges] in He. destruct (point_eq u v); [destruct He|]. destruct He as [<-|[]]. eauto.
Qed.
Lemma lines_never_cut cs a : stores cs a -> (forall e, In e (all_edges cs) -> exists u v, e = line_edge u v) -> forall W (t : topo W) positions h, ~ cut a t positions h.
Proof.
  intros ST LE W t positions h (i & s & lo & hi & orient & x & p & Oi & Si & Sp & _ & _ & _ & _ & _ & C & _). pose proof (st_t _ _ ST) as TT. rewrite TT, nth_error_map in Sp.
  destruct (nth_error (all_edges cs) i) as [e|] eqn:E; [|discriminate Sp]. cbn [option_map] in Sp. apply nth_error_In, LE in E. destruct E as (u & v & ->). cbn [e_t line_edge] in Sp. injection Sp as <- <-. destruct (Bool.eqb (h_first h) orient); vm_compute in C; discriminate C.
Qed.
Lemma rmap_first {A B} (f : A -> res B) l e0 : rmap f l = Err e0 -> exists x, In x l /\ f x = Err e0.
Proof.
  induction l as [|x l IH]; intros H; cbn [rmap] in H; [discriminate|]. destruct (f x) as [y|e] eqn:E; cbn [rbind] in H; [|exists x; split; [left; reflexivity|congruence]].
  destruct (rmap f l) as [r|e] eqn:E2; cbn [rbind] in H; [discriminate|]. destruct (IH H) as (z & I & F). exists z. split; [right; exact I|exact F].
Qed.
Lemma rmap_total {A B} (f : A -> res B) (e0 : err) l : (forall x, In x l -> (exists y, f x = Ok y) \/ f x = Err e0) -> (exists r, rmap f l = Ok r) \/ rmap f l = Err e0.
Proof.
  induction l as [|x l IH]; intros H; cbn [rmap]; [left; eauto|]. destruct (H x (or_introl eq_refl)) as [(y & E)|E]; rewrite E; cbn [rbind]; [|right; reflexivity].
  destruct IH as [(r & ->)| ->]; [intros z I; apply H; right; exact I|left; cbn; eauto|right; reflexivity].
Qed.

Lemma rmap_pairs {A B} (g : A -> res B) l : forall r, rmap (fun c => do! p := g c in Ok (c, p)) l = Ok r -> exists ps, r = combine l ps /\ length ps = length l /\ forall c p, In (c, p) r -> In c l /\ g c = Ok p.
Proof.
  induction l as [|x l IH]; intros r H; cbn [rmap] in H; [injection H as <-; exists []; repeat split; destruct H|]. destruct (g x) as [y|] eqn:E; cbn [rbind] in H; [|discriminate].
  destruct (rmap _ l) as [r'|] eqn:E2; cbn [rbind] in H; [|discriminate]. injection H as <-. destruct (IH r' eq_refl) as (ps & -> & L & Q). exists (y :: ps). split; [reflexivity|]. split; [cbn; lia|].
  intros c p [[= <- <-]|I]; [split; [left; reflexivity|exact E]|]. destruct (Q c p I). split; [right; assumption|assumption].
Qed.

(** ** C90 *)
(** An open path is reported, and nothing else is. *)
Theorem open_paths_reported : forall N dbg pa pb r op eps fuel n m, sort_spec (nm_sort N (f64 * nat)%type) ->
  path_exact (nm_eval N) (nm_monic N) (nm_quad N) pa -> path_exact (nm_eval N) (nm_monic N) (nm_quad N) pb -> path_finite N pa -> path_finite N pb ->
  (exists sp ep, binary_op_with_eps N dbg pa pb r op eps fuel n m = ErrNonClosed sp ep) <->
  ~ (path_closed (nm_eval N) (nm_monic N) (nm_quad N) pa /\ path_closed (nm_eval N) (nm_monic N) (nm_quad N) pb).
Proof.
  intros N dbg pa pb r op eps fuel n m HS XA XB FA FB.
  assert (X : forall p t, In (p, t) [(pa, true); (pb, false)] -> path_exact (nm_eval N) (nm_monic N) (nm_quad N) p) by (intros p t [[= <- _]|[[= <- _]|[]]]; assumption).
  pose proof (from_paths_collects (nm_eval N) (nm_ctrl N) (nm_monic N) (nm_quad N) (nm_at_y N) (nm_sort N (f64 * nat)%type) HS _ X) as K.
  unfold binary_op_with_eps, collect_binary. destruct (FromPathsModel.collect _ _ _ _ _ _ _) as [a tag|sp ep| |].
  - destruct K as (C & _). split; [|intros H; exfalso; apply H; split; eapply C; cbn; eauto]. intros (sp & ep & H). exfalso. destruct (rbind _ _) in H; discriminate H.
  - destruct K as (l1 & p & t & l2 & s1 & sub & s2 & e & E & _ & SB & _ & NC & _). split; [|intros _; eauto]. intros _ (CA & CB).
    assert (I : In (p, t) [(pa, true); (pb, false)]) by (rewrite E; apply in_app_iff; right; left; reflexivity).
    assert (CP : path_closed (nm_eval N) (nm_monic N) (nm_quad N) p) by (destruct I as [[= <- _]|[[= <- _]|[]]]; assumption). rewrite (CP sub) in NC; [discriminate NC|]. rewrite SB. apply in_app_iff. right. left. reflexivity.
  - exfalso. apply K. intros p t sub [[= <- _]|[[= <- _]|[]]] Hs; [apply FA, Hs|apply FB, Hs].
  - destruct K.
Qed.
Print Assumptions open_paths_reported.

(** Closed paths, with an accuracy that makes a difference at all heights: if the sweep ends, then the outcome is the boundary of the set operation on the shapes, each contour with a
    path that goes round it; except that [EStart] is possible if all output segments of a contour begin at a cut of a curve. *)
Theorem boolean_operation : forall N dbg pa pb r op eps fuel n l, (forall A, sort_spec (nm_sort N A)) ->
  path_exact (nm_eval N) (nm_monic N) (nm_quad N) pa -> path_exact (nm_eval N) (nm_monic N) (nm_quad N) pb -> path_finite N pa -> path_finite N pb ->
  path_closed (nm_eval N) (nm_monic N) (nm_quad N) pa -> path_closed (nm_eval N) (nm_monic N) (nm_quad N) pb ->
  exists a tag, collect_binary N pa pb = Collected a tag /\ holds N pa pb a tag /\ ((forall s, In s (segs a) -> at_y_ok (nm_at_y N) s) -> sweepable a) /\
  (numerics_fit N a eps -> roomy a (fdiv eps ffour) -> 2 * arena_len a < fuel -> sweep_fits N a eps fuel n l ->
   exists t cs m0, topology_of a tag t /\ bounds_result t r op cs /\
   forall m, m0 <= m -> exists out, laid_out t out /\
     ((exists ps, binary_op_with_eps N dbg pa pb r op eps fuel n m = Contoured (combine cs ps) /\ length ps = length cs /\
         forall c p, In (c, p) (combine cs ps) -> draws a t out (nm_root N) (nm_sub_input N) (c_segs c) p) \/
      (binary_op_with_eps N dbg pa pb r op eps fuel n m = Panic EStart /\ exists c, In c cs /\ forall h, In h (c_segs c) -> cut a t out (other_half h))) /\
     (straight_path pa -> straight_path pb -> exists ps, binary_op_with_eps N dbg pa pb r op eps fuel n m = Contoured (combine cs ps) /\ length ps = length cs /\
         forall c p, In (c, p) (combine cs ps) -> exists k x ls, p = MoveTo x :: concat ls /\ Forall2 (along t out) (skipn k (c_segs c) ++ firstn k (c_segs c)) ls /\ option_map pel_end (last_opt (concat ls)) = Some x)).
Proof.
  intros N dbg pa pb r op eps fuel n l HS XA XB FA FB CA CB.
  assert (X : forall p t, In (p, t) [(pa, true); (pb, false)] -> path_exact (nm_eval N) (nm_monic N) (nm_quad N) p) by (intros p t [[= <- _]|[[= <- _]|[]]]; assumption).
  pose proof (from_paths_collects (nm_eval N) (nm_ctrl N) (nm_monic N) (nm_quad N) (nm_at_y N) (nm_sort N (f64 * nat)%type) (HS _) _ X) as K.
  unfold binary_op_with_eps. fold (collect_binary N pa pb) in K. destruct (collect_binary N pa pb) as [a tag|sp ep| |] eqn:CO.
  2:{ exfalso. destruct K as (l1 & p & t & l2 & s1 & sub & s2 & e & E & _ & SB & _ & NC & _).
    assert (I : In (p, t) [(pa, true); (pb, false)]) by (rewrite E; apply in_app_iff; right; left; reflexivity).
    assert (CP : path_closed (nm_eval N) (nm_monic N) (nm_quad N) p) by (destruct I as [[= <- _]|[[= <- _]|[]]]; assumption). rewrite (CP sub) in NC; [discriminate NC|]. rewrite SB. apply in_app_iff. right. left. reflexivity. }
  2:{ exfalso. apply K. intros p t sub [[= <- _]|[[= <- _]|[]]] Hs; [apply FA, Hs|apply FB, Hs]. }
  2:{ destruct K. }
  destruct K as (_ & LA & LT & LO & HD & RG & CC & SW). exists a, tag. split; [reflexivity|]. split; [split; [exact LA|split; [exact LT|exact HD]]|]. split; [exact SW|]. intros NF RM LF (RUN & BX & CLS).
  pose proof (collect_stores N _ a tag (HS _) CO) as ST. pose proof (SW (nf_at_y _ _ _ NF)) as SA.
  assert (TF : tables_full a). { apply (stores_full _ a ST). rewrite <- tagged_fst, map_length. exact LA. }
  assert (IN : topo_input tag a eps (nm_cmp N a eps) (nm_ccmp N a eps) (nm_min_x N) (nm_max_x N) (nm_lower N) (nm_upper N) (nm_at_y N) (nm_pps N) (nm_sort N) l).
  { constructor; [constructor; [exact SA|exact (nf_cmp _ _ _ NF)|exact (nf_ccmp _ _ _ NF)|exact (nf_search _ _ _ NF)|exact HS]|exact (nf_positions _ _ _ NF)|exact LT|exact LO|exists fuel, n; exact RUN|exact BX]. }
  pose proof (nf_starts _ _ _ NF) as SIB. pose proof (proj1 winding_arithmetic) as OK. pose proof binary_units as UN.
  destruct (merging_sound bwn bool binary_i32_wops tag a eps _ _ _ _ _ _ _ _ _ l (nm_close N a eps) OK UN IN CC SIB CLS fuel [] LF) as (t0 & t & E1 & E2 & SL & WF & GG & _).
  destruct (winding_consistent bwn bool binary_i32_wops tag a eps _ _ _ _ _ _ _ _ _ l OK IN CC fuel [] LF) as (t0' & R0 & E1' & _ & _ & WS). rewrite E1 in E1'. injection E1' as <-.
  destruct (layout_laid_out bwn bool binary_i32_wops tag a eps _ _ _ _ _ _ _ _ _ l IN (nm_pcmp N a eps) (nm_sub N) (nm_after N) (nm_before N) (nm_est N) (nm_pop N) (nf_pcmp _ _ _ NF) (nf_pop _ _ _ NF) RM fuel [] t0 t LF E1) as (RD & (m0 & LAY) & LOA); [right; exists (nm_close N a eps); exact E2|].
  destruct (from_segments_sound bwn bool binary_i32_wops tag a eps _ _ _ _ _ _ _ _ _ l (nm_close N a eps) OK UN IN CC SIB CLS fuel n LF RUN) as (t' & FS & _ & _ & CS).
  assert (t' = t) as ->. { unfold sweep_binary in RUN. unfold from_segments in FS. rewrite RUN in FS. cbv beta iota in FS. cbn [negb rbind] in FS. rewrite E1 in FS. cbn [rbind] in FS. congruence. }
  destruct (CS (inside r op)) as (cs & CT & ND & BD & FC & NE). exists t, cs, m0. split; [|split].
  - split; [exact WF|]. split; [exact RD|]. exists t0. split; [exact SL|]. split; [exact WS|exact GG].
  - split; [exact ND|]. split; [|split; [|exact NE]].
    + intros o. rewrite BD. unfold boundary. rewrite result_cw_inside, result_ccw_inside. reflexivity.
    + eapply Forall_impl; [|exact FC]. intros c (W1 & W2 & W3). split; [exact W1|]. split; [|exact W3]. eapply Forall_impl; [|exact W2]. intros h (H1 & H2). rewrite result_cw_inside in H1. rewrite result_ccw_inside in H2. split; assumption.
  - intros m Lm. destruct (LAY m Lm) as (out & TP). pose proof (LOA m out TP) as LD. exists out. split; [exact LD|].
    unfold topology_binary. rewrite FS. cbn [rbind]. unfold layout_binary. rewrite TP. cbn [rbind]. unfold contours_binary. rewrite CT. cbn [rbind].
    pose proof (contour_paths bwn t a out (inside r op) cs SA TF WF RD LD CT dbg (nm_root N) (nm_sub_input N)) as CP.
    set (g := fun c : contour => segs_to_path dbg a t out (nm_root N) (nm_sub_input N) (c_segs c)).
    destruct (rmap_total (fun c => do! p := g c in Ok (c, p)) EStart cs) as [(ps0 & E)|E].
    + intros c Ic. destruct (CP c Ic) as [(p & E & _)|(E & _)]; unfold g; rewrite E; cbn [rbind]; eauto.
    + subst g. cbv beta in E. rewrite E. destruct (rmap_pairs _ _ _ E) as (ps & -> & L & Q). split.
      * left. exists ps. split; [reflexivity|]. split; [exact L|]. intros c p I. destruct (Q c p I) as (Ic & Ep). destruct (CP c Ic) as [(p' & Ep' & D)|(Ep' & _)]; [|congruence]. assert (p' = p) as -> by congruence. exact D.
      * intros SPA SPB. exists ps. split; [reflexivity|]. split; [exact L|]. intros c p I. destruct (Q c p I) as (Ic & Ep).
        destruct (uncut_contour_paths bwn t a out (inside r op) cs SA TF WF RD LD CT dbg (nm_root N) (nm_sub_input N) c Ic) as (k & x & ls & Ep' & AL & LE).
        { intros h _. split; (eapply lines_never_cut; [exact ST|]; intros e Ie; rewrite <- tagged_fst in Ie; apply in_map_iff in Ie; destruct Ie as ((e1 & g1) & <- & Ie); apply in_flat_map in Ie; destruct Ie as ((p1 & t1) & Ip & Ie);
            apply in_map_iff in Ie; destruct Ie as (e2 & [= <- <-] & Ie); apply in_flat_map in Ie; destruct Ie as (sub & Is & Ie); cbn [fst] in *; destruct Ip as [[= <- <-]|[[= <- <-]|[]]]; (eapply straight_edges; [|exact Is|exact Ie]; assumption)). }
        exists k, x, ls. split; [congruence|]. split; assumption.
    + subst g. cbv beta in E. rewrite E. destruct (rmap_first _ _ _ E) as (c & Ic & Ec). split.
      * right. split; [reflexivity|]. exists c. split; [exact Ic|]. destruct (CP c Ic) as [(p & Ep & _)|(_ & H)]; [rewrite Ep in Ec; discriminate Ec|exact H].
      * intros SPA SPB. exfalso. destruct (uncut_contour_paths bwn t a out (inside r op) cs SA TF WF RD LD CT dbg (nm_root N) (nm_sub_input N) c Ic) as (k & x & ls & Ep' & _).
        { intros h _. split; (eapply lines_never_cut; [exact ST|]; intros e Ie; rewrite <- tagged_fst in Ie; apply in_map_iff in Ie; destruct Ie as ((e1 & g1) & <- & Ie); apply in_flat_map in Ie; destruct Ie as ((p1 & t1) & Ip & Ie);
            apply in_map_iff in Ie; destruct Ie as (e2 & [= <- <-] & Ie); apply in_flat_map in Ie; destruct Ie as (sub & Is & Ie); cbn [fst] in *; destruct Ip as [[= <- <-]|[[= <- <-]|[]]]; (eapply straight_edges; [|exact Is|exact Ie]; assumption)). }
        rewrite Ep' in Ec. discriminate Ec.
Qed.
Print Assumptions boolean_operation.

(** The accuracy is chosen so that it makes a difference at all heights (unless heights exceed 2^1022); an infinite bounding box is reported, and with a proper bounding box nothing else is wrong. *)
Theorem boolean_operation_accuracy : forall N dbg pa pb r op fuel n m, proper (nm_bbox N pa pb) ->
  (binary_op N dbg pa pb r op fuel n m = ErrInfinity <-> Exists (fun c => f_inf c = true) (coords (nm_bbox N pa pb))) /\
  binary_op N dbg pa pb r op fuel n m <> ErrNaN /\
  (Forall (fun c => fin c = true) (coords (nm_bbox N pa pb)) -> exists eps, fin eps = true /\ (B2R eps = Rmax (B2R eps_min) (max_abs (nm_bbox N pa pb) * bpow radix2 (-46)))%R /\
     binary_op N dbg pa pb r op fuel n m = binary_op_with_eps N dbg pa pb r op eps fuel n m /\
     forall a, sweepable a ->
       (forall i p, i < arena_len a -> p = seg_start (seg_def a i) \/ p = seg_end (seg_def a i) ->
          let b := nm_bbox N pa pb in
          fle (b_min_x b) (px p) = true /\ fle (px p) (b_max_x b) = true /\ fle (b_min_y b) (py p) = true /\ fle (py p) (b_max_y b) = true /\ (Rabs (B2R (py p)) <= bpow radix2 1022)%R) ->
       roomy a (fdiv eps ffour)).
Proof.
  intros N dbg pa pb r op fuel n m P. destruct (accuracy_choice _ P) as (A1 & A2 & A3).
  assert (NI : forall eps, binary_op_with_eps N dbg pa pb r op eps fuel n m <> ErrInfinity /\ binary_op_with_eps N dbg pa pb r op eps fuel n m <> ErrNaN).
  { intros eps. unfold binary_op_with_eps. destruct (collect_binary N pa pb); try (split; discriminate). destruct (rbind _ _); split; discriminate. }
  split; [|split].
  - rewrite <- A1. unfold binary_op. destruct (choose_eps (nm_bbox N pa pb)) as [[|]|eps]; [tauto|split; discriminate|]. split; [intros H; destruct (NI eps); contradiction|discriminate].
  - unfold binary_op. destruct (choose_eps (nm_bbox N pa pb)) as [[|]|eps] eqn:E; [discriminate| |apply NI]. exfalso.
    assert (C : Forall (fun c => fin c = true) (coords (nm_bbox N pa pb)) \/ Exists (fun c => f_inf c = true) (coords (nm_bbox N pa pb))).
    { pose proof (proper_nonnan _ P) as NN. revert NN. generalize (coords (nm_bbox N pa pb)). induction 1 as [|c l X _ IH]; [left; constructor|]. destruct (fin_or_inf c X); [|right; constructor; assumption]. destruct IH; [left; constructor; assumption|right; constructor 2; assumption]. }
    destruct C as [C|C]; [apply A2 in C; destruct C; congruence|apply A1 in C; congruence].
  - intros F. apply A2 in F. destruct F as (eps & E). destruct (A3 eps E) as (F1 & F2). exists eps. split; [exact F1|]. split; [exact F2|]. split; [unfold binary_op; rewrite E; reflexivity|].
    intros a SA COV. exact (chosen_accuracy_suffices a _ eps SA E COV).
Qed.
Print Assumptions boolean_operation_accuracy.

(** ** The hypotheses are met *)
From Coq Require Import Lra.
From Verif Require Import SweepCheck SweepReach SweepProofs2 TreeVecMono PropsSweep PropsRange PolyExample PropsLayout.
(** Two copies of a triangle, with straight lines compared by their distance. *)
Definition bi_pa : list pathel := [SegmentsModel.MoveTo (PropsSegments.pt 0 0); SegmentsModel.LineTo (PropsSegments.pt 2000 4000); SegmentsModel.LineTo (PropsSegments.pt (-2000) 4000); ClosePath].
Definition bi_pb : list pathel := [SegmentsModel.MoveTo (PropsSegments.pt 0 0); SegmentsModel.LineTo (PropsSegments.pt 2000 4000); SegmentsModel.LineTo (PropsSegments.pt (-2000) 4000); SegmentsModel.LineTo (PropsSegments.pt 0 0)].
Definition bi_N : numerics := {|
  nm_eval := ex_eval; nm_ctrl := ex_ctrl; nm_monic := ex_monic; nm_quad := ex_quad;
  nm_bbox := fun _ _ => mkBox (z (-3000)) (z 0) (z 3000) (z 4000);
  nm_cmp := fun a e => po_cmp e a; nm_ccmp := fun a e => po_cmp e a; nm_pcmp := fun a e => po_cmp e a; nm_close := fun a _ => po_close a;
  nm_min_x := ex_min; nm_max_x := ex_max; nm_lower := po_lo; nm_upper := po_hi; nm_at_y := po_aty; nm_pps := ex_pps; nm_sort := @isort; nm_pop := pop_max;
  nm_sub := mx_sub; nm_after := fun _ _ _ => true; nm_before := fun _ _ _ => false; nm_est := mx_est; nm_root := fun _ _ => fzero; nm_sub_input := fun s _ _ => LineTo p00 |}.
Lemma bi_exact : path_exact ex_eval ex_monic ex_quad bi_pa /\ path_exact ex_eval ex_monic ex_quad bi_pb.
Proof. split; intros sub ss Hs K; cbn in Hs; destruct Hs as [<-|[]]; cbn in K; injection K as <-; repeat (apply Forall_cons || apply Forall_nil); cbn [ends_exact]; split; split; vm_compute; reflexivity. Qed.
Lemma bi_finite : path_finite bi_N bi_pa /\ path_finite bi_N bi_pb.
Proof. split; intros sub Hs; cbn in Hs; destruct Hs as [<-|[]]; eexists; (split; [reflexivity|]); cbn [ksegs negb]; repeat (apply Forall_cons || apply Forall_nil); cbn [pathseg_fin]; split; split; vm_compute; reflexivity. Qed.
Lemma bi_closed : path_closed ex_eval ex_monic ex_quad bi_pa /\ path_closed ex_eval ex_monic ex_quad bi_pb.
Proof. split; intros sub Hs; cbn in Hs; destruct Hs as [<-|[]]; vm_compute; reflexivity. Qed.
Lemma bi_straight : straight_path bi_pa /\ straight_path bi_pb.
Proof. split; intros e I; cbn in I; repeat (destruct I as [<-|I]; [exact Logic.I|]); destruct I. Qed.
Definition bi_checks (a : arena) : bool :=
  num_b (map seg_start (segs a) ++ map seg_end (segs a)) && comparer_b a (po_cmp po_eps a) && starts_b a && (2 * arena_len a <? 100) &&
  forallb (fun s => feq (po_aty s (py (seg_start s))) (po_aty s (py (seg_start s))) && forallb (fun y => feq (po_aty s y) (po_aty s (py (seg_start s)))) (zeros (py (seg_start s)))) (segs a) &&
  fin (fdiv po_eps ffour) && forallb (fun s => fle (fneg (z 4096)) (py (seg_start s)) && fle (py (seg_end s)) (z 4096)) (segs a) &&
  match sweep_binary bi_N a po_eps 100 100 with Ok (l, d) => d && forallb (fun s => boxes_b a po_eps po_lo po_hi (sw_y s) (sw_line s)) l && close_b a (map sw_y l) | Err _ => false end.
Lemma bi_checked : match collect_binary bi_N bi_pa bi_pb with Collected a _ => bi_checks a | _ => false end = true.
Proof. vm_compute. reflexivity. Qed.
Lemma bi_aty_num a i y : i < arena_len a -> num_b (map seg_start (segs a) ++ map seg_end (segs a)) = true -> nan (ex_aty (seg_def a i) y) = false.
Proof.
  intros L H. unfold num_b in H. rewrite forallb_forall in H.
  assert (S : In (seg_def a i) (segs a)) by (unfold seg_def; apply nth_In, L).
  pose proof (H (seg_start (seg_def a i)) ltac:(apply in_or_app; left; apply in_map, S)) as A. pose proof (H (seg_end (seg_def a i)) ltac:(apply in_or_app; right; apply in_map, S)) as B.
  apply andb_true_iff in A, B. destruct A as (A & _), B as (B & _). apply fin_nonnan in A, B. unfold ex_aty. apply clamped_num; [apply (fmin_nonnan _ _ A B)|apply (fmax_nonnan _ _ A B)].
Qed.
Lemma bi_fit a : sweepable a -> bi_checks a = true -> numerics_fit bi_N a po_eps /\ roomy a (fdiv po_eps ffour) /\ 2 * arena_len a < 100 /\ exists l, sweep_fits bi_N a po_eps 100 100 l.
Proof.
  intros SA H. unfold bi_checks in H. rewrite !andb_true_iff in H. destruct H as (((((((F & C) & S) & L) & AT) & FE) & R) & W). apply Nat.ltb_lt in L. apply comparer_b_ok in C. split; [|split; [|split; [exact L|]]].
  - constructor; cbn [bi_N nm_at_y nm_cmp nm_ccmp nm_pcmp nm_pps nm_pop nm_lower nm_upper]; try exact C.
    + intros s Is y Ey. rewrite forallb_forall in AT. specialize (AT s Is). apply andb_true_iff in AT. destruct AT as (_ & AT). rewrite forallb_forall in AT.
      assert (E : feq (py (seg_start s)) y = true). { destruct (feq_nonnan _ _ Ey). fk. zb. lia. }
      specialize (AT y (zeros_in _ _ E)). split; [apply (feq_nonnan _ _ AT)|exact AT].
    + intros t. split; [intros p l; apply scan_pp_boundary|]. split; [intros p l; apply scan_pp_boundary|]. intros p q l l' H. apply scan_pp_mono, H.
    + exact pop_max_ok.
    + intros y i _ (Ri & _). pose proof (registered_lt _ SA _ Ri) as Li. pose proof (fun y => bi_aty_num a i y Li F) as AN. unfold band_lo, band_hi, po_lo, po_hi, po_aty.
      destruct (fmin_nonnan _ _ (AN (fsub y po_eps)) (AN (fadd y po_eps))) as [A1 _]. destruct (fmin_nonnan _ _ (AN y) A1) as [A2 _].
      destruct (fmax_nonnan _ _ (AN (fsub y po_eps)) (AN (fadd y po_eps))) as [B1 _]. destruct (fmax_nonnan _ _ (AN y) B1) as [B2 _].
      split; [exact A2|]. split; [exact B2|apply AN].
    + apply starts_b_ok; assumption.
  - apply small_roomy; [exact FE| |exact R]. rewrite (sf_val _ 4503599627370496 (-54)) by (vm_compute; reflexivity). cbn. lra.
  - destruct (sweep_binary bi_N a po_eps 100 100) as [(l, d)|] eqn:E; [|discriminate W]. rewrite !andb_true_iff in W. destruct W as ((-> & B) & D). exists l. split; [exact E|]. split.
    + rewrite forallb_forall in B. intros s Is. apply boxes_b_ok, B, Is.
    + apply close_b_ok; assumption.
Qed.
(** So the theorem applies: every operation on the two copies is computed; the intersection has one contour, the difference none. *)
Example bi_meets : forall dbg r op, exists a tag l, holds bi_N bi_pa bi_pb a tag /\ numerics_fit bi_N a po_eps /\ roomy a (fdiv po_eps ffour) /\ 2 * arena_len a < 100 /\ sweep_fits bi_N a po_eps 100 100 l /\
  exists cs m0, forall m, m0 <= m -> exists ps, binary_op_with_eps bi_N dbg bi_pa bi_pb r op po_eps 100 100 m = Contoured (combine cs ps) /\ length ps = length cs.
Proof.
  intros dbg r op. destruct bi_exact as (XA & XB), bi_finite as (FA & FB), bi_closed as (CA & CB), bi_straight as (SA & SB).
  pose proof bi_checked as CK. destruct (collect_binary bi_N bi_pa bi_pb) as [a tag| | |] eqn:CO; try discriminate CK.
  destruct (boolean_operation bi_N dbg bi_pa bi_pb r op po_eps 100 100 [] (fun A => isort_spec) XA XB FA FB CA CB) as (a' & tag' & E & HD & SW & _). assert (a' = a /\ tag' = tag) as (-> & ->) by (split; congruence).
  assert (SWE : sweepable a).
  { apply SW. intros s Is y Ey. unfold bi_checks in CK. rewrite !andb_true_iff in CK. destruct CK as ((((_ & AT) & _) & _) & _). rewrite forallb_forall in AT. specialize (AT s Is). apply andb_true_iff in AT. destruct AT as (_ & AT). rewrite forallb_forall in AT.
    assert (Q : feq (py (seg_start s)) y = true). { destruct (feq_nonnan _ _ Ey). fk. zb. lia. }
    specialize (AT y (zeros_in _ _ Q)). split; [apply (feq_nonnan _ _ AT)|exact AT]. }
  destruct (bi_fit a SWE CK) as (NF & RM & L & l & SF). exists a, tag, l. split; [exact HD|]. split; [exact NF|]. split; [exact RM|]. split; [exact L|]. split; [exact SF|].
  destruct (boolean_operation bi_N dbg bi_pa bi_pb r op po_eps 100 100 l (fun A => isort_spec) XA XB FA FB CA CB) as (a' & tag' & E' & _ & _ & TH). assert (a' = a /\ tag' = tag) as (-> & ->) by (split; congruence).
  destruct (TH NF RM L SF) as (t & cs & m0 & _ & _ & Q). exists cs, m0. intros m Lm. destruct (Q m Lm) as (out & _ & _ & H). destruct (H SA SB) as (ps & H1 & H2 & _). exists ps. split; assumption.
Qed.
Definition bi_result (op : bin_op) : nat := match binary_op_with_eps bi_N true bi_pa bi_pb NonZero op po_eps 100 100 100 with Contoured cs => length cs | _ => 99 end.
Example bi_results : map bi_result [Union; Intersection; Xor; Difference] = [1; 1; 0; 0].
Proof. vm_compute. reflexivity. Qed.
