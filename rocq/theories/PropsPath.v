(** C67: the paths of the contours. *)
From Coq Require Import List Bool ZArith Arith Lia Sorted Permutation.
From Verif Require Import F64 F64Arith TreeVecModel GeomModel SegmentsModel SegmentsSpec CurveOrderModel CurveOrderProofs SweepModel SweepSpec SweepProofs SweepProofs2 RangeModel RangeSpec TopoModel TopoSpec ScanModel ContoursModel ContoursSpec
  WindSpec MergeSpec FromPathsModel PosModel PosSpec PosProofs3 PosProofs4 PropsSegments PropsTopo PropsContours PropsMerge PropsScan PropsPos PathModel PathSpec PathProofs.
Import ListNotations.

(** The arena has an entry for every segment in its tables. *)
Definition tables_full (a : arena) : Prop := length (orientation a) = arena_len a /\ length (split_from a) = arena_len a /\ length (input_segs a) = arena_len a.
(** Each output segment was laid out in one stroke between its end points. *)
Definition laid_out {W} (t : topo W) (positions : list posn) : Prop :=
  forall o, o < length (t_wind t) -> exists p q x, ends_at t (first_half o) p /\ ends_at t (second_half o) q /\ nth_error positions o = Some x /\ complete p q x.

Lemma walk_fine {W} a (t : topo W) positions o : sweepable a -> tables_full a -> well_formed t -> segments_run_down a t -> laid_out t positions -> present t (first_half o) -> fine a t positions o.
Proof.
  intros SA (T1 & T2 & T3) WF RD LO PR. assert (L : o < length (t_wind t)). { rewrite <- (wf_deleted _ WF). apply nth_error_Some. unfold present in PR. cbn in PR. congruence. }
  destruct (RD o L) as (p & q & i & Ep & Eq & Oi & RG & LT & Y1 & Y3). destruct (LO o L) as (p' & q' & x & Ep' & Eq' & Hx & C). pose proof (ends_fun t _ _ _ Ep Ep') as <-. pose proof (ends_fun t _ _ _ Eq Eq') as <-.
  pose proof (registered_lt _ SA _ RG) as Li. destruct (sp_down _ SA _ Li) as (DN & HZ). destruct (sp_finite _ SA _ Li) as ((_ & F1) & (_ & F2)).
  assert (GET : forall A (l : list A), length l = arena_len a -> exists v, nth_error l i = Some v). { intros A l E. destruct (nth_error l i) eqn:X; [eauto|]. apply nth_error_None in X. lia. }
  destruct (GET _ (segs a) eq_refl) as (s & Hs). destruct (GET _ _ T1) as (orient & Hor). destruct (GET _ _ T2) as (sp & Hsp). destruct (GET _ _ T3) as (input & Hin).
  assert (SD : seg_def a i = s) by (unfold seg_def; apply nth_error_nth, Hs). unfold slanted, start_y, end_y in *. rewrite SD in *.
  assert (Y2 : fle (py p) (py q) = true). { apply fle_split in Y1, Y3. destruct Y1 as (_ & N1 & _), Y3 as (N2 & _ & _). unfold point_lt, point_cmp in LT. rewrite cof_cmp_key in LT by assumption. apply fle_intro; auto. destruct (Z.compare_spec (key (py p)) (key (py q))); try lia; try discriminate LT. }
  constructor.
  - exists i, s, sp, orient, input, x, p, q. repeat (split; [assumption|]). rewrite HZ. f_equal. apply fle_split in DN. destruct DN as (N1 & N2 & K). rewrite flt_key, feq_key by assumption. destruct (Z.ltb_spec (key (py (seg_start s))) (key (py (seg_end s)))), (Z.eqb_spec (key (py (seg_start s))) (key (py (seg_end s)))); cbn; lia || reflexivity.
  - destruct (wf_rings _ WF) as (R & RI & _). apply (ri_all _ _ _ RI) in PR. apply in_concat in PR. destruct PR as (r & Hr & I). apply In_nth_error in Hr. destruct Hr as (k & Hk). pose proof (ri_linked _ _ _ RI k r Hk) as LK.
    assert (exists h', In (first_half o, h') (cyclic r)) as (h' & I').
    { clear - I. unfold cyclic. destruct r as [|z r]; [destruct I|]. cbn [tl firstn]. destruct (In_nth_error _ _ I) as (k & Hk). assert (k < length (r ++ [z])) as L by (rewrite app_length; cbn; pose proof (proj1 (nth_error_Some (z :: r) k) ltac:(congruence)); cbn in *; lia).
      destruct (nth_error (r ++ [z]) k) as [h'|] eqn:E; [|apply nth_error_None in E; lia]. exists h'. clear L I. revert Hk E. generalize (z :: r) (r ++ [z]). intros u v. revert k v. induction u as [|y u IH]; intros [|k] [|w v] A B; try discriminate; cbn in *; [left; congruence|right; eapply IH; eassumption]. }
    rewrite Forall_forall in LK. destruct (LK _ I') as (CW & _). cbn [fst snd] in CW. unfold cw, hv_get in CW. cbn [h_idx first_half] in CW. destruct (nth_error (t_nbrs t) o) as [n|]; [eauto|discriminate CW].
Qed.

(** ** C67 *)
(** The path of every contour goes round the contour once, starting at one of its points: it consists of the laid-out output segments of the contour, in
    their order and in the direction of the contour, except that where monotone pieces of an input curve meet and nothing else does, the two elements that end there are
    replaced by one part of that curve.  The only way to fail is that every segment of the contour starts at such a place. *)
Theorem contour_paths : forall (W : Type) (t : topo W) a positions inside cs, sweepable a -> tables_full a -> well_formed t -> segments_run_down a t -> laid_out t positions -> contours t inside = Ok cs ->
  forall dbg root sub_input c, In c cs ->
  (exists path, segs_to_path dbg a t positions root sub_input (c_segs c) = Ok path /\ draws a t positions root sub_input (c_segs c) path) \/
  (segs_to_path dbg a t positions root sub_input (c_segs c) = Err EStart /\ forall h, In h (c_segs c) -> cut a t positions (other_half h)).
Proof.
  intros W t a positions inside cs SA TF WF RD LO CS dbg root sub_input c Ic. destruct (contours_partition W t inside WF) as (cs' & CS' & ND & BD & _). assert (cs' = cs) as -> by congruence.
  destruct (path_spec dbg a t positions root sub_input (c_segs c)) as [H|H]; [|right; exact H|left; exact H].
  intros h Ih. eapply walk_fine; try eassumption. assert (B : boundary t inside (h_idx h)). { apply BD. apply in_map_iff. exists h. split; [reflexivity|]. apply in_concat. exists (c_segs c). split; [apply in_map, Ic|exact Ih]. }
  exact (proj1 B).
Qed.
Print Assumptions contour_paths.

(** The elements along a segment end at its end. *)
Lemma controls_ends l : forall q (last_p : point), Forall drawn l -> l <> [] -> option_map pel_end (last_opt l) = option_map (fun c => last c last_p) (last_opt (controls q l)).
Proof.
  induction l as [|e l IH]; intros q d D NE; [congruence|]. inversion D as [|? ? De Dl]; subst. destruct l as [|e' l]; [destruct e; try destruct De; reflexivity|]. exact (IH (pel_end e) d Dl ltac:(discriminate)).
Qed.
Lemma along_end {W} (t : topo W) positions h l : along t positions h l -> exists x, ends_at t h x /\ option_map pel_end (last_opt l) = Some x.
Proof.
  intros (x & p & q & rest & Hx & P & E1 & E2 & L & DR & D & C). destruct (h_first h); [|subst l; eauto]. exists p. split; [exact E2|]. assert (rest <> []) as NE by (intros ->; discriminate L).
  assert (l <> []) as NL. { intros ->. destruct rest as [|e rest]; [congruence|]. cbn in C. destruct (rev (map (@rev point) (controls (pel_end e) rest))); discriminate C. }
  rewrite (controls_ends l q p D NL), C. destruct rest as [|e rest]; [congruence|]. inversion DR as [|? ? De _]; subst. cbn [controls map rev]. rewrite last_opt_app. cbn [option_map]. f_equal. destruct e; [destruct De|reflexivity..].
Qed.
Lemma one_by_one {W} a (t : topo W) positions root sub_input runs : forall ls, Forall2 (run_drawn a t positions root sub_input) runs ls -> (forall h, In h (concat runs) -> ~ cut a t positions h) ->
  exists ms, concat ms = concat ls /\ Forall2 (along t positions) (concat runs) ms.
Proof.
  induction runs as [|g runs IH]; intros ls F NC; inversion F as [|? l ? ls' R F']; subst; [exists []; split; [reflexivity|constructor]|]. destruct (IH ls' F') as (ms & E & A). { intros h I. apply NC. cbn. apply in_app_iff. auto. }
  inversion R as [h l0 AL|h g' k u x y v i input t0 t1 A0 AG AK SR]; subst.
  - exists (l :: ms). cbn. split; [rewrite E; reflexivity|]. constructor; assumption.
  - exfalso. inversion SR as [|? ? _ HD]; subst. apply (NC h); [cbn; left; reflexivity|]. destruct g'; cbn in HD; inversion HD as [|? ? X]; subst; exact (proj1 X).
Qed.
Lemma skip_first {A} (l : list A) n h : nth_error l n = Some h -> exists r, skipn n l = h :: r.
Proof. revert n. induction l as [|x l IH]; intros [|n] H; try discriminate; cbn in *; [injection H as ->; eauto|apply IH, H]. Qed.
Lemma walk_closes {W} (t : topo W) l n h k : closed_walk t l -> nth_error l n = Some h -> last_opt (skipn n l ++ firstn n l) = Some k -> forall x, ends_at t k x -> ends_at t (other_half h) x.
Proof.
  intros (_ & F) Hn Hk x (p & Pk & X). rewrite Forall_forall in F. specialize (F (k, h)). cbn [fst snd] in F. destruct F as (p' & E1 & E2).
  - unfold cyclic. assert (Ln : n < length l) by (apply nth_error_Some; congruence). destruct n as [|n].
    + cbn [skipn firstn] in Hk. rewrite app_nil_r in Hk. destruct l as [|z l]; [discriminate|]. injection Hn as ->. cbn [tl firstn]. destruct (exists_last (l := h :: l) ltac:(discriminate)) as (u & y & E). rewrite E in *. rewrite last_opt_app in Hk. injection Hk as ->.
      assert (length l = length u) as LL. { apply (f_equal (@length half)) in E. rewrite app_length in E. cbn in E. lia. }
      clear - LL. revert l LL. induction u as [|z u IH]; intros [|w l] LL; try discriminate; cbn; [left; reflexivity|right; apply IH; cbn in LL; lia].
    + assert (exists y, nth_error l n = Some y) as (y & Hy). { destruct (nth_error l n) eqn:E; [eauto|]. apply nth_error_None in E. lia. }
      assert (y = k) as ->. { assert (firstn (S n) l = firstn n l ++ [y]) as E. { clear - Hy. revert l Hy. induction n as [|n IH]; intros [|z l] H; try discriminate; cbn in *; [congruence|]. f_equal. apply IH, H. } rewrite E, app_assoc, last_opt_app in Hk. congruence. }
      assert (nth_error (tl l ++ firstn 1 l) n = Some h) as Ht. { destruct l as [|z l]; [discriminate|]. cbn [tl]. cbn [nth_error] in Hn. rewrite nth_error_app1; [exact Hn|apply nth_error_Some; congruence]. }
      revert Hy Ht. generalize (tl l ++ firstn 1 l). clear. revert n. induction l as [|z l IH]; intros [|n] [|w v] A B; try discriminate; cbn in *; [left; congruence|right; eapply IH; eassumption].
  - exists p. split; [congruence|exact X].
Qed.

(** If no input curve was cut along the contour, drawing succeeds, every element of every output segment of the contour is in the path, nothing else, and the path ends where it starts. *)
Theorem uncut_contour_paths : forall (W : Type) (t : topo W) a positions inside cs, sweepable a -> tables_full a -> well_formed t -> segments_run_down a t -> laid_out t positions -> contours t inside = Ok cs ->
  forall dbg root sub_input c, In c cs -> (forall h, In h (c_segs c) -> ~ cut a t positions h /\ ~ cut a t positions (other_half h)) ->
  exists n p ls, segs_to_path dbg a t positions root sub_input (c_segs c) = Ok (MoveTo p :: concat ls) /\ Forall2 (along t positions) (skipn n (c_segs c) ++ firstn n (c_segs c)) ls /\
    option_map pel_end (last_opt (concat ls)) = Some p.
Proof.
  intros W t a positions inside cs SA TF WF RD LO CS dbg root sub_input c Ic NC. destruct (contours_partition W t inside WF) as (cs' & CS' & _ & _ & CW). assert (cs' = cs) as -> by congruence. rewrite Forall_forall in CW. destruct (CW c Ic) as (CL & _).
  destruct (contour_paths W t a positions inside cs SA TF WF RD LO CS dbg root sub_input c Ic) as [(path & E & n & p & runs & ls & h & -> & CC & F & _ & Hn & Ep & _)|(_ & X)].
  - destruct (one_by_one a t positions root sub_input runs ls F) as (ms & E1 & A). { intros k I. apply NC. rewrite CC in I. rewrite <- (firstn_skipn n (c_segs c)). apply in_app_iff. apply in_app_iff in I. tauto. }
    exists n, p, ms. rewrite E1. rewrite CC in A. split; [exact E|]. split; [exact A|]. rewrite <- E1.
    destruct (skip_first _ _ _ Hn) as (r & Er). destruct (exists_last (l := skipn n (c_segs c) ++ firstn n (c_segs c))) as (u & k & EU); [rewrite Er; discriminate|]. rewrite EU in A. apply Forall2_app_inv_l in A. destruct A as (m1 & m2 & _ & A2 & ->). inversion A2 as [|? m ? m2' AK A2']; subst. inversion A2'; subst.
    destruct (along_end t positions k m AK) as (x & X1 & X2). rewrite concat_app. cbn [concat]. rewrite app_nil_r. destruct (exists_last (l := m)) as (m0 & e & ->); [intros ->; discriminate X2|]. rewrite app_assoc, last_opt_app. rewrite last_opt_app in X2. rewrite X2. f_equal.
    assert (LK : last_opt (skipn n (c_segs c) ++ firstn n (c_segs c)) = Some k) by (rewrite EU; apply last_opt_app). pose proof (walk_closes t (c_segs c) n h k CL Hn LK x X1) as X3. exact (ends_fun t _ _ _ X3 Ep).
  - exfalso. destruct CL as (NE & _). destruct (c_segs c) as [|h l] eqn:El; [congruence|]. exact (proj2 (NC h (or_introl eq_refl)) (X h (or_introl eq_refl))).
Qed.
Print Assumptions uncut_contour_paths.

Lemma keeps_down {W} a (t t' : topo W) : keeps t t' -> segments_run_down a t -> segments_run_down a t'.
Proof. intros K H o L. rewrite (kp_wind _ _ K) in L. destruct (H o L) as (x & y & i & R). exists x, y, i. unfold ends_at, TopoSpec.pt in *. rewrite (kp_pidx _ _ K), (kp_points _ _ K), (kp_orig _ _ K). exact R. Qed.
Lemma rmap_at {A B} (f : A -> res B) l : forall r, rmap f l = Ok r -> length r = length l /\ forall k x, nth_error l k = Some x -> exists y, nth_error r k = Some y /\ f x = Ok y.
Proof.
  induction l as [|z l IH]; intros r H; cbn [rmap] in H; [injection H as <-; split; [reflexivity|intros [|k] x E; discriminate E]|]. destruct (f z) as [y|] eqn:E; [|discriminate H]. cbn [rbind] in H. destruct (rmap f l) as [r'|] eqn:E'; [|discriminate H]. cbn [rbind] in H. injection H as <-.
  destruct (IH r' eq_refl) as (LL & X). split; [cbn; lia|]. intros [|k] x Hk; cbn in *; [injection Hk as ->; eauto|apply X, Hk].
Qed.
Lemma endpoints_at {W} (t : topo W) ends : end_points t = Ok ends -> length ends = length (t_orig t) /\ forall o p q, nth_error ends o = Some (p, q) -> ends_at t (first_half o) p /\ ends_at t (second_half o) q.
Proof.
  unfold end_points. intro H. destruct (rmap_at _ _ _ H) as (L & X). rewrite seq_length in L. split; [exact L|]. intros o p q E. assert (o < length (t_orig t)) by (rewrite <- L; apply nth_error_Some; congruence).
  destruct (X o o) as (y & Hy & F). { rewrite (nth_error_nth' _ 0) by (rewrite seq_length; lia). f_equal. apply seq_nth. lia. } rewrite E in Hy. injection Hy as <-.
  destruct (point_of t (first_half o)) as [u|] eqn:E1; [|discriminate F]. cbn [rbind] in F. destruct (point_of t (second_half o)) as [v|] eqn:E2; [|discriminate F]. cbn [rbind] in F. injection F as -> ->. split; apply point_ends; assumption.
Qed.

(** The layout of every topology that the sweep builds, before or after merging, is of this kind. *)
Lemma layout_laid_out : forall (W T : Type) (ops : wops W T) tag a eps cmp ccmp min_x max_x lower upper at_y pps sort_by l,
  topo_input tag a eps cmp ccmp min_x max_x lower upper at_y pps sort_by l ->
  forall pcmp sub trans_after trans_before est pop, comparer_ok a pcmp -> heap_ok pop -> roomy a (fdiv eps ffour) ->
  forall fuel buf t0 t, 2 * arena_len a < fuel -> process_lines ops a tag sort_by eps lower upper at_y fuel l buf (topo_new (arena_len a)) = Ok t0 -> t = t0 \/ (exists close, merge_coincident ops close t0 = Ok t) ->
  segments_run_down a t /\ (exists fuel0, forall m, fuel0 <= m -> exists out, topo_positions false a pcmp sub trans_after trans_before est pop sort_by eps t m = Ok out) /\
  forall m out, topo_positions false a pcmp sub trans_after trans_before est pop sort_by eps t m = Ok out -> laid_out t out.
Proof.
  intros W T ops tag a eps cmp ccmp min_x max_x lower upper at_y pps sort_by l IN pcmp sub trans_after trans_before est pop PC HP RM fuel buf t0 t F E1 TT.
  destruct (topology_rings W T ops tag a eps cmp ccmp min_x max_x lower upper at_y pps sort_by l IN fuel buf F) as (t0' & R & E1' & _ & _ & _ & RD). rewrite E1 in E1'. injection E1' as <-.
  destruct (positions_laid_out W T ops tag a eps cmp ccmp min_x max_x lower upper at_y pps sort_by l IN pcmp sub trans_after trans_before est pop PC HP RM fuel buf F) as (t0' & E1' & LAY). rewrite E1 in E1'. injection E1' as <-.
  destruct (LAY t TT) as (ends & m0 & fuel0 & EE & _ & LE & LAY').
  assert (K : keeps t0 t) by (destruct TT as [->|(close & H)]; [apply keeps_refl|eapply merge_keeps, H]). pose proof (keeps_down a t0 t K RD) as RD'.
  split; [exact RD'|]. split; [exists fuel0; intros m Lm; destruct (LAY' m Lm) as (out & TP & _); exists out; exact TP|]. intros m out TP.
  destruct (endpoints_at t ends EE) as (_ & EN).
  destruct (topo_placed ops tag a eps cmp ccmp min_x max_x lower upper at_y pps sort_by l IN fuel buf F) as (t0' & ends0 & E1' & EE0 & PD). rewrite E1 in E1'. injection E1' as <-.
  rewrite (keeps_ends t0 t K) in EE. assert (ends0 = ends) as -> by congruence. rewrite <- (keeps_ends t0 t K) in EE.
  intros o L. destruct (RD' o L) as (p & q & i & Ep & Eq & Oi & RG & LT & Y1 & Y3). assert (o < length ends) as L'. { rewrite LE. apply nth_error_Some. congruence. } destruct (nth_error ends o) as [[p' q']|] eqn:En; [|apply nth_error_None in En; lia].
    destruct (EN o p' q' En) as (A1 & A2). exists p', q'. unfold topo_positions in TP. rewrite EE in TP. cbn [rbind] in TP. destruct (build_scan_line_orders sort_by t) as [m1|] eqn:BS; [|discriminate TP]. cbn [rbind] in TP. apply paths_keep_ends in TP.
  - destruct TP as (TL & TC). assert (o < length out) as LX by (rewrite TL; rewrite <- LE; exact L'). destruct (nth_error out o) as [x|] eqn:Ho; [|apply nth_error_None in Ho; lia]. exists x. split; [exact A1|]. split; [exact A2|]. split; [reflexivity|].
    destruct (TC o x Ho) as (p1 & q1 & En1 & C). rewrite En in En1. injection En1 as <- <-. exact C.
  - intros o' p1 q1 En1. assert (exists i1, nth_error (t_orig t0) o' = Some i1) as (i1 & Oi1). { destruct (nth_error (t_orig t0) o') eqn:X; [eauto|]. apply nth_error_None in X. pose proof (proj1 (nth_error_Some ends o') ltac:(congruence)). rewrite (pd_orig _ _ _ _ PD), <- (pd_len _ _ _ _ PD) in X. lia. }
    apply (pd_span _ _ _ _ PD o' i1 p1 q1 Oi1 En1).
Qed.
(** The same from the segments on: if the sweep finishes, the topology is built, its output segments are laid out, and its contours are found and drawn. *)
Theorem contours_from_segments_drawn : forall (W T : Type) (ops : wops W T) tag a eps cmp ccmp min_x max_x lower upper at_y pps sort_by l close,
  wops_ok ops -> units ops -> topo_input tag a eps cmp ccmp min_x max_x lower upper at_y pps sort_by l -> closed_contours a tag ->
  starts_in_box a eps lower upper -> close_sound a eps lower upper close (map sw_y l) ->
  forall pcmp sub trans_after trans_before est pop, comparer_ok a pcmp -> heap_ok pop -> roomy a (fdiv eps ffour) -> tables_full a ->
  forall fuel n, 2 * arena_len a < fuel -> sweep a eps cmp ccmp min_x max_x lower upper pps sort_by fuel n 0 (sweeper_new a) = Ok (l, true) ->
  exists t fuel0, from_segments ops a tag eps cmp ccmp min_x max_x lower upper at_y pps sort_by close fuel n = Ok t /\
  forall m, fuel0 <= m -> exists out, topo_positions false a pcmp sub trans_after trans_before est pop sort_by eps t m = Ok out /\
  forall inside, exists cs, contours t inside = Ok cs /\ forall dbg root sub_input c, In c cs ->
    let drawing := segs_to_path dbg a t out root sub_input (c_segs c) in
    ((exists path, drawing = Ok path /\ draws a t out root sub_input (c_segs c) path) \/ (drawing = Err EStart /\ forall h, In h (c_segs c) -> cut a t out (other_half h))) /\
    ((forall h, In h (c_segs c) -> ~ cut a t out h /\ ~ cut a t out (other_half h)) ->
       exists k p ls, drawing = Ok (MoveTo p :: concat ls) /\ Forall2 (along t out) (skipn k (c_segs c) ++ firstn k (c_segs c)) ls /\ option_map pel_end (last_opt (concat ls)) = Some p).
Proof.
  intros W T ops tag a eps cmp ccmp min_x max_x lower upper at_y pps sort_by l close OK UN IN CC SIB CLS pcmp sub trans_after trans_before est pop PC HP RM TF fuel n F RUN.
  destruct (merging_sound W T ops tag a eps cmp ccmp min_x max_x lower upper at_y pps sort_by l close OK UN IN CC SIB CLS fuel [] F) as (t0 & t & E1 & E2 & _ & WF & _).
  destruct (layout_laid_out W T ops tag a eps cmp ccmp min_x max_x lower upper at_y pps sort_by l IN pcmp sub trans_after trans_before est pop PC HP RM fuel [] t0 t F E1) as (RD' & (fuel0 & LAY) & LOA); [right; exists close; exact E2|].
  exists t, fuel0. split; [unfold from_segments; rewrite RUN; cbv beta iota; cbn [negb rbind]; rewrite E1; exact E2|]. intros m Lm. destruct (LAY m Lm) as (out & TP). pose proof (LOA m out TP) as LO. exists out. split; [exact TP|].
  pose proof (ss_arena _ _ _ _ _ (ti_setting _ _ _ _ _ _ _ _ _ _ _ _ _ IN)) as SA.
  intros inside. destruct (contours_partition W t inside WF) as (cs & CS & _). exists cs. split; [exact CS|]. intros dbg root sub_input c Ic. cbv zeta. split.
  - exact (contour_paths W t a out inside cs SA TF WF RD' LO CS dbg root sub_input c Ic).
  - intro NC. exact (uncut_contour_paths W t a out inside cs SA TF WF RD' LO CS dbg root sub_input c Ic NC).
Qed.
Print Assumptions contours_from_segments_drawn.

(** Every arena that can be built has full tables. *)
Theorem reachable_tables_full : forall eval ctrl monic quad at_y sort_by, sort_spec sort_by -> forall ops a, reachable eval ctrl monic quad at_y sort_by ops a -> tables_full a.
Proof.
  intros eval ctrl monic quad at_y sort_by SS ops a R. pose proof (reachable_stores eval ctrl monic quad at_y sort_by ops a SS R) as S. destruct (segments_read_back eval ctrl monic quad at_y sort_by SS ops a R) as (L & _).
  split; [exact (st_orient _ _ S)|]. rewrite (st_t _ _ S), (st_inp _ _ S), !map_length, L. auto.
Qed.
Print Assumptions reachable_tables_full.
(** If only polylines were added, no input curve is cut anywhere; so [uncut_contour_paths] applies to every contour. *)
Theorem polylines_never_cut : forall eval ctrl monic quad at_y sort_by, sort_spec sort_by -> forall ops a, (forall b p, ~ In (OpBez b p) ops) -> reachable eval ctrl monic quad at_y sort_by ops a ->
  forall W (t : topo W) positions h, ~ cut a t positions h.
Proof.
  intros eval ctrl monic quad at_y sort_by SS ops a NB R W t positions h (i & s & lo & hi & orient & x & p & Oi & Si & Sp & _ & _ & _ & _ & _ & C & _).
  pose proof (st_t _ _ (reachable_stores eval ctrl monic quad at_y sort_by ops a SS R)) as ST. rewrite ST, nth_error_map in Sp. destruct (nth_error (all_edges _) i) as [e|] eqn:E; [|discriminate Sp]. cbn [option_map] in Sp.
  apply nth_error_In in E. unfold all_edges, history_contours in E. apply in_flat_map in E. destruct E as (c & Ic & Ie). apply in_flat_map in Ic. destruct Ic as (op & Iop & Ic).
  assert (LE : exists u v, e = line_edge u v).
  { destruct op as [ps|pss|b q]; [| |exfalso; exact (NB b q Iop)]; cbn [op_contours fst] in Ic.
    - destruct Ic as [<-|[]]. cbn [edges] in Ie. unfold open_edges in Ie. apply in_map_iff in Ie. destruct Ie as (k & <- & _). eauto.
    - apply in_map_iff in Ic. destruct Ic as (ps & <- & _). cbn [edges] in Ie. unfold closed_edges in Ie. destruct (length ps <=? 1); [destruct Ie|]. apply in_map_iff in Ie. destruct Ie as (k & <- & _). eauto. }
  destruct LE as (u & v & ->). cbn [e_t line_edge] in Sp. injection Sp as <- <-. destruct (Bool.eqb (h_first h) orient); vm_compute in C; discriminate C.
Qed.
Print Assumptions polylines_never_cut.
