(** Proofs about collecting paths into an arena. *)
From Coq Require Import List Bool ZArith Lia Permutation Sorted Arith.
From Verif Require Import F64 F64Arith TreeVecModel GeomModel SegmentsModel SegmentsSpec SegmentsProofs
  SegmentsProofs2 SegmentsProofs3 SegmentsProofs4 SegmentsProofs5 PropsSegments CurveOrderModel CurveOrderSpec CurveOrderProofs
  SweepModel SweepSpec SweepReach TopoModel TopoSpec WindSpec FromPathsModel.
Import ListNotations.

(** An arena that stores given contours, all of them registered, with finite coordinates and sorted events, can be swept. *)
Section Stored.
Variable at_y : segment -> f64 -> f64.
Variable cs : list contour.
Variable a : arena.
Hypothesis ST : stores cs a.
Hypothesis REG : forall c, In c cs -> SegmentsSpec.registered c = true.
Hypothesis ND : no_dangling cs.
Hypothesis CH : forall c, In c cs -> contour_chain c.
Hypothesis FN : forall s, In s (segs a) -> point_fin (seg_start s) /\ point_fin (seg_end s).
Hypothesis SRT : events_sorted a.

Lemma sd_len : arena_len a = length (all_edges cs).
Proof. apply stores_split in ST. destruct ST as [B _]. apply (body_len _ _ B). Qed.
Lemma sd_at i : i < arena_len a -> nth_error (segs a) i = Some (seg_def a i).
Proof. intros Hi. unfold seg_def. apply nth_error_nth'. exact Hi. Qed.
Lemma sd_fin i : i < arena_len a -> point_fin (seg_start (seg_def a i)) /\ point_fin (seg_end (seg_def a i)).
Proof. intros Hi. apply FN. eapply nth_error_In, sd_at, Hi. Qed.
Lemma sd_wf i : i < arena_len a -> seg_wf (seg_def a i).
Proof. intros Hi. pose proof (st_wf _ _ ST) as W. rewrite Forall_forall in W. apply W. eapply nth_error_In, sd_at, Hi. Qed.
Lemma sd_rg : registered_from 0 cs = seq 0 (arena_len a).
Proof. rewrite sd_len. apply registered_every. exact REG. Qed.
Lemma sd_reg i : SweepSpec.registered a i <-> i < arena_len a.
Proof.
  unfold SweepSpec.registered. assert (P : Permutation (map snd (enter a)) (seq 0 (arena_len a))).
  { rewrite (st_enter _ _ ST), sd_rg, map_map. cbn. rewrite map_id. reflexivity. }
  split; intros H.
  - eapply Permutation_in in H; [|exact P]. apply in_seq in H. lia.
  - eapply Permutation_in; [symmetry; exact P|]. apply in_seq. lia.
Qed.
Lemma sd_pl i : i < arena_len a -> (key (start_y a i) < key (end_y a i))%Z \/
    (key (start_y a i) = key (end_y a i) /\ (key (px (seg_start (seg_def a i))) <= key (px (seg_end (seg_def a i))))%Z).
Proof. intros Hi. destruct (sd_fin i Hi). apply point_le_y; [assumption|assumption|]. apply (sd_wf i Hi). Qed.
Lemma sd_na i : i < arena_len a -> nan (start_y a i) = false /\ nan (end_y a i) = false.
Proof. intros Hi. destruct (sd_fin i Hi) as [[_ F1] [_ F2]]. split; apply fin_nonnan; assumption. Qed.
Lemma sd_hz i : i < arena_len a -> is_horizontal (seg_def a i) = Some (negb (slanted a i)).
Proof.
  intros Hi. rewrite is_horizontal_wf by (apply sd_wf, Hi). f_equal.
  destruct (sd_na i Hi). unfold slanted. fold (start_y a i) (end_y a i). pose proof (sd_pl i Hi) as P.
  destruct (flt (start_y a i) (end_y a i)) eqn:F1, (feq (start_y a i) (end_y a i)) eqn:F2; fk; zb; try reflexivity; lia.
Qed.
Lemma sd_orient i : i < arena_len a -> exists o, nth_error (orientation a) i = Some o.
Proof.
  intros Hi. destruct (nth_error (orientation a) i) eqn:E; [eauto|]. exfalso. apply nth_error_None in E.
  rewrite (st_orient _ _ ST) in E. unfold arena_len in Hi. lia.
Qed.
Lemma sd_inv i j : nth_error (contour_next a) i = Some (Some j) <-> nth_error (contour_prev a) j = Some (Some i).
Proof. rewrite (st_next _ _ ST), (st_prev _ _ ST). apply links_inverse, ND. Qed.
Lemma sd_links i j : nth_error (contour_next a) i = Some (Some j) -> i < arena_len a /\ j < arena_len a /\ exists p q,
  oriented_end a i = Some p /\ oriented_start a j = Some q /\ p = seg_head a i /\ q = seg_tail a j /\ point_eq p q = true.
Proof.
  intros H. pose proof H as H0. rewrite (st_next _ _ ST) in H. destruct (links_meet cs ND CH i j H) as (e & f & E & F & M).
  assert (Li : i < arena_len a) by (rewrite sd_len; apply nth_error_Some; congruence).
  assert (Lj : j < arena_len a) by (rewrite sd_len; apply nth_error_Some; congruence).
  split; [exact Li|]. split; [exact Lj|].
  assert (OE : oriented_end a i = Some (e_to e)) by (rewrite oriented_end_read, <- nth_error_map', (st_to _ _ ST), nth_error_map', E; reflexivity).
  assert (OS : oriented_start a j = Some (e_from f)) by (rewrite oriented_start_read, <- nth_error_map', (st_from _ _ ST), nth_error_map', F; reflexivity).
  exists (e_to e), (e_from f). split; [exact OE|]. split; [exact OS|].
  destruct (sd_orient i Li) as [oi Oi], (sd_orient j Lj) as [oj Oj].
  unfold oriented_end in OE. unfold oriented_start in OS. rewrite (sd_at i Li), Oi in OE. rewrite (sd_at j Lj), Oj in OS. cbn [option_bind] in OE, OS.
  assert (HE : e_to e = seg_head a i) by (unfold seg_head, orient; rewrite Oi; congruence).
  assert (HS : e_from f = seg_tail a j) by (unfold seg_tail, orient; rewrite Oj; congruence).
  split; [exact HE|]. split; [exact HS|]. apply fin_point_eq; [|exact M]. destruct (sd_fin i Li). rewrite HE. unfold seg_head. destruct (orient a i); assumption.
Qed.

Lemma stored_sweepable : sweepable a.
Proof.
  pose proof sd_rg as RG. pose proof sd_reg as RI. destruct SRT as [SE SX].
  assert (LP : length (contour_prev a) = arena_len a /\ length (contour_next a) = arena_len a).
  { rewrite (st_prev _ _ ST), (st_next _ _ ST), !links_length, sd_len. auto. }
  assert (SLE : forall i, i < arena_len a -> negb (feq (py (seg_start (nth i (segs a) (SLine p00 p00)))) (py (seg_end (nth i (segs a) (SLine p00 p00))))) = slanted a i).
  { intros i Hi. pose proof (sd_hz i Hi) as Z. rewrite is_horizontal_wf in Z by (apply sd_wf, Hi). injection Z as Z. unfold seg_def in Z at 1 2.
    rewrite (nth_indep _ _ (SLine p00 p00)) in Z by exact Hi. rewrite Z. apply negb_involutive. }
  assert (SDN : forall i, i < arena_len a -> nth i (segs a) (SLine p00 p00) = seg_def a i) by (intros i Hi; apply nth_indep; exact Hi).
  split.
  - exact sd_fin.
  - intros i Hi. split; [|apply sd_hz, Hi]. destruct (sd_na i Hi). pose proof (sd_pl i Hi). fk. apply Z.leb_le. lia.
  - intros i Hi S. destruct (sd_fin i Hi) as [[F1 _] [F2 _]]. apply fin_nonnan in F1, F2. destruct (sd_na i Hi). pose proof (sd_pl i Hi). unfold slanted in S. fk. zb. lia.
  - eapply Permutation_NoDup; [|apply (seq_NoDup (arena_len a) 0)]. symmetry. rewrite (st_enter _ _ ST), RG, map_map. cbn. rewrite map_id. reflexivity.
  - intros y i H. apply (Permutation_in _ (st_enter _ _ ST)) in H. apply in_map_iff in H. destruct H as (k & E & Hk). injection E as <- <-.
    rewrite RG in Hk. apply in_seq in Hk. split; [lia|]. rewrite SDN by lia. reflexivity.
  - exact SE.
  - assert (P : Permutation (map snd (exit_ a)) (filter (fun i => let s := nth i (segs a) (SLine p00 p00) in negb (feq (py (seg_start s)) (py (seg_end s)))) (registered_from 0 cs))).
    { rewrite (st_exit _ _ ST), map_map. cbn. rewrite map_id. reflexivity. }
    eapply Permutation_NoDup; [symmetry; exact P|]. apply NoDup_filter. rewrite RG. apply seq_NoDup.
  - intros y i. rewrite RI. split.
    + intros H. apply (Permutation_in _ (st_exit _ _ ST)) in H. apply in_map_iff in H. destruct H as (k & E & Hk). injection E as <- <-.
      apply filter_In in Hk. destruct Hk as [Hk S]. rewrite RG in Hk. apply in_seq in Hk. cbv zeta in S. rewrite SLE in S by lia.
      split; [lia|]. split; [exact S|]. rewrite SDN by lia. reflexivity.
    + intros (Hi & S & ->). eapply Permutation_in; [symmetry; exact (st_exit _ _ ST)|]. apply in_map_iff. exists i. split; [rewrite SDN by exact Hi; reflexivity|].
      apply filter_In. split; [rewrite RG; apply in_seq; lia|]. cbv zeta. rewrite SLE by exact Hi. exact S.
  - exact SX.
  - intros i Hi. apply RI in Hi. destruct (sd_orient i Hi) as [o Ho]. unfold sweep_prev. rewrite Ho. cbn [orerr rbind].
    destruct LP as [L1 L2].
    destruct (nth_error (if o then contour_prev a else contour_next a) i) as [p|] eqn:Ep.
    2:{ apply nth_error_None in Ep. destruct o; lia. }
    exists p. split; [reflexivity|]. intros q ->.
    assert (OI : orient a i = o) by (unfold orient; rewrite Ho; reflexivity).
    assert (ME : q < arena_len a /\ exists oq : bool, point_eq (if oq then seg_end (seg_def a q) else seg_start (seg_def a q)) (seg_start (seg_def a i)) = true).
    { destruct o.
      - apply sd_inv in Ep. destruct (sd_links q i Ep) as (Q1 & _ & x & y & _ & _ & -> & -> & M). split; [exact Q1|].
        unfold seg_head, seg_tail in M. rewrite OI in M. exists (orient a q). exact M.
      - destruct (sd_links i q Ep) as (_ & Q1 & x & y & _ & _ & -> & -> & M). split; [exact Q1|].
        unfold seg_head, seg_tail in M. rewrite OI in M. exists (negb (orient a q)). apply peq_sym in M. destruct (orient a q); exact M. }
    destruct ME as (Hq & oq & M). split; [exact Hq|]. intros FL. destruct oq; [exact M|].
    exfalso. apply andb_true_iff, proj1 in M. fold (start_y a q) (start_y a i) in M. destruct (sd_na q Hq), (sd_na i Hi). fk. zb. lia.
Qed.

Lemma stored_checked : check_invariants a = true.
Proof.
  unfold check_invariants. apply forallb_forall. intros i Hi. apply in_seq in Hi. assert (L : i < arena_len a) by lia.
  unfold check_one. rewrite (sd_at i L). destruct (sd_wf i L) as [-> _]. cbn [andb].
  destruct (nth_error (contour_next a) i) as [[j|]|] eqn:E; [|reflexivity|].
  - destruct (sd_links i j E) as (_ & _ & p & q & -> & -> & _ & _ & ->). apply sd_inv in E. rewrite E, Nat.eqb_refl. reflexivity.
  - apply nth_error_None in E. rewrite (st_next _ _ ST), links_length, <- sd_len in E. lia.
Qed.

Hypothesis CL : forall c, In c cs -> edges c = [] \/ ckind c = KClosed.
Lemma stored_next i : i < arena_len a -> exists j, nth_error (contour_next a) i = Some (Some j) /\
  (exists pre c post k l, cs = pre ++ c :: post /\ k < length (edges c) /\ l < length (edges c) /\ i = length (all_edges pre) + k /\ j = length (all_edges pre) + l).
Proof.
  intros L. rewrite sd_len in L. destruct (locate cs i L) as (pre & c & post & k & E & Hk & ->). rewrite (st_next _ _ ST), E, links_at by exact Hk.
  destruct (CL c) as [X|X]; [rewrite E; apply in_elt|rewrite X in Hk; cbn in Hk; lia|]. rewrite X. unfold next_of. cbn [Nat.add].
  destruct (S k =? length (edges c)) eqn:EK.
  - eexists. split; [reflexivity|]. exists pre, c, post, k, 0. repeat split; try assumption; lia.
  - apply Nat.eqb_neq in EK. eexists. split; [reflexivity|]. exists pre, c, post, k, (S k). repeat split; try assumption; lia.
Qed.
Lemma stored_prev j : j < arena_len a -> exists i, nth_error (contour_prev a) j = Some (Some i) /\
  (exists pre c post k l, cs = pre ++ c :: post /\ k < length (edges c) /\ l < length (edges c) /\ i = length (all_edges pre) + k /\ j = length (all_edges pre) + l).
Proof.
  intros L. rewrite sd_len in L. destruct (locate cs j L) as (pre & c & post & k & E & Hk & ->). rewrite (st_prev _ _ ST), E, links_at by exact Hk.
  destruct (CL c) as [X|X]; [rewrite E; apply in_elt|rewrite X in Hk; cbn in Hk; lia|]. rewrite X. unfold prev_of. cbn [Nat.add].
  destruct k as [|k].
  - eexists. split; [reflexivity|]. exists pre, c, post, (length (edges c) - 1), 0. repeat split; try assumption; lia.
  - eexists. split; [reflexivity|]. exists pre, c, post, k, (S k). repeat split; try assumption; lia.
Qed.
Lemma stored_closed {T} (tag : list T) :
  (forall pre c post k l, cs = pre ++ c :: post -> k < length (edges c) -> l < length (edges c) ->
     nth_error tag (length (all_edges pre) + k) = nth_error tag (length (all_edges pre) + l)) ->
  closed_contours a tag.
Proof.
  intros TG. assert (FO : forall i j, nth_error (contour_next a) i = Some (Some j) -> follows a i j).
  { intros i j E. destruct (sd_links i j E) as (_ & _ & p & q & _ & _ & -> & -> & M). split; [exact E|]. split; [apply sd_inv, E|exact M]. }
  constructor; intros i Hi; apply sd_reg in Hi.
  - destruct (stored_next i Hi) as (j & E & pre & c & post & k & l & EC & K & L & -> & ->). eexists. split; [|split; [apply FO, E|eapply TG; eassumption]].
    apply sd_reg. destruct (sd_links _ _ E) as (_ & X & _). exact X.
  - destruct (stored_prev i Hi) as (j & E & pre & c & post & k & l & EC & K & L & -> & ->). apply sd_inv in E. eexists. split; [|split; [apply FO, E|eapply TG; eassumption]].
    apply sd_reg. destruct (sd_links _ _ E) as (X & _). exact X.
Qed.
End Stored.

(** ** Collecting the paths *)
Section Collect.
Variable eval : cubic -> f64 -> point.
Variable ctrl : cubic -> f64 -> f64 -> point * point.
Variable monic : f64 -> f64 -> f64 * f64.
Variable quad_ctrl : point -> point -> point -> point * point.

(** The edges of a path, in order. *)
Definition path_edges (p : list pathel) : list edge := flat_map (subpath_edges eval monic quad_ctrl) (subpaths p).
Definition path_contours (p : list pathel) : list contour := map (fun sub => bez_contour true (subpath_edges eval monic quad_ctrl sub)) (subpaths p).
Lemma path_contours_edges p : all_edges (path_contours p) = path_edges p.
Proof. unfold all_edges, path_contours, path_edges. induction (subpaths p) as [|s l IH]; [reflexivity|]. cbn. rewrite IH. reflexivity. Qed.

Definition fin_segs (a : arena) : Prop := forall s, In s (segs a) -> point_fin (seg_start s) /\ point_fin (seg_end s).
Lemma fin_push a s o t inp : fin_segs a -> point_fin (seg_start s) -> point_fin (seg_end s) -> fin_segs (push_seg a s o t inp).
Proof. intros H P Q x Hx. cbn in Hx. apply in_app_or in Hx. destruct Hx as [Hx|[<-|[]]]; [apply H, Hx|auto]. Qed.
Lemma fin_from p q : from_kurbo p = Some q -> point_fin q.
Proof. intros H. apply from_kurbo_some in H. destruct H as (-> & H). exact H. Qed.
Lemma fin_cubic p0 p1 p2 p3 s : point_fin p0 -> point_fin p3 -> monotonic_cubic p0 p1 p2 p3 = Some s -> point_fin (seg_start s) /\ point_fin (seg_end s).
Proof.
  intros A B. unfold monotonic_cubic. destruct (feq _ _); [|intros [= <-]; auto]. unfold straight. destruct (point_le p0 p3); [|discriminate]. intros [= <-]. auto.
Qed.
Lemma fin_piece a inp m a' : fin_segs a -> push_piece a inp m = Some a' -> fin_segs a'.
Proof.
  intros F. unfold push_piece. destruct (if tuple_le _ _ then _ else _) as [[[[q0 q1] q2] q3] o].
  destruct (from_kurbo q0) as [x0|] eqn:F0; [|discriminate]. cbn [option_bind]. destruct (from_kurbo q1) as [x1|] eqn:F1; [|discriminate]. cbn [option_bind].
  destruct (from_kurbo q2) as [x2|] eqn:F2; [|discriminate]. cbn [option_bind]. destruct (from_kurbo q3) as [x3|] eqn:F3; [|discriminate]. cbn [option_bind].
  destruct (monotonic_cubic x0 x1 x2 x3) as [s|] eqn:M; [|discriminate]. cbn [option_bind]. intros [= <-].
  destruct (fin_cubic _ _ _ _ _ (fin_from _ _ F0) (fin_from _ _ F3) M). apply fin_push; assumption.
Qed.
Lemma fin_pieces ms : forall a inp a', fin_segs a -> push_pieces a inp ms = Some a' -> fin_segs a'.
Proof.
  induction ms as [|m ms IH]; intros a inp a' F H; cbn [push_pieces] in H; [injection H as <-; exact F|].
  destruct (push_piece a inp m) as [a1|] eqn:E; [|discriminate]. cbn [option_bind] in H. eapply IH; [eapply fin_piece; eassumption|exact H].
Qed.
Lemma fin_pathseg a s a' : fin_segs a -> push_pathseg eval ctrl monic quad_ctrl a s = Some a' -> fin_segs a'.
Proof.
  intros F. assert (G : forall c, option_bind (monotonic_pieces eval ctrl monic c) (push_pieces a s) = Some a' -> fin_segs a').
  { intros c. destruct (monotonic_pieces eval ctrl monic c) as [ms|]; [|discriminate]. cbn [option_bind]. apply fin_pieces, F. }
  destruct s as [p q|p q r|c]; cbn [push_pathseg]; [|apply G|apply G].
  destruct (from_kurbo p) as [p'|] eqn:Fp; [|discriminate]. destruct (from_kurbo q) as [q'|] eqn:Fq; [|discriminate]. cbn [option_bind].
  apply fin_from in Fp, Fq. destruct (point_le p' q'); (destruct (negb _); [|intros [= <-]; exact F]); unfold straight;
    (destruct (point_le _ _); [|discriminate]); cbn [option_bind]; intros [= <-]; apply fin_push; assumption.
Qed.
Lemma fin_pathsegs l : forall a a', fin_segs a -> push_pathsegs eval ctrl monic quad_ctrl a l = Some a' -> fin_segs a'.
Proof.
  induction l as [|s l IH]; intros a a' F H; cbn [push_pathsegs] in H; [injection H as <-; exact F|].
  destruct (push_pathseg eval ctrl monic quad_ctrl a s) as [a1|] eqn:E; [|discriminate]. cbn [option_bind] in H. eapply IH; [eapply fin_pathseg; eassumption|exact H].
Qed.
Lemma fin_subpath must a sub a' : fin_segs a -> add_subpath eval ctrl monic quad_ctrl must a sub = AddOk a' -> fin_segs a'.
Proof.
  intros F. unfold add_subpath. destruct (option_bind (kurbo_segments sub) _) as [a1|] eqn:E; [|discriminate].
  assert (F1 : fin_segs a1). { destruct (kurbo_segments sub) as [ss|]; [|discriminate]. cbn [option_bind] in E. eapply fin_pathsegs; eassumption. }
  destruct (_ <? _); [|intros [= <-]; exact F1]. destruct (oriented_start a1 _); [|discriminate]. destruct (oriented_end a1 _); [|discriminate].
  destruct (kpoint_eq _ _).
  - unfold set_links. destruct (upd (contour_prev a1) _ _); [|discriminate]. cbn [option_bind]. destruct (upd (contour_next a1) _ _); [|discriminate]. cbn [option_bind]. intros [= <-]. exact F1.
  - destruct must; [discriminate|]. intros [= <-]. exact F1.
Qed.
Lemma fin_subpaths must subs : forall a a', fin_segs a -> add_subpaths eval ctrl monic quad_ctrl must a subs = AddOk a' -> fin_segs a'.
Proof.
  induction subs as [|s l IH]; intros a a' F H; cbn [add_subpaths] in H; [injection H as <-; exact F|].
  destruct (add_subpath eval ctrl monic quad_ctrl must a s) as [a1| |] eqn:E; [|discriminate|discriminate]. eapply IH; [eapply fin_subpath; eassumption|exact H].
Qed.
Lemma last_default {A} (l : list A) d d' : l <> [] -> last l d = last l d'.
Proof. induction l as [|x [|y l] IH]; intros H; [congruence|reflexivity|]. change (last (y :: l) d = last (y :: l) d'). apply IH. discriminate. Qed.
(** The reported ends are those of the first subpath that is not closed. *)
Lemma err_subpaths subs : forall a a' sp ep, even a -> length (orientation a) = length (segs a) ->
  add_subpaths eval ctrl monic quad_ctrl true a subs = AddErr a' sp ep ->
  exists l1 sub l2 e, subs = l1 ++ sub :: l2 /\ (forall s, In s l1 -> closes (subpath_edges eval monic quad_ctrl s) = true) /\
    closes (subpath_edges eval monic quad_ctrl sub) = false /\ nth_error (subpath_edges eval monic quad_ctrl sub) 0 = Some e /\ sp = e_from e /\
    ep = e_to (last (subpath_edges eval monic quad_ctrl sub) e).
Proof.
  induction subs as [|s l IH]; intros a a' sp ep EV OR H; cbn [add_subpaths] in H; [discriminate|].
  pose proof (add_subpath_ok eval ctrl monic quad_ctrl true true a s EV OR) as K. cbv zeta in K.
  destruct (add_subpath eval ctrl monic quad_ctrl true a s) as [a1|a1 p q|] eqn:E; [| |discriminate].
  - destruct K as [C L]. destruct (IH a1 a' sp ep (linked_even _ _ _ EV L) (linked_orient _ _ _ OR L) H) as (l1 & sub & l2 & e & -> & C1 & K).
    exists (s :: l1), sub, l2, e. split; [reflexivity|]. split; [|exact K]. intros x [<-|Hx]; [apply C; reflexivity|apply C1, Hx].
  - destruct K as (_ & C & _ & e & He & Ep & Eq). injection H as -> -> ->. destruct (subpath_edges eval monic quad_ctrl s) as [|e0 es] eqn:ES; [destruct He|].
    exists [], s, l, e0. split; [reflexivity|]. split; [intros x []|]. rewrite ES. split; [exact C|]. split; [reflexivity|]. split; [exact Ep|].
    rewrite Eq. f_equal. apply last_default. discriminate.
Qed.

Lemma resize_grow {A} (l : list A) n x : length l <= n -> resize l n x = l ++ repeat x (n - length l).
Proof. intros H. unfold resize. rewrite firstn_all2 by exact H. reflexivity. Qed.

Context {T : Type}.
Notation add_paths := (add_paths eval ctrl monic quad_ctrl).
Definition paths_contours (ps : list (list pathel * T)) : list contour := flat_map (fun pt => path_contours (fst pt)) ps.
Definition paths_tags (ps : list (list pathel * T)) : list T := flat_map (fun pt => repeat (snd pt) (length (path_edges (fst pt)))) ps.
Definition good_path (p : list pathel) : Prop := forall sub, In sub (subpaths p) -> closes (subpath_edges eval monic quad_ctrl sub) = true.

Lemma add_paths_ok ps : forall cs a tag, body cs a -> length tag = arena_len a -> fin_segs a ->
  match add_paths a tag ps with
  | Collected a' tag' => (forall pt, In pt ps -> good_path (fst pt)) /\ linked_all a (paths_contours ps) a' /\ tag' = tag ++ paths_tags ps /\ fin_segs a'
  | NotClosed sp ep => exists l1 p t l2 s1 sub s2 e, ps = l1 ++ (p, t) :: l2 /\ (forall pt, In pt l1 -> good_path (fst pt)) /\
      subpaths p = s1 ++ sub :: s2 /\ (forall s, In s s1 -> closes (subpath_edges eval monic quad_ctrl s) = true) /\
      closes (subpath_edges eval monic quad_ctrl sub) = false /\ nth_error (subpath_edges eval monic quad_ctrl sub) 0 = Some e /\ sp = e_from e /\
      ep = e_to (last (subpath_edges eval monic quad_ctrl sub) e)
  | CollectPanic => True
  | CheckFailed => False
  end.
Proof.
  induction ps as [|[p t] ps IH]; intros cs a tag B L F; cbn [FromPathsModel.add_paths].
  - split; [intros pt []|]. split; [reflexivity|]. split; [unfold paths_tags; cbn; rewrite app_nil_r; reflexivity|exact F].
  - pose proof (add_subpaths_ok eval ctrl monic quad_ctrl true (subpaths p) a (body_even _ _ B) (bd_orient _ _ B)) as K. cbv zeta in K.
    destruct (add_subpaths eval ctrl monic quad_ctrl true a (subpaths p)) as [a1|a1 sp ep|] eqn:E; [| |exact I].
    + destruct K as [C LK]. specialize (C eq_refl). rewrite forallb_forall in C. rewrite map_map in LK. change (linked_all a (path_contours p) a1) in LK.
      destruct (body_linked_all _ _ _ _ B LK) as (B1 & _). pose proof (body_len _ _ B) as L0. pose proof (body_len _ _ B1) as L1.
      rewrite all_edges_app, app_length, path_contours_edges in L1. pose proof (fin_subpaths _ _ _ _ F E) as F1.
      assert (G : good_path p) by (intros sub Hs; apply C, in_map, Hs).
      rewrite resize_grow by lia. replace (arena_len a1 - length tag) with (length (path_edges p)) by lia.
      specialize (IH (cs ++ path_contours p) a1 (tag ++ repeat t (length (path_edges p))) B1 ltac:(rewrite app_length, repeat_length; lia) F1).
      destruct (add_paths a1 _ ps) as [a' tag'|sp ep| |]; [| |exact I|exact IH].
      * destruct IH as (I1 & I2 & -> & I4). split; [intros pt [<-|Hp]; [exact G|apply I1, Hp]|]. split; [eapply linked_all_app; eassumption|]. split; [|exact I4].
        unfold paths_tags. cbn [flat_map fst snd]. rewrite app_assoc. reflexivity.
      * destruct IH as (l1 & q & u & l2 & s1 & sub & s2 & e & -> & I1 & I2). exists ((p, t) :: l1), q, u, l2, s1, sub, s2, e. split; [reflexivity|].
        split; [intros pt [<-|Hp]; [exact G|apply I1, Hp]|exact I2].
    + destruct (err_subpaths _ _ _ _ _ (body_even _ _ B) (bd_orient _ _ B) E) as (l1 & sub & l2 & e & E1 & K1).
      exists [], p, t, ps, l1, sub, l2, e. split; [reflexivity|]. split; [intros pt []|]. split; [exact E1|exact K1].
Qed.
Lemma add_paths_total ps : forall cs a (tag : list T), body cs a ->
  (forall p t sub, In (p, t) ps -> In sub (subpaths p) -> exists ss, kurbo_segments sub = Some ss /\ Forall (pathseg_fin eval ctrl monic quad_ctrl) ss) ->
  add_paths a tag ps <> CollectPanic.
Proof.
  induction ps as [|[p t] ps IH]; intros cs a tag B H; cbn [FromPathsModel.add_paths]; [discriminate|].
  pose proof (add_subpaths_total eval ctrl monic quad_ctrl true (subpaths p) a (body_even _ _ B) (bd_orient _ _ B) (fun sub Hs => H p t sub (or_introl eq_refl) Hs)) as K.
  pose proof (add_subpaths_ok eval ctrl monic quad_ctrl true (subpaths p) a (body_even _ _ B) (bd_orient _ _ B)) as K2. cbv zeta in K2.
  destruct (add_subpaths eval ctrl monic quad_ctrl true a (subpaths p)) as [a1|a1 sp ep|] eqn:E; [|discriminate|congruence].
  destruct K2 as [_ LK]. destruct (body_linked_all _ _ _ _ B LK) as (B1 & _). eapply IH; [exact B1|]. intros q u sub Hq. eapply H. right. exact Hq.
Qed.

Lemma contours_reg ps c : In c (paths_contours ps) -> SegmentsSpec.registered c = true.
Proof. intros H. apply in_flat_map in H. destruct H as ([p t] & _ & H). apply in_map_iff in H. destruct H as (sub & <- & _). reflexivity. Qed.
Lemma contours_closed ps c : (forall pt, In pt ps -> good_path (fst pt)) -> In c (paths_contours ps) -> ckind c = KClosed.
Proof.
  intros G H. apply in_flat_map in H. destruct H as ([p t] & Hp & H). apply in_map_iff in H. destruct H as (sub & <- & Hs).
  unfold bez_contour. cbn [ckind]. rewrite (G _ Hp sub Hs). reflexivity.
Qed.
Lemma contours_chain ps c : (forall pt, In pt ps -> path_exact eval monic quad_ctrl (fst pt)) -> In c (paths_contours ps) -> contour_chain c.
Proof.
  intros G H. apply in_flat_map in H. destruct H as ([p t] & Hp & H). apply in_map_iff in H. destruct H as (sub & <- & Hs).
  eapply bez_chain; [apply (G _ Hp)|exact Hs].
Qed.
Lemma contours_edges ps : all_edges (paths_contours ps) = flat_map (fun pt => path_edges (fst pt)) ps.
Proof. unfold paths_contours. induction ps as [|pt ps IH]; [reflexivity|]. cbn [flat_map]. rewrite all_edges_app, path_contours_edges, IH. reflexivity. Qed.
Lemma contours_nonnan ps : (forall pt, In pt ps -> path_exact eval monic quad_ctrl (fst pt)) -> Forall edge_nonnan (all_edges (paths_contours ps)).
Proof.
  intros G. rewrite contours_edges. apply Forall_forall. intros e He. apply in_flat_map in He. destruct He as ([p t] & Hp & He). apply in_flat_map in He. destruct He as (sub & Hs & He).
  pose proof (subpath_edges_nonnan eval monic quad_ctrl p sub (G _ Hp) Hs) as F. rewrite Forall_forall in F. apply F, He.
Qed.
Lemma tags_length ps : length (paths_tags ps) = length (all_edges (paths_contours ps)).
Proof.
  rewrite contours_edges. unfold paths_tags. induction ps as [|pt ps IH]; [reflexivity|]. cbn [flat_map]. rewrite !app_length, repeat_length, IH. reflexivity.
Qed.
(** A contour has one tag. *)
Lemma tags_contour ps : forall pre c post k l, paths_contours ps = pre ++ c :: post -> k < length (edges c) -> l < length (edges c) ->
  nth_error (paths_tags ps) (length (all_edges pre) + k) = nth_error (paths_tags ps) (length (all_edges pre) + l).
Proof.
  induction ps as [|[p t] ps IH]; intros pre c post k l E K L; [destruct pre; discriminate E|].
  unfold paths_contours, paths_tags in *. cbn [flat_map fst snd] in *.
  assert (LP : length (path_edges p) = length (all_edges (path_contours p))) by (rewrite path_contours_edges; reflexivity).
  apply app_eq_app in E. destruct E as (m & [[E1 E2]|[E1 E2]]).
  - destruct m as [|c' m]; cbn [app] in E2.
    + rewrite app_nil_r in E1. subst pre. rewrite LP. rewrite !nth_error_app2, repeat_length by (rewrite repeat_length; lia).
      symmetry in E2. specialize (IH [] c post k l E2 K L). cbn [all_edges flat_map length Nat.add] in IH.
      replace (length (all_edges (path_contours p)) + k - length (all_edges (path_contours p))) with k by lia.
      replace (length (all_edges (path_contours p)) + l - length (all_edges (path_contours p))) with l by lia. exact IH.
    + injection E2 as <- ->. assert (LL : length (all_edges pre) + length (edges c) <= length (path_edges p)).
      { rewrite LP, E1, all_edges_app, app_length. cbn [all_edges flat_map]. rewrite app_length. lia. }
      rewrite !nth_error_app1 by (rewrite repeat_length; lia). rewrite !nth_error_repeat by lia. reflexivity.
  - subst pre. rewrite all_edges_app, app_length, <- LP.
    rewrite !nth_error_app2 by (rewrite repeat_length; lia). rewrite repeat_length.
    replace (length (path_edges p) + length (all_edges m) + k - length (path_edges p)) with (length (all_edges m) + k) by lia.
    replace (length (path_edges p) + length (all_edges m) + l - length (path_edges p)) with (length (all_edges m) + l) by lia.
    eapply IH; [exact E2|exact K|exact L].
Qed.
End Collect.
