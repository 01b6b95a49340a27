(** Property theorems about the segment arena: C15 - C20, C45 - C47. *)
From Coq Require Import List Bool ZArith Lia Permutation Sorted Arith.
From Verif Require Import F64 F64Arith TreeVecModel GeomModel SegmentsModel SegmentsSpec SegmentsProofs
  SegmentsProofs2 SegmentsProofs3 SegmentsProofs4 SegmentsProofs5.
Import ListNotations.

Section Oracles.
(** Arbitrary numerical routines. *)
Variable eval : cubic -> f64 -> point.
Variable ctrl : cubic -> f64 -> f64 -> point * point.
Variable monic : f64 -> f64 -> f64 * f64.
Variable quad_ctrl : point -> point -> point -> point * point.
Variable at_y : segment -> f64 -> f64.
Variable sort_by : ((f64 * nat) -> (f64 * nat) -> comparison) -> list (f64 * nat) -> list (f64 * nat).

Notation run := (run eval ctrl monic quad_ctrl at_y sort_by).
Notation apply_op := (apply_op eval ctrl monic quad_ctrl at_y sort_by).
Notation contours := (history_contours eval monic quad_ctrl).
Notation op_exact := (op_exact eval monic quad_ctrl).

(** The arena after a history of calls on a new one. *)
Definition reachable (ops : list seg_op) (a : arena) : Prop :=
  exists oks, run arena_default ops = Some (a, oks).
Definition reachable_ok (ops : list seg_op) (a : arena) : Prop :=
  run arena_default ops = Some (a, map (fun _ => true) ops).

Lemma reachable_stores ops a : sort_spec sort_by -> reachable ops a -> stores (contours ops) a.
Proof.
  intros Hs [oks H]. change (contours ops) with ([] ++ contours ops).
  eapply run_stores in H; [apply H|assumption|apply stores_default].
Qed.

Lemma map_true {A} (f : A -> bool) l : map f l = map (fun _ => true) l -> forall x, In x l -> f x = true.
Proof.
  induction l as [|y l IH]; cbn; intros H x; [easy|]. injection H as H1 H2. intros [<-|Hx]; [exact H1|]. apply IH; assumption.
Qed.

Lemma reachable_ok_ok ops a : sort_spec sort_by -> reachable_ok ops a ->
  forall op, In op ops -> snd (op_contours eval monic quad_ctrl op) = true.
Proof.
  intros Hs H. unfold reachable_ok in H. eapply run_stores in H; [|assumption|apply stores_default].
  destruct H as [_ H]. symmetry in H. apply map_true, H.
Qed.

(** ** C15 *)

(** Successor and predecessor are inverse: after any additions that succeed, other than open
    bezier paths. *)
Theorem contour_links_inverse : sort_spec sort_by -> forall ops a,
  (forall p, ~ In (OpBez false p) ops) -> reachable_ok ops a ->
  forall i j, nth_error (contour_next a) i = Some (Some j) <-> nth_error (contour_prev a) j = Some (Some i).
Proof.
  intros Hs ops a NB R i j.
  assert (S : stores (contours ops) a) by (apply reachable_stores; [assumption|eexists; exact R]).
  rewrite (st_next _ _ S), (st_prev _ _ S). apply links_inverse. apply history_no_dangling.
  - intros op Ho. destruct op as [| |[] p]; cbn; try exact I; [reflexivity|]. exfalso. eapply NB, Ho.
  - eapply reachable_ok_ok; eassumption.
Qed.

(** Consecutive segments meet: the oriented end of a segment is the oriented start of its successor. *)
Theorem contour_links_meet : sort_spec sort_by -> forall ops a,
  (forall p, ~ In (OpBez false p) ops) -> (forall op, In op ops -> op_exact op) -> reachable_ok ops a ->
  forall i j, nth_error (contour_next a) i = Some (Some j) ->
  exists p q, oriented_end a i = Some p /\ oriented_start a j = Some q /\ same_point p q.
Proof.
  intros Hs ops a NB X R i j H.
  assert (S : stores (contours ops) a) by (apply reachable_stores; [assumption|eexists; exact R]).
  rewrite (st_next _ _ S) in H.
  destruct (links_meet (contours ops)) with (3 := H) as (e & f & E & F & M).
  - apply history_no_dangling; [|eapply reachable_ok_ok; eassumption].
    intros op Ho. destruct op as [| |[] p]; cbn; try exact I; [reflexivity|]. exfalso. eapply NB, Ho.
  - intros c Hc. eapply history_chain; eassumption.
  - exists (e_to e), (e_from f). rewrite oriented_end_read, oriented_start_read.
    rewrite <- !nth_error_map', (st_from _ _ S), (st_to _ _ S), !nth_error_map', E, F. auto.
Qed.

(** ** C16 *)

(** Whatever was added, reading segment [i] back with its orientation gives edge [i] of the
    input, and every stored segment goes from its smaller to its larger end point. *)
Theorem segments_read_back : sort_spec sort_by -> forall ops a, reachable ops a ->
  arena_len a = length (all_edges (contours ops)) /\
  (forall i, oriented_start a i = option_map e_from (nth_error (all_edges (contours ops)) i) /\
             oriented_end a i = option_map e_to (nth_error (all_edges (contours ops)) i) /\
             nth_error (input_segs a) i = option_map e_inp (nth_error (all_edges (contours ops)) i) /\
             nth_error (split_from a) i = option_map e_t (nth_error (all_edges (contours ops)) i)) /\
  Forall seg_wf (segs a).
Proof.
  intros Hs ops a R. pose proof (reachable_stores ops a Hs R) as S. split; [|split].
  - apply body_len. apply stores_split in S. apply S.
  - intros i. rewrite oriented_end_read, oriented_start_read, <- !nth_error_map', (st_from _ _ S), (st_to _ _ S),
      (st_inp _ _ S), (st_t _ _ S). auto.
  - apply S.
Qed.

Lemma reach_step ops a0 op a : sort_spec sort_by -> reachable ops a0 -> apply_op a0 op = AddOk a ->
  stores (contours ops) a0 /\ stores (contours ops ++ fst (op_contours eval monic quad_ctrl op)) a.
Proof.
  intros Hs R H. pose proof (reachable_stores ops a0 Hs R) as S. split; [assumption|].
  pose proof (apply_op_ok eval ctrl monic quad_ctrl at_y sort_by Hs _ _ op S) as O. rewrite H in O. apply O.
Qed.

(** In particular polylines: the new segments are the edges of the polyline, in order, each once;
    no NaN check is needed. *)
Theorem polyline_read_back : sort_spec sort_by -> forall ops a0 ps a, reachable ops a0 ->
  apply_op a0 (OpPoints ps) = AddOk a ->
  arena_len a = arena_len a0 + (length ps - 1) /\
  forall j, j < length ps - 1 ->
    oriented_start a (arena_len a0 + j) = nth_error ps j /\
    oriented_end a (arena_len a0 + j) = nth_error ps (S j).
Proof.
  intros Hs ops a0 ps a R H. destruct (reach_step _ _ _ _ Hs R H) as [S0 S1]. cbn [op_contours fst] in S1.
  apply stores_split in S0, S1. destruct S0 as [B0 _], S1 as [B1 _].
  pose proof (body_len _ _ B0) as L0. pose proof (body_len _ _ B1) as L1.
  rewrite all_edges_app, app_length in L1. cbn in L1. rewrite app_nil_r in L1. unfold open_edges in L1. rewrite map_length, seq_length in L1.
  split; [lia|]. intros j Hj.
  rewrite oriented_end_read, oriented_start_read, <- !nth_error_map', (bd_from _ _ B1), (bd_to _ _ B1), !nth_error_map'.
  rewrite L0. assert (J : j < length (open_edges ps)) by (unfold open_edges; rewrite map_length, seq_length; lia).
  rewrite (edges_at (contours ops) (mkContour KOpen true (open_edges ps)) [] j J). cbn [edges]. unfold open_edges.
  rewrite nth_error_map_seq. replace (j <? length ps - 1) with true by (symmetry; apply Nat.ltb_lt; lia).
  cbn [option_map line_edge e_from e_to]. split; symmetry; apply nth_error_nth'; lia.
Qed.

Theorem closed_polyline_read_back : sort_spec sort_by -> forall ops a0 ps a, reachable ops a0 ->
  2 <= length ps -> apply_op a0 (OpClosed [ps]) = AddOk a ->
  arena_len a = arena_len a0 + length ps /\
  forall j, j < length ps ->
    oriented_start a (arena_len a0 + j) = nth_error ps j /\
    oriented_end a (arena_len a0 + j) = nth_error ps (if S j =? length ps then 0 else S j).
Proof.
  intros Hs ops a0 ps a R L2 H. destruct (reach_step _ _ _ _ Hs R H) as [S0 S1]. cbn [op_contours fst map] in S1.
  apply stores_split in S0, S1. destruct S0 as [B0 _], S1 as [B1 _].
  pose proof (body_len _ _ B0) as L0. pose proof (body_len _ _ B1) as L1.
  assert (LE : length (closed_edges ps) = length ps).
  { unfold closed_edges. replace (length ps <=? 1) with false by (symmetry; apply Nat.leb_gt; lia). rewrite map_length, seq_length. reflexivity. }
  rewrite all_edges_app, app_length in L1. cbn in L1. rewrite app_nil_r in L1.
  split; [lia|]. intros j Hj.
  rewrite oriented_end_read, oriented_start_read, <- !nth_error_map', (bd_from _ _ B1), (bd_to _ _ B1), !nth_error_map'.
  rewrite L0, (edges_at (contours ops) (mkContour KClosed true (closed_edges ps)) [] j) by (cbn; lia). cbn [edges].
  unfold closed_edges. replace (length ps <=? 1) with false by (symmetry; apply Nat.leb_gt; lia).
  rewrite nth_error_map_seq. replace (j <? length ps) with true by (symmetry; apply Nat.ltb_lt; lia).
  cbn [option_map line_edge e_from e_to]. split; [symmetry; apply nth_error_nth'; lia|].
  destruct (Nat.eqb_spec (S j) (length ps)) as [E|E].
  - rewrite E, Nat.mod_same by lia. symmetry; apply nth_error_nth'; lia.
  - rewrite Nat.mod_small by lia. symmetry; apply nth_error_nth'; lia.
Qed.

(** Adding polylines never panics and always succeeds. *)
Theorem polylines_never_panic : sort_spec sort_by -> forall ops,
  (forall b p, ~ In (OpBez b p) ops) -> exists a, reachable_ok ops a.
Proof.
  intros Hs ops H. eapply run_polylines_total; [assumption| |apply stores_default].
  intros op Ho b p ->. eapply H, Ho.
Qed.

(** ** C17 *)

Lemma reach_suffix ops a0 op ops' a oks : sort_spec sort_by -> reachable ops a0 ->
  run a0 (op :: ops') = Some (a, oks) ->
  arena_len a0 = length (all_edges (contours ops)) /\
  stores (contours ops ++ fst (op_contours eval monic quad_ctrl op) ++ contours ops') a.
Proof.
  intros Hs R H. pose proof (reachable_stores ops a0 Hs R) as S.
  split; [apply body_len; apply stores_split in S; apply S|].
  eapply run_stores in H; [|assumption|exact S]. apply H.
Qed.

(** Open polylines, at any later time. *)
Theorem open_polyline_ends : sort_spec sort_by -> forall ops a0 ps ops' a oks, reachable ops a0 ->
  2 <= length ps -> run a0 (OpPoints ps :: ops') = Some (a, oks) ->
  let first := arena_len a0 in
  let last := arena_len a0 + (length ps - 2) in
  nth_error (contour_prev a) first = Some None /\ nth_error (contour_next a) last = Some None /\
  forall i, first <= i < last ->
    nth_error (contour_next a) i = Some (Some (S i)) /\ nth_error (contour_prev a) (S i) = Some (Some i).
Proof.
  intros Hs ops a0 ps ops' a oks R L H first last_.
  destruct (reach_suffix _ _ _ _ _ _ Hs R H) as [L0 St]. cbn [op_contours fst app] in St.
  assert (LE : length (open_edges ps) = length ps - 1) by (unfold open_edges; rewrite map_length, seq_length; reflexivity).
  rewrite (st_prev _ _ St), (st_next _ _ St). subst first last_. rewrite L0.
  pose proof (fun f j => links_at f (contours ops) (mkContour KOpen true (open_edges ps)) (contours ops') j 0) as LA.
  cbn [edges ckind] in LA.
  split; [|split].
  - rewrite <- (Nat.add_0_r (length (all_edges (contours ops)))) at 1. rewrite LA by lia. reflexivity.
  - rewrite LA by lia. unfold next_of. replace (S (length ps - 2) =? length (open_edges ps)) with true by (symmetry; apply Nat.eqb_eq; lia).
    reflexivity.
  - intros i Hi. set (o := length (all_edges (contours ops))) in *. replace i with (o + (i - o)) by lia. split.
    + rewrite LA by lia. unfold next_of. replace (S (i - o) =? length (open_edges ps)) with false by (symmetry; apply Nat.eqb_neq; lia).
      do 2 f_equal. lia.
    + replace (S (o + (i - o))) with (o + S (i - o)) by lia. rewrite LA by lia. reflexivity.
Qed.

(** Following [contour_next] [k] times. *)
Fixpoint follow (a : arena) (i k : nat) : option nat :=
  match k with
  | 0 => Some i
  | S k' => match nth_error (contour_next a) i with Some (Some j) => follow a j k' | _ => None end
  end.

(** Closed contours, at any later time: [n] segments in a cycle, and each has a predecessor. *)
Theorem closed_contour_cycles : sort_spec sort_by -> forall ops a0 l1 ps l2 ops' a oks, reachable ops a0 ->
  2 <= length ps -> run a0 (OpClosed (l1 ++ ps :: l2) :: ops') = Some (a, oks) ->
  let o := arena_len a0 + list_sum (map (fun qs => if length qs <=? 1 then 0 else length qs) l1) in
  let n := length ps in
  (forall j k, j < n -> follow a (o + j) k = Some (o + (j + k) mod n)) /\
  (forall j, j < n -> nth_error (contour_prev a) (o + j) = Some (Some (o + (j + n - 1) mod n))).
Proof.
  intros Hs ops a0 l1 ps l2 ops' a oks R L H o n.
  destruct (reach_suffix _ _ _ _ _ _ Hs R H) as [L0 St]. cbn [op_contours fst] in St.
  assert (CL : forall qs, length (closed_edges qs) = if length qs <=? 1 then 0 else length qs).
  { intros qs. unfold closed_edges. destruct (length qs <=? 1); [reflexivity|]. rewrite map_length, seq_length. reflexivity. }
  assert (LE : length (closed_edges ps) = n).
  { rewrite CL. replace (length ps <=? 1) with false by (symmetry; apply Nat.leb_gt; lia). reflexivity. }
  set (mk := fun ps0 => mkContour KClosed true (closed_edges ps0)) in *.
  assert (SS : contours ops ++ map mk (l1 ++ ps :: l2) ++ contours ops' =
    (contours ops ++ map mk l1) ++ mk ps :: (map mk l2 ++ contours ops')).
  { rewrite map_app. cbn [map]. rewrite <- !app_assoc. reflexivity. }
  rewrite SS in St.
  assert (LO : length (all_edges (contours ops ++ map mk l1)) = o).
  { rewrite all_edges_app, app_length. unfold o. rewrite L0. f_equal. clear -CL.
    induction l1 as [|q l1 IH]; [reflexivity|]. cbn. rewrite app_length, CL. f_equal. exact IH. }
  assert (NX : forall j, j < n -> nth_error (contour_next a) (o + j) = Some (Some (o + S j mod n))).
  { intros j Hj. rewrite (st_next _ _ St), <- LO. rewrite links_at by (cbn; rewrite LE; assumption).
    cbn [edges ckind mk]. rewrite LE. unfold next_of. cbn [Nat.add].
    destruct (Nat.eqb_spec (Datatypes.S j) n) as [E|E].
    - rewrite E, Nat.mod_same by lia. do 2 f_equal. lia.
    - rewrite Nat.mod_small by lia. reflexivity. }
  split.
  - intros j k. revert j. induction k as [|k IH]; intros j Hj; cbn [follow].
    + rewrite Nat.add_0_r, Nat.mod_small by lia. reflexivity.
    + rewrite NX by assumption. rewrite IH by (apply Nat.mod_upper_bound; lia).
      f_equal. f_equal. rewrite Nat.add_mod_idemp_l by lia. f_equal. lia.
  - intros j Hj. rewrite (st_prev _ _ St), <- LO. rewrite links_at by (cbn; rewrite LE; assumption).
    cbn [edges ckind mk]. rewrite LE. cbn [Nat.add]. destruct j as [|j]; cbn [prev_of].
    + rewrite Nat.mod_small by lia. do 2 f_equal. lia.
    + replace (Datatypes.S j + n - 1) with (j + 1 * n) by lia. rewrite Nat.mod_add by lia. rewrite Nat.mod_small by lia. reflexivity.
Qed.

(** ** C18 *)

(** A subpath of an open bezier path that does not close: its first segment claims the previous
    arena index as predecessor (itself, if it is the very first), and its last segment claims the
    next arena index as successor, whatever that is or will be. *)
Theorem open_bez_dangling_links : sort_spec sort_by -> forall ops a0 p l1 sub l2 ops' a oks, reachable ops a0 ->
  run a0 (OpBez false p :: ops') = Some (a, oks) ->
  subpaths p = l1 ++ sub :: l2 ->
  let es := subpath_edges eval monic quad_ctrl sub in
  closes es = false ->
  let o := arena_len a0 + length (flat_map (subpath_edges eval monic quad_ctrl) l1) in
  nth_error (contour_prev a) o = Some (Some (o - 1)) /\
  nth_error (contour_next a) (o + length es - 1) = Some (Some (o + length es)).
Proof.
  intros Hs ops a0 p l1 sub l2 ops' a oks R H SP es C o.
  destruct (reach_suffix _ _ _ _ _ _ Hs R H) as [L0 S]. cbn [op_contours fst andb] in S.
  rewrite SP, map_app in S. cbn [map] in S. rewrite map_app in S. cbn [map] in S. fold es in S.
  set (pre := map (bez_contour true) (map (subpath_edges eval monic quad_ctrl) l1)) in *.
  set (post := map (bez_contour true) (map (subpath_edges eval monic quad_ctrl) l2)) in *.
  assert (SS : contours ops ++ (pre ++ bez_contour true es :: post) ++ contours ops' =
     (contours ops ++ pre) ++ bez_contour true es :: (post ++ contours ops')).
  { rewrite <- !app_assoc. reflexivity. }
  rewrite SS in S.
  assert (LO : length (all_edges (contours ops ++ pre)) = o).
  { rewrite all_edges_app, app_length. unfold o. rewrite L0. f_equal. f_equal. unfold pre, all_edges. clear.
    induction l1 as [|q l1 IH]; [reflexivity|]. cbn. f_equal. exact IH. }
  assert (NE : 0 < length es) by (destruct es; [discriminate|cbn; lia]).
  rewrite (st_prev _ _ S), (st_next _ _ S), <- LO. split.
  - rewrite <- (Nat.add_0_r (length (all_edges _))) at 1. rewrite links_at by (cbn; lia).
    unfold bez_contour. cbn [ckind edges]. rewrite C. reflexivity.
  - replace (length (all_edges (contours ops ++ pre)) + length es - 1) with (length (all_edges (contours ops ++ pre)) + (length es - 1)) by lia.
    rewrite links_at by (cbn; lia). unfold bez_contour. cbn [ckind edges]. rewrite C. unfold next_of.
    replace (Datatypes.S (length es - 1) =? length es) with true by (symmetry; apply Nat.eqb_eq; lia). reflexivity.
Qed.

(** ** C19 *)

Lemma perm_map_snd {A} (g : nat -> A) l : map snd (map (fun i => (g i, i)) l) = l.
Proof. rewrite map_map. cbn. apply map_id. Qed.

(** After successful additions the entrance list has every segment once, with its start height;
    the exit list every non-horizontal segment once, with its end height. *)
Theorem events_enumerate : sort_spec sort_by -> forall ops a, reachable_ok ops a ->
  Permutation (map snd (enter a)) (seq 0 (arena_len a)) /\
  (exists slanted, Permutation (map snd (exit_ a)) (filter slanted (seq 0 (arena_len a))) /\
     forall i s, nth_error (segs a) i = Some s ->
       is_horizontal s = Some (negb (slanted i))) /\
  (forall y i, In (y, i) (enter a) -> exists s, nth_error (segs a) i = Some s /\ y = py (seg_start s)) /\
  (forall y i, In (y, i) (exit_ a) -> exists s, nth_error (segs a) i = Some s /\ y = py (seg_end s)).
Proof.
  intros Hs ops a R.
  assert (S : stores (contours ops) a) by (apply reachable_stores; [assumption|eexists; exact R]).
  assert (RG : registered_from 0 (contours ops) = seq 0 (arena_len a)).
  { apply stores_split in S. destruct S as [B _]. rewrite (body_len _ _ B). apply registered_every.
    intros c Hc. apply in_flat_map in Hc. destruct Hc as (op & Ho & Hc). pose proof (reachable_ok_ok _ _ Hs R _ Ho) as O.
    destruct op as [ps|pss|b p]; cbn [op_contours fst snd] in *.
    - destruct Hc as [<-|[]]. reflexivity.
    - apply in_map_iff in Hc. destruct Hc as (x & <- & _). reflexivity.
    - destruct (b && negb _); cbn in *; [discriminate|]. apply in_map_iff in Hc. destruct Hc as (x & <- & _). reflexivity. }
  assert (PE := st_enter _ _ S). assert (PX := st_exit _ _ S). rewrite RG in PE, PX.
  assert (NE : forall i, i < arena_len a -> nth_error (segs a) i = Some (nth i (segs a) (SLine p00 p00))).
  { intros i Hi. apply nth_error_nth'. exact Hi. }
  split; [|split; [|split]].
  - rewrite PE, perm_map_snd. reflexivity.
  - eexists. split.
    + rewrite PX, perm_map_snd. reflexivity.
    + intros i s Hi. cbn. rewrite (nth_error_nth _ _ (SLine p00 p00) Hi), negb_involutive.
      apply is_horizontal_wf. pose proof (st_wf _ _ S) as W. rewrite Forall_forall in W. eapply W, nth_error_In, Hi.
  - intros y i Hi. apply (Permutation_in _ PE) in Hi. apply in_map_iff in Hi. destruct Hi as (j & E & Hj). inversion E; subst.
    apply in_seq in Hj. eexists. split; [apply NE; lia|reflexivity].
  - intros y i Hi. apply (Permutation_in _ PX) in Hi. apply in_map_iff in Hi. destruct Hi as (j & E & Hj). inversion E; subst.
    apply filter_In in Hj. destruct Hj as [Hj _]. apply in_seq in Hj. eexists. split; [apply NE; lia|reflexivity].
Qed.

(** Both lists are sorted by height, provided no input height is NaN and [Segment::at_y] does not
    produce a NaN at the start of a stored segment. *)
Theorem events_sorted_by_height : sort_spec sort_by -> forall ops a, reachable ops a ->
  (forall s, In s (segs a) -> at_y_ok at_y s) ->
  (forall op, In op ops -> op_nonnan eval monic quad_ctrl op) ->
  StronglySorted (fun x y => fle (fst x) (fst y) = true) (enter a) /\
  StronglySorted (fun x y => fle (fst x) (fst y) = true) (exit_ a).
Proof.
  intros Hs ops a [oks R] Ha N.
  eapply (run_sorted eval ctrl monic quad_ctrl at_y sort_by Hs ops [] arena_default); [apply stores_default| | | |exact R].
  - split; constructor.
  - cbn [app]. apply history_nonnan; assumption.
  - apply Forall_forall, Ha.
Qed.

(** ** C20 *)

Lemma registered_not_in l1 l2 l3 i : (forall c, In c l2 -> registered c = false) ->
  length (all_edges l1) <= i < length (all_edges (l1 ++ l2)) -> ~ In i (registered_from 0 (l1 ++ l2 ++ l3)).
Proof.
  intros H Hi Hin. rewrite all_edges_app, app_length in Hi.
  rewrite !registered_app, (registered_none l2 H) in Hin. cbn [app] in Hin. rewrite ?Nat.add_0_l in Hin.
  apply in_app_or in Hin. destruct Hin as [Hin|Hin]; apply registered_range in Hin; lia.
Qed.

Theorem failed_addition_not_rolled_back : sort_spec sort_by -> forall ops a0 p a1 sp ep, reachable ops a0 ->
  apply_op a0 (OpBez true p) = AddErr a1 sp ep ->
  point_eq sp ep = false /\ arena_len a0 < arena_len a1 /\
  (exists new, segs a1 = segs a0 ++ new) /\ enter a1 = enter a0 /\ exit_ a1 = exit_ a0 /\
  forall ops' a2 oks, run a1 ops' = Some (a2, oks) ->
    forall i, arena_len a0 <= i < arena_len a1 ->
      ~ In i (map snd (enter a2)) /\ ~ In i (map snd (exit_ a2)).
Proof.
  intros Hs ops a0 p a1 sp ep R H. pose proof (reachable_stores ops a0 Hs R) as S0.
  apply stores_split in S0 as S0'. destruct S0' as [B0 _].
  pose proof (apply_op_ok eval ctrl monic quad_ctrl at_y sort_by Hs _ _ (OpBez true p) S0) as O. rewrite H in O.
  destruct O as [O1 O2]. cbn [SegmentsModel.apply_op] in H. unfold add_bez_path in H.
  pose proof (add_subpaths_ok eval ctrl monic quad_ctrl true (subpaths p) a0 (body_even _ _ B0) (bd_orient _ _ B0)) as A. cbn in A.
  assert (PE : point_eq sp ep = false).
  { clear -H B0. revert H. generalize (subpaths p) as subs. generalize B0. clear B0. generalize (contours ops). generalize a0 at 1 2.
    intros a cs B subs. revert a cs B. induction subs as [|sub subs IH]; intros a cs B; cbn [add_subpaths].
    - destruct (update_enter_exit _ _ _ _); discriminate.
    - pose proof (add_subpath_ok eval ctrl monic quad_ctrl true true a sub (body_even _ _ B) (bd_orient _ _ B)) as O. cbn in O.
      destruct (add_subpath eval ctrl monic quad_ctrl true a sub) as [b|b q1 q2|]; [| |discriminate].
      + destruct O as [_ L]. eapply (IH b). eapply body_linked; eassumption.
      + intros X; inversion X; subst. destruct O as (_ & C & _ & e & He & -> & ->).
        destruct (subpath_edges eval monic quad_ctrl sub) as [|f es]; [easy|]. cbn [hd closes] in *.
        rewrite <- C. f_equal. f_equal. clear. revert f. induction es; intros; [reflexivity|]. cbn [last] in *. destruct es; [reflexivity|apply (IHes f)]. }
  destruct (add_subpaths eval ctrl monic quad_ctrl true a0 (subpaths p)) as [x|x q1 q2|] eqn:AS.
  - destruct (update_enter_exit _ _ _ _); discriminate.
  - inversion H; subst. destruct A as (_ & F & L). cbn [op_contours fst] in O2. rewrite F in O2. cbn [andb negb fst] in O2.
    destruct (body_linked_all _ _ _ _ B0 L) as (B1 & EN & EX & ss & SG).
    pose proof (body_len _ _ B0) as L0. pose proof (body_len _ _ B1) as L1.
    set (bad := map (bez_contour false) (upto_first_bad closes (map (subpath_edges eval monic quad_ctrl) (subpaths p)))) in *.
    assert (RB : forall c, In c bad -> registered c = false).
    { intros c Hc. apply in_map_iff in Hc. destruct Hc as (x & <- & _). reflexivity. }
    split; [assumption|]. split; [|split; [eexists; exact SG|split; [exact EN|split; [exact EX|]]]].
    + rewrite L0, L1, all_edges_app, app_length. assert (0 < length (all_edges bad)); [|lia].
      subst bad. clear -F. revert F. generalize (map (subpath_edges eval monic quad_ctrl) (subpaths p)) as ess.
      induction ess as [|es ess IH]; cbn; [discriminate|]. destruct (closes es) eqn:C; cbn.
      * intros F. specialize (IH F). rewrite app_length. unfold all_edges in IH. lia.
      * intros _. rewrite app_length. destruct es; [discriminate|]. cbn. lia.
    + intros ops' a2 oks R2 i Hi. eapply run_stores in R2; [|assumption|exact O2]. destruct R2 as [S2 _].
      rewrite <- app_assoc in S2. pose proof (registered_not_in (contours ops) bad (contours ops') i RB) as NI.
      rewrite L0, L1 in Hi. specialize (NI Hi). split; intros X; apply NI.
      * apply (Permutation_in i (Permutation_map snd (st_enter _ _ S2))) in X. rewrite perm_map_snd in X. exact X.
      * apply (Permutation_in i (Permutation_map snd (st_exit _ _ S2))) in X. rewrite perm_map_snd in X. apply filter_In in X. apply X.
  - discriminate.
Qed.

(** ** C45 *)

(** Splitting a cubic never overflows its three slots, whatever the root finder returns: there is a
    list of cut parameters from 0 to 1, and the pieces are exactly the sub-curves between
    consecutive cuts whose end points differ, with unchanged end points and inner control heights
    on the right side of the nearer end. *)
Theorem monotonic_pieces_tile : forall c, exists ps interior,
  monotonic_pieces eval ctrl monic c = Some ps /\ length ps <= 3 /\ length interior <= 2 /\
  (forall t, In t interior -> flt fzero t = true /\ flt t fone = true) /\
  map (fun m => (start_t m, end_t m)) ps =
    filter (fun tt => negb (point_eq (eval c (fst tt)) (eval c (snd tt)))) (combine (fzero :: interior) (interior ++ [fone])) /\
  forall m, In m ps ->
    c0 (pc m) = eval c (start_t m) /\ c3 (pc m) = eval c (end_t m) /\
    (flt (py (c0 (pc m))) (py (c3 (pc m))) = true ->
       fle (py (c0 (pc m))) (py (c1 (pc m))) = true /\ fle (py (c2 (pc m))) (py (c3 (pc m))) = true) /\
    (flt (py (c3 (pc m))) (py (c0 (pc m))) = true ->
       fle (py (c1 (pc m))) (py (c0 (pc m))) = true /\ fle (py (c3 (pc m))) (py (c2 (pc m))) = true).
Proof.
  intros c. destruct (monotonic_pieces_some eval ctrl monic c) as (ps & E & L & ->).
  exists (mono_loop eval ctrl c fzero (roots monic c)), (filter (fun r => flt fzero r && flt r fone) (roots monic c)).
  split; [exact E|]. split; [exact L|]. split; [|split; [|split]].
  - pose proof (roots_le_2 monic c). etransitivity; [|eassumption]. generalize (roots monic c). clear. intros l.
    induction l as [|x l IH]; cbn; [lia|]. destruct (_ && _); cbn; lia.
  - intros t Ht. apply filter_In in Ht. destruct Ht as [_ Ht]. apply andb_true_iff in Ht. exact Ht.
  - enough (G : forall rs t0, map (fun m => (start_t m, end_t m)) (mono_loop eval ctrl c t0 rs) =
      filter (fun tt => negb (point_eq (eval c (fst tt)) (eval c (snd tt))))
        (combine (t0 :: filter (fun r => flt fzero r && flt r fone) rs) (filter (fun r => flt fzero r && flt r fone) rs ++ [fone]))) by apply G.
    clear. induction rs as [|r rs IH]; intros t0; cbn [mono_loop filter app combine].
    + cbn [combine filter fst snd]. destruct (force_monotonic_cases (subsegment eval ctrl c t0 fone)) as [[E F]|(E & p & F & _)]; rewrite F; cbn in E; rewrite E; reflexivity.
    + change (fgt r fzero) with (flt fzero r). destruct (flt fzero r && flt r fone); [|apply IH].
      cbn [app combine filter fst snd].
      destruct (force_monotonic_cases (subsegment eval ctrl c t0 r)) as [[E F]|(E & p & F & _)]; rewrite F; cbn in E; rewrite E; cbn [negb map start_t end_t].
      * apply IH.
      * f_equal. apply IH.
  - intros m Hm. assert (exists t0 t1, start_t m = t0 /\ end_t m = t1 /\ force_monotonic (subsegment eval ctrl c t0 t1) = Some (pc m)) as (t0 & t1 & T0 & T1 & F).
    { revert Hm. generalize (roots monic c) as rs. clear. intros rs. generalize fzero as t0. revert rs.
      induction rs as [|r rs IH]; intros t0; cbn [mono_loop].
      - destruct (force_monotonic (subsegment eval ctrl c t0 fone)) eqn:F; [|easy]. intros [<-|[]]. eauto.
      - destruct (fgt r fzero && flt r fone); [|apply IH].
        destruct (force_monotonic (subsegment eval ctrl c t0 r)) eqn:F; [|apply IH]. intros [<-|H]; [eauto|]. eapply IH, H. }
    destruct (force_monotonic_cases (subsegment eval ctrl c t0 t1)) as [[_ N]|(_ & p & Hp & E0 & E3 & Hup & Hdown)]; [congruence|].
    assert (p = pc m) as -> by congruence. rewrite T0, T1. split; [exact E0|]. split; [exact E3|]. rewrite E0, E3. split.
    + intros LT. destruct (flt_nan_false _ _ LT). destruct (Hup LT) as [-> ->]. split; [apply fmax_ge_l|apply fmin_le_l]; assumption.
    + intros LT. destruct (flt_nan_false _ _ LT). destruct (Hdown LT) as [-> ->]. split; [apply fmin_le_l|apply fmax_ge_l]; assumption.
Qed.

(** ** C46 *)

(** Splitting a path into subpaths loses nothing, and cuts exactly before each [MoveTo]. *)
Theorem subpaths_partition : forall p,
  concat (subpaths p) = p /\
  (forall sub, In sub (subpaths p) -> exists e rest, sub = e :: rest /\ forall q, ~ In (MoveTo q) rest) /\
  (forall i sub, 0 < i -> nth_error (subpaths p) i = Some sub -> exists q rest, sub = MoveTo q :: rest).
Proof.
  intros p. destruct (subpaths_fuel_spec (length p) p (le_n _)) as [A B]. split; [exact A|]. split; [exact B|].
  intros [|i] sub Hi H; [lia|]. eapply subpaths_fuel_heads; [apply le_n|exact H].
Qed.

(** ** C47 *)

(** Adding a bezier path panics only if the path starts with [ClosePath] or some coordinate that is
    computed from it is not finite. *)
Theorem bez_path_panics_only_on_bad_input : sort_spec sort_by -> forall ops a0 b p, reachable ops a0 ->
  apply_op a0 (OpBez b p) = AddPanic ->
  (exists r, p = ClosePath :: r) \/
  (exists sub ss s, In sub (subpaths p) /\ kurbo_segments sub = Some ss /\ In s ss /\
     match s with
     | PLine q1 q2 => ~ (point_fin q1 /\ point_fin q2)
     | _ => exists ps m, monotonic_pieces eval ctrl monic (to_cubic quad_ctrl s) = Some ps /\ In m ps /\ ~ cubic_fin (pc m)
     end).
Proof.
  intros Hs ops a0 b p R H. pose proof (reachable_stores ops a0 Hs R) as S0.
  apply stores_split in S0 as S0'. destruct S0' as [B0 _].
  assert (FD : forall x, {point_fin x} + {~ point_fin x}).
  { intros x. unfold point_fin. destruct (fin (px x)), (fin (py x)); [left; auto|right|right|right]; intros [? ?]; discriminate. }
  assert (CD : forall c, {cubic_fin c} + {~ cubic_fin c}).
  { intros c. unfold cubic_fin. destruct (FD (c0 c)), (FD (c1 c)), (FD (c2 c)), (FD (c3 c)); tauto. }
  assert (PD : forall s, {pathseg_fin eval ctrl monic quad_ctrl s} +
     {match s with
     | PLine q1 q2 => ~ (point_fin q1 /\ point_fin q2)
     | _ => exists ps m, monotonic_pieces eval ctrl monic (to_cubic quad_ctrl s) = Some ps /\ In m ps /\ ~ cubic_fin (pc m)
     end}).
  { assert (G : forall c, {forall ps m, monotonic_pieces eval ctrl monic c = Some ps -> In m ps -> cubic_fin (pc m)} +
      {exists ps m, monotonic_pieces eval ctrl monic c = Some ps /\ In m ps /\ ~ cubic_fin (pc m)}).
    { intros c. destruct (monotonic_pieces eval ctrl monic c) as [ps|].
      - destruct (Exists_dec (fun m => ~ cubic_fin (pc m)) ps) as [X|X].
        + intros m. destruct (CD (pc m)); [right|left]; tauto.
        + right. apply Exists_exists in X. destruct X as (m & Hm & Hf). exists ps, m. auto.
        + left. intros ps' m [= <-] Hm. destruct (CD (pc m)) as [|Y]; [assumption|]. exfalso. apply X, Exists_exists. eauto.
      - left. discriminate. }
    intros [q1 q2|q1 q2 q3|c]; cbn [pathseg_fin]; [|apply G|apply G].
    destruct (FD q1), (FD q2); [left|right|right|right]; tauto. }
  assert (LD : forall ss, {Forall (pathseg_fin eval ctrl monic quad_ctrl) ss} + {exists s, In s ss /\
     match s with
     | PLine q1 q2 => ~ (point_fin q1 /\ point_fin q2)
     | _ => exists ps m, monotonic_pieces eval ctrl monic (to_cubic quad_ctrl s) = Some ps /\ In m ps /\ ~ cubic_fin (pc m)
     end}).
  { induction ss as [|s ss [IH|IH]]; [left; constructor| |].
    - destruct (PD s) as [X|X]; [left; constructor; assumption|]. right. exists s. split; [now left|exact X].
    - right. destruct IH as (t & Ht & X). exists t. split; [now right|exact X]. }
  assert (SD : (forall sub, In sub (subpaths p) -> exists ss, kurbo_segments sub = Some ss /\ Forall (pathseg_fin eval ctrl monic quad_ctrl) ss) \/
     (exists sub, In sub (subpaths p) /\ kurbo_segments sub = None) \/
     (exists sub ss s, In sub (subpaths p) /\ kurbo_segments sub = Some ss /\ In s ss /\
     match s with
     | PLine q1 q2 => ~ (point_fin q1 /\ point_fin q2)
     | _ => exists ps m, monotonic_pieces eval ctrl monic (to_cubic quad_ctrl s) = Some ps /\ In m ps /\ ~ cubic_fin (pc m)
     end)).
  { generalize (subpaths p) as subs. induction subs as [|sub subs IH]; [left; easy|].
    destruct (kurbo_segments sub) as [ss|] eqn:K; [|right; left; exists sub; split; [now left|assumption]].
    destruct (LD ss) as [X|X].
    - destruct IH as [IH|[IH|IH]].
      + left. intros s [<-|Hi]; [eauto|]. apply IH, Hi.
      + right; left. destruct IH as (s & Hi & Y). exists s. split; [now right|exact Y].
      + right; right. destruct IH as (s & ss' & t & Hi & Y). exists s, ss', t. split; [now right|exact Y].
    - right; right. destruct X as (s & Hi & Y). exists sub, ss, s. split; [now left|]. split; [assumption|]. split; assumption. }
  destruct SD as [SD|[SD|SD]].
  - exfalso. cbn [SegmentsModel.apply_op] in H. unfold add_bez_path in H.
    pose proof (add_subpaths_total eval ctrl monic quad_ctrl b (subpaths p) a0 (body_even _ _ B0) (bd_orient _ _ B0) SD) as T.
    pose proof (add_subpaths_ok eval ctrl monic quad_ctrl b (subpaths p) a0 (body_even _ _ B0) (bd_orient _ _ B0)) as A. cbn in A.
    destruct (add_subpaths eval ctrl monic quad_ctrl b a0 (subpaths p)) as [a1|a1 q1 q2|]; [|discriminate|congruence].
    destruct A as [_ A]. destruct (stores_add at_y sort_by Hs _ _ a0 a1 S0 A) as (a2 & U & _).
    + intros d Hd. apply in_map_iff in Hd. destruct Hd as (x & <- & _). reflexivity.
    + rewrite U in H. discriminate.
  - left. destruct SD as (sub & Hi & K). apply kurbo_segments_none in K. destruct K as [r K]. eapply subpaths_head; eassumption.
  - right. exact SD.
Qed.
End Oracles.

(** ** Examples: the hypotheses are met *)

Definition z (n : Z) : f64 := f64_of_Z n.
Definition pt (x y : Z) : point := mkPoint (z y) (z x).
(** Stand-ins for the numerical routines. *)
Definition ex_eval (c : cubic) (t : f64) : point :=
  if feq t fzero then c0 c else if feq t fone then c3 c else mkPoint (z 7) (z 7).
Definition ex_ctrl (c : cubic) (t0 t1 : f64) : point * point := (c1 c, c2 c).
Definition ex_monic (b c : f64) : f64 * f64 := (fdiv fone (z 2), z 2).
Definition ex_quad (p0 p1 p2 : point) : point * point := (p1, p1).
Definition ex_at_y (s : segment) (y : f64) : f64 := px (seg_start s).
Definition ex_run := run ex_eval ex_ctrl ex_monic ex_quad ex_at_y isort.

Example sort_spec_met : sort_spec (@isort (f64 * nat)).
Proof. exact isort_spec. Qed.

(** A triangle, an open polyline with a horizontal edge, and a closed path with a curve that is
    cut in two, a degenerate line, and a closing line. *)
Definition ex_ops : list seg_op :=
  [OpClosed [[pt 0 0; pt 4 1; pt 2 5]; [pt 9 9]];
   OpPoints [pt 0 8; pt 3 8; pt 3 2];
   OpBez true [MoveTo (pt 0 0); CurveTo (pt 1 9) (pt 2 9) (pt 3 0); LineTo (pt 3 0); LineTo (pt 3 (-4)); ClosePath]].

Definition horiz (s : segment) : bool := match is_horizontal s with Some b => b | None => false end.

Example ex_history :
  match ex_run arena_default ex_ops with
  | Some (a, oks) =>
      oks = [true; true; true] /\ arena_len a = 9 /\
      contour_next a = [Some 1; Some 2; Some 0; Some 4; None; Some 6; Some 7; Some 8; Some 5] /\
      contour_prev a = [Some 2; Some 0; Some 1; None; Some 3; Some 8; Some 5; Some 6; Some 7] /\
      orientation a = [true; true; false; true; false; true; false; false; true] /\
      map snd (enter a) = [7; 8; 0; 2; 5; 6; 1; 4; 3] /\ map snd (exit_ a) = [7; 8; 0; 1; 2; 5; 6; 4] /\
      map horiz (segs a) = [false; false; false; true; false; false; false; false; false]
  | None => False
  end.
Proof. vm_compute. repeat split. Qed.

(** The hypotheses of C15, C16 and C19 hold of this history. *)
Example ex_ops_hyps :
  (forall p, ~ In (OpBez false p) ex_ops) /\
  (forall op, In op ex_ops -> op_nonnan ex_eval ex_monic ex_quad op) /\
  (forall op, In op ex_ops -> op_exact ex_eval ex_monic ex_quad op).
Proof.
  assert (Z : forall x y, nan (z x) = false -> nan (z y) = false -> point_nonnan (pt x y)) by (split; assumption).
  assert (N0 : nan (z 0) = false) by (vm_compute; reflexivity). assert (N1 : nan (z 1) = false) by (vm_compute; reflexivity).
  assert (N2 : nan (z 2) = false) by (vm_compute; reflexivity). assert (N3 : nan (z 3) = false) by (vm_compute; reflexivity).
  assert (N4 : nan (z 4) = false) by (vm_compute; reflexivity). assert (N5 : nan (z 5) = false) by (vm_compute; reflexivity).
  assert (N8 : nan (z 8) = false) by (vm_compute; reflexivity). assert (N9 : nan (z 9) = false) by (vm_compute; reflexivity).
  assert (M4 : nan (z (-4)) = false) by (vm_compute; reflexivity).
  assert (F0 : feq fzero fzero = true) by (vm_compute; reflexivity). assert (F1 : feq fone fone = true) by (vm_compute; reflexivity).
  assert (F2 : feq fone fzero = false) by (vm_compute; reflexivity).
  assert (NC : negb (point_eq (pt 3 (-4)) (pt 0 0)) = true) by (vm_compute; reflexivity).
  assert (X : path_exact ex_eval ex_monic ex_quad
     [MoveTo (pt 0 0); CurveTo (pt 1 9) (pt 2 9) (pt 3 0); LineTo (pt 3 0); LineTo (pt 3 (-4)); ClosePath]).
  { intros sub ss Hs K. cbn [subpaths subpaths_fuel length take_subpath is_moveto andb] in Hs. destruct Hs as [<-|[]].
    cbn [kurbo_segments ksegs] in K. rewrite NC in K. inversion K; subst; clear K.
    constructor; [|constructor; [|constructor; [|constructor; [|constructor]]]]; cbn [ends_exact].
    - assert (D : forall c t, point_nonnan (c0 c) -> point_nonnan (c3 c) -> point_nonnan (ex_eval c t)).
      { intros c u A B. unfold ex_eval. destruct (feq u fzero); [exact A|]. destruct (feq u fone); [exact B|]. split; vm_compute; reflexivity. }
      cbn [to_cubic ps_start ps_end c0 c3]. split; [|split].
      + unfold ex_eval. rewrite F0. cbn [c0]. apply peq_refl. auto.
      + unfold ex_eval. rewrite F1, F2. cbn [c3]. apply peq_refl. auto.
      + intros t _. apply D; cbn [c0 c3]; auto.
    - auto.
    - auto.
    - auto. }
  split; [|split].
  - intros p [H|[H|[H|[]]]]; discriminate.
  - intros op [<-|[<-|[<-|[]]]]; cbn [op_nonnan]; [| |exact X];
      repeat (apply Forall_cons || apply Forall_nil); apply Z; assumption.
  - intros op [<-|[<-|[<-|[]]]]; cbn [SegmentsProofs3.op_exact]; [exact I|exact I|exact X].
Qed.

(** An open path, once allowed (C18) and once refused (C20): first a closed subpath, then an open one. *)
Definition ex_open : list pathel :=
  [MoveTo (pt 0 0); LineTo (pt 2 2); LineTo (pt 0 4); ClosePath; MoveTo (pt 5 5); LineTo (pt 6 6); LineTo (pt 7 5)].

Example ex_dangling :
  match ex_run arena_default [OpBez false ex_open] with
  | Some (a, oks) => arena_len a = 5 /\ contour_prev a = [Some 2; Some 0; Some 1; Some 2; Some 3] /\
                     contour_next a = [Some 1; Some 2; Some 0; Some 4; Some 5]
  | None => False
  end.
Proof. vm_compute. repeat split. Qed.

Example ex_refused :
  match ex_run arena_default [OpBez true ex_open; OpClosed [[pt 0 0; pt 4 1; pt 2 5]]] with
  | Some (a, oks) => arena_len a = 8 /\ oks = [false; true] /\ map snd (enter a) = [5; 7; 6] /\ map snd (exit_ a) = [5; 6; 7]
  | None => False
  end.
Proof. vm_compute. repeat split. Qed.

(** C18 as a refutation of the documentation ("[None] if the contour is not closed"): segments 3 and 4
    are an open contour, yet segment 3 has predecessor 2, which belongs to another contour, and the
    last one has a successor that does not exist. *)
Theorem open_path_has_no_neighbours_refuted :
  exists p a oks i j k, ex_run arena_default [OpBez false p] = Some (a, oks) /\
    nth_error (contour_prev a) i = Some (Some j) /\ nth_error (contour_next a) j <> Some (Some i) /\
    nth_error (contour_next a) k = Some (Some (arena_len a)).
Proof.
  pose proof ex_dangling as H. destruct (ex_run arena_default [OpBez false ex_open]) as [[a oks]|] eqn:E; [|easy].
  destruct H as (L & P & N). exists ex_open, a, oks, 3, 2, 4. rewrite L, P, N. repeat split; try assumption. discriminate.
Qed.

Print Assumptions contour_links_inverse.
Print Assumptions contour_links_meet.
Print Assumptions segments_read_back.
Print Assumptions polyline_read_back.
Print Assumptions closed_polyline_read_back.
Print Assumptions polylines_never_panic.
Print Assumptions open_polyline_ends.
Print Assumptions closed_contour_cycles.
Print Assumptions open_bez_dangling_links.
Print Assumptions events_enumerate.
Print Assumptions events_sorted_by_height.
Print Assumptions failed_addition_not_rolled_back.
Print Assumptions monotonic_pieces_tile.
Print Assumptions subpaths_partition.
Print Assumptions bez_path_panics_only_on_bad_input.
Print Assumptions open_path_has_no_neighbours_refuted.
