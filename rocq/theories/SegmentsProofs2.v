(** Proofs about the segment arena, continued: histories. *)
From Coq Require Import List Bool ZArith Lia Permutation Sorted Arith.
From Verif Require Import F64 F64Arith TreeVecModel CurveOrderSpec CurveOrderProofs GeomModel SegmentsModel SegmentsSpec SegmentsProofs.
Import ListNotations.

(** Everything in [stores] except the two event lists. *)
Record body (cs : list contour) (a : arena) : Prop := {
  bd_orient : length (orientation a) = length (segs a);
  bd_from : map read_from (combine (segs a) (orientation a)) = map e_from (all_edges cs);
  bd_to : map read_to (combine (segs a) (orientation a)) = map e_to (all_edges cs);
  bd_t : split_from a = map e_t (all_edges cs);
  bd_inp : input_segs a = map e_inp (all_edges cs);
  bd_prev : contour_prev a = links prev_of 0 cs;
  bd_next : contour_next a = links next_of 0 cs;
  bd_wf : Forall seg_wf (segs a) }.

Lemma all_edges_app cs ds : all_edges (cs ++ ds) = all_edges cs ++ all_edges ds.
Proof. apply flat_map_app. Qed.

Lemma links_length f cs : forall o, length (links f o cs) = length (all_edges cs).
Proof.
  induction cs; intros o; cbn [links all_edges flat_map]; [reflexivity|]. rewrite !app_length, map_length, seq_length.
  f_equal. apply IHcs.
Qed.

Lemma links_app f cs ds : forall o, links f o (cs ++ ds) = links f o cs ++ links f (o + length (all_edges cs)) ds.
Proof.
  induction cs as [|c cs IH]; intros o; cbn [links app all_edges flat_map].
  - cbn. rewrite Nat.add_0_r. reflexivity.
  - rewrite IH, <- app_assoc, app_length. fold (all_edges cs). do 2 f_equal. f_equal. lia.
Qed.

Lemma body_len cs a : body cs a -> arena_len a = length (all_edges cs).
Proof.
  intros H. destruct H. rewrite <- (map_length e_from), <- bd_from0, map_length, combine_length, bd_orient0.
  unfold arena_len. lia.
Qed.

Lemma body_even cs a : body cs a -> even a.
Proof.
  intros H. pose proof (body_len _ _ H) as L. destruct H. split; rewrite L, ?bd_prev0, ?bd_next0; apply links_length.
Qed.

Lemma body_linked cs a c a' : body cs a -> linked a c a' -> body (cs ++ [c]) a'.
Proof.
  intros Hb Hl. pose proof (body_len _ _ Hb) as L. pose proof (linked_orient _ _ _ (bd_orient _ _ Hb) Hl) as O.
  destruct Hb. destruct Hl as [(ss & os & A & B & C & D & E & F & G) T I P N _ _].
  assert (AE : all_edges (cs ++ [c]) = all_edges cs ++ edges c).
  { rewrite all_edges_app. cbn. rewrite app_nil_r. reflexivity. }
  constructor; rewrite ?AE, ?map_app.
  - assumption.
  - rewrite A, B, combine_app, map_app by congruence. congruence.
  - rewrite A, B, combine_app, map_app by congruence. congruence.
  - congruence.
  - congruence.
  - rewrite links_app. cbn [links]. rewrite app_nil_r, P, <- L. cbn. congruence.
  - rewrite links_app. cbn [links]. rewrite app_nil_r, N, <- L. cbn. congruence.
  - rewrite A. apply Forall_app; auto.
Qed.

Lemma body_linked_all ds : forall cs a a', body cs a -> linked_all a ds a' ->
  body (cs ++ ds) a' /\ enter a' = enter a /\ exit_ a' = exit_ a /\ exists ss, segs a' = segs a ++ ss.
Proof.
  induction ds as [|d ds IH]; intros cs a a' Hb Hl; cbn [linked_all] in Hl.
  - subst a'. rewrite app_nil_r. repeat split; try apply Hb; try reflexivity. exists []. rewrite app_nil_r. reflexivity.
  - destruct Hl as (a1 & L1 & L2). destruct (IH (cs ++ [d]) a1 a' (body_linked _ _ _ _ Hb L1) L2) as (B & E & X & ss & S).
    rewrite <- app_assoc in B. destruct L1 as [(ss1 & os1 & A1 & _) _ _ _ _ EN EX]. split; [exact B|].
    split; [congruence|]. split; [congruence|]. exists (ss1 ++ ss). rewrite S, A1, app_assoc. reflexivity.
Qed.

(** *** Registration *)

Notation s0 := (SLine p00 p00).
Definition en_entry (ss : list segment) (i : nat) : f64 * nat := (py (seg_start (nth i ss s0)), i).
Definition ex_entry (ss : list segment) (i : nat) : f64 * nat := (py (seg_end (nth i ss s0)), i).
Definition slanted (ss : list segment) (i : nat) : bool :=
  let s := nth i ss s0 in negb (feq (py (seg_start s)) (py (seg_end s))).

Lemma is_horizontal_wf s : seg_wf s -> is_horizontal s = Some (feq (py (seg_start s)) (py (seg_end s))).
Proof.
  intros [_ W]. destruct s; cbn in *; [reflexivity|]. destruct W as (W & _). destruct (feq (py p0) (py p3)) eqn:E; [|reflexivity].
  destruct (feq_flt _ _ E). congruence.
Qed.

Lemma register_ok ss all : forall pre, Forall seg_wf ss -> all = pre ++ ss -> forall en ex,
  register ss (length pre) en ex =
    Some (en ++ map (en_entry all) (seq (length pre) (length ss)),
          ex ++ map (ex_entry all) (filter (slanted all) (seq (length pre) (length ss)))).
Proof.
  induction ss as [|s ss IH]; intros pre W Ha en ex; cbn [register].
  - cbn. rewrite !app_nil_r. reflexivity.
  - inversion W; subst. rewrite is_horizontal_wf by assumption. cbn [option_bind].
    specialize (IH (pre ++ [s]) H2). rewrite app_length in IH. cbn [length] in IH. rewrite Nat.add_1_r in IH.
    rewrite IH by (rewrite <- app_assoc; reflexivity). clear IH.
    cbn [length seq map filter].
    assert (N : nth (length pre) (pre ++ s :: ss) s0 = s) by (rewrite app_nth2, Nat.sub_diag by lia; reflexivity).
    assert (E1 : en_entry (pre ++ s :: ss) (length pre) = (py (seg_start s), length pre)) by (unfold en_entry; rewrite N; reflexivity).
    assert (E2 : ex_entry (pre ++ s :: ss) (length pre) = (py (seg_end s), length pre)) by (unfold ex_entry; rewrite N; reflexivity).
    rewrite E1, <- app_assoc. cbn [app]. f_equal. f_equal.
    unfold slanted at 2. rewrite N. cbn. destruct (feq (py (seg_start s)) (py (seg_end s))); cbn [negb].
    + reflexivity.
    + cbn [map]. rewrite E2, <- app_assoc. reflexivity.
Qed.

Section Hist.
Variable eval : cubic -> f64 -> point.
Variable ctrl : cubic -> f64 -> f64 -> point * point.
Variable monic : f64 -> f64 -> f64 * f64.
Variable quad_ctrl : point -> point -> point -> point * point.
Variable at_y : segment -> f64 -> f64.
Variable sort_by : ((f64 * nat) -> (f64 * nat) -> comparison) -> list (f64 * nat) -> list (f64 * nat).

Lemma update_ok a old : Forall seg_wf (segs a) -> old <= arena_len a ->
  let new := seq old (arena_len a - old) in
  update_enter_exit at_y sort_by a old =
    Some (mkArena (segs a) (contour_prev a) (contour_next a) (orientation a) (split_from a) (input_segs a)
      (sort_by (enter_cmp at_y (segs a)) (enter a ++ map (en_entry (segs a)) new))
      (sort_by exit_cmp (exit_ a ++ map (ex_entry (segs a)) (filter (slanted (segs a)) new)))).
Proof.
  intros W L new. unfold update_enter_exit.
  pose proof (firstn_skipn old (segs a)) as FS.
  assert (LF : length (firstn old (segs a)) = old) by (rewrite firstn_length; unfold arena_len in L; lia).
  rewrite <- LF at 2. rewrite (register_ok (skipn old (segs a)) (segs a) (firstn old (segs a))).
  - cbn [option_bind]. rewrite LF, skipn_length. reflexivity.
  - rewrite <- FS in W. apply Forall_app in W. apply W.
  - symmetry. exact FS.
Qed.

Lemma registered_app cs ds : forall o, registered_from o (cs ++ ds) = registered_from o cs ++ registered_from (o + length (all_edges cs)) ds.
Proof.
  induction cs as [|c cs IH]; intros o; cbn [registered_from app all_edges flat_map].
  - cbn. rewrite Nat.add_0_r. reflexivity.
  - rewrite IH, <- app_assoc, app_length. fold (all_edges cs). do 2 f_equal. f_equal. lia.
Qed.

Lemma registered_none ds : (forall d, In d ds -> registered d = false) -> forall o, registered_from o ds = [].
Proof.
  induction ds as [|d ds IH]; intros H o; cbn [registered_from]; [reflexivity|].
  rewrite (H d) by now left. apply IH. intros; apply H; now right.
Qed.
Lemma registered_every ds : (forall d, In d ds -> registered d = true) -> forall o, registered_from o ds = seq o (length (all_edges ds)).
Proof.
  induction ds as [|d ds IH]; intros H o; cbn [registered_from all_edges flat_map]; [reflexivity|].
  rewrite (H d) by now left. rewrite app_length, seq_app. f_equal. apply IH. intros; apply H; now right.
Qed.
Lemma registered_range cs : forall o i, In i (registered_from o cs) -> o <= i < o + length (all_edges cs).
Proof.
  induction cs as [|c cs IH]; intros o i; cbn [registered_from all_edges flat_map]; [easy|].
  rewrite app_length. fold (all_edges cs). intros H. apply in_app_or in H. destruct H as [H|H].
  - destruct (registered c); [|easy]. apply in_seq in H. lia.
  - apply IH in H. lia.
Qed.

Definition stores_events (ss : list segment) (cs : list contour) (en ex : list (f64 * nat)) : Prop :=
  Permutation en (map (en_entry ss) (registered_from 0 cs)) /\
  Permutation ex (map (ex_entry ss) (filter (slanted ss) (registered_from 0 cs))).

Lemma stores_split cs a : stores cs a <-> body cs a /\ stores_events (segs a) cs (enter a) (exit_ a).
Proof.
  split.
  - intros []. split; [constructor; assumption|split; assumption].
  - intros [[] [? ?]]. constructor; assumption.
Qed.

Lemma filter_ext_in' {A} (f g : A -> bool) l : (forall x, In x l -> f x = g x) -> filter f l = filter g l.
Proof. apply filter_ext_in. Qed.

Lemma stores_events_app ss ss' cs en ex : length (all_edges cs) = length ss ->
  stores_events ss cs en ex -> stores_events (ss ++ ss') cs en ex.
Proof.
  intros L [H1 H2]. assert (R : forall i, In i (registered_from 0 cs) -> nth i (ss ++ ss') s0 = nth i ss s0).
  { intros i Hi. apply registered_range in Hi. apply app_nth1. lia. }
  split.
  - rewrite H1. match goal with |- Permutation ?x ?y => enough (x = y) as -> by reflexivity end. apply map_ext_in. intros i Hi. unfold en_entry. rewrite R by assumption. reflexivity.
  - rewrite H2. match goal with |- Permutation ?x ?y => enough (x = y) as -> by reflexivity end.
    rewrite (filter_ext_in' (slanted (ss ++ ss')) (slanted ss)).
    + apply map_ext_in. intros i Hi. apply filter_In in Hi. unfold ex_entry. rewrite R by apply Hi. reflexivity.
    + intros i Hi. unfold slanted. rewrite R by assumption. reflexivity.
Qed.

Hypothesis Hsort : sort_spec sort_by.

Lemma filter_app' {A} (f : A -> bool) l r : filter f (l ++ r) = filter f l ++ filter f r.
Proof. apply filter_app. Qed.

(** Adding registered contours and then updating the event lists. *)
Lemma stores_add cs ds a a1 : stores cs a -> linked_all a ds a1 -> (forall d, In d ds -> registered d = true) ->
  exists a2, update_enter_exit at_y sort_by a1 (arena_len a) = Some a2 /\ stores (cs ++ ds) a2.
Proof.
  intros Hs Hl Hr. apply stores_split in Hs. destruct Hs as [Hb He].
  destruct (body_linked_all _ _ _ _ Hb Hl) as (B & EN & EX & ss & SS).
  pose proof (body_len _ _ Hb) as L0. pose proof (body_len _ _ B) as L1.
  rewrite all_edges_app, app_length in L1.
  rewrite update_ok; [|apply B|lia]. eexists. split; [reflexivity|].
  apply stores_split. split.
  - destruct B. constructor; assumption.
  - cbn [segs enter exit_]. rewrite EN, EX.
    assert (LS : length (all_edges cs) = length (segs a)) by (unfold arena_len in L0; lia).
    destruct (stores_events_app (segs a) ss cs _ _ LS He) as [P1 P2]. rewrite <- SS in P1, P2.
    assert (RG : registered_from 0 (cs ++ ds) = registered_from 0 cs ++ seq (arena_len a) (arena_len a1 - arena_len a)).
    { rewrite registered_app, (registered_every ds) by assumption. rewrite Nat.add_0_l, L0. do 2 f_equal. lia. }
    destruct Hsort as [HP _]. split.
    + rewrite <- HP, RG, map_app, P1. reflexivity.
    + rewrite <- HP, RG, filter_app', map_app, P2. reflexivity.
Qed.

Lemma stores_fail cs ds a a1 : stores cs a -> linked_all a ds a1 -> (forall d, In d ds -> registered d = false) ->
  stores (cs ++ ds) a1.
Proof.
  intros Hs Hl Hr. apply stores_split in Hs. destruct Hs as [Hb He].
  destruct (body_linked_all _ _ _ _ Hb Hl) as (B & EN & EX & ss & SS).
  pose proof (body_len _ _ Hb) as L0. apply stores_split. split; [assumption|].
  rewrite SS, EN, EX. unfold stores_events. rewrite registered_app, (registered_none ds), app_nil_r by assumption.
  apply stores_events_app; [unfold arena_len in L0; lia|assumption].
Qed.

Lemma stores_default : stores [] arena_default.
Proof. constructor; cbn; try reflexivity; constructor. Qed.

Lemma stores_nil_contour cs a k r : stores cs a -> stores (cs ++ [mkContour k r []]) a.
Proof.
  intros []. assert (AE : all_edges (cs ++ [mkContour k r []]) = all_edges cs) by (rewrite all_edges_app; cbn; apply app_nil_r).
  assert (R : registered_from 0 (cs ++ [mkContour k r []]) = registered_from 0 cs).
  { rewrite registered_app. cbn. destruct r; apply app_nil_r. }
  constructor; rewrite ?AE, ?R, ?links_app; cbn; rewrite ?app_nil_r; assumption.
Qed.

Lemma add_points_ok cs a ps : stores cs a -> exists a', add_points at_y sort_by a ps = Some a' /\
  stores (cs ++ [mkContour KOpen true (open_edges ps)]) a'.
Proof.
  intros Hs. unfold add_points. destruct (length ps <=? 1) eqn:E.
  - exists a. split; [reflexivity|]. apply Nat.leb_le in E. unfold open_edges. replace (length ps - 1) with 0 by lia.
    apply stores_nil_contour, Hs.
  - apply Nat.leb_gt in E. destruct (push_edges_ok (pairs ps) a) as (a1 & H1 & H2).
    rewrite H1. cbn [option_bind]. rewrite open_pairs in H2.
    pose proof (extends_len _ _ _ H2) as L.
    assert (LE : length (open_edges ps) = length ps - 1) by (unfold open_edges; rewrite map_length, seq_length; reflexivity).
    replace (arena_len a <? arena_len a1) with true by (symmetry; apply Nat.ltb_lt; lia).
    apply stores_split in Hs as Hs'. destruct Hs' as [Hb _].
    destruct (set_links_ok a (open_edges ps) a1 true KOpen None None (body_even _ _ Hb) H2) as (a2 & R1 & R2).
    + intros X. rewrite X in LE. cbn in LE. lia.
    + reflexivity.
    + unfold next_of. replace (S (length (open_edges ps) - 1) =? length (open_edges ps)) with true
        by (symmetry; apply Nat.eqb_eq; lia). reflexivity.
    + rewrite R1. cbn [option_bind]. eapply stores_add; [exact Hs| |].
      * cbn. eauto.
      * intros d [<-|[]]. reflexivity.
Qed.

Lemma apply_op_ok cs a op : stores cs a ->
  match apply_op eval ctrl monic quad_ctrl at_y sort_by a op with
  | AddOk a' => snd (op_contours eval monic quad_ctrl op) = true /\
                stores (cs ++ fst (op_contours eval monic quad_ctrl op)) a'
  | AddErr a' _ _ => snd (op_contours eval monic quad_ctrl op) = false /\
                stores (cs ++ fst (op_contours eval monic quad_ctrl op)) a'
  | AddPanic => exists b p, op = OpBez b p
  end.
Proof.
  intros Hs. apply stores_split in Hs as Hs'. destruct Hs' as [Hb He]. destruct op as [ps|pss|b p]; cbn [apply_op op_contours fst snd].
  - destruct (add_points_ok cs a ps Hs) as (a' & E & S). rewrite E. cbn. auto.
  - unfold add_closed_polylines. destruct (add_polylines_ok pss a (body_even _ _ Hb)) as (a1 & E & Hl). rewrite E. cbn [option_bind].
    destruct (stores_add cs _ a a1 Hs Hl) as (a2 & E2 & S2).
    + intros d Hd. apply in_map_iff in Hd. destruct Hd as (x & <- & _). reflexivity.
    + rewrite E2. cbn. auto.
  - unfold add_bez_path. pose proof (add_subpaths_ok eval ctrl monic quad_ctrl b (subpaths p) a (body_even _ _ Hb) (bd_orient _ _ Hb)) as H.
    cbn in H. destruct (add_subpaths eval ctrl monic quad_ctrl b a (subpaths p)) as [a1|a1 q1 q2|].
    + destruct H as [H1 H2]. destruct (stores_add cs _ a a1 Hs H2) as (a2 & E2 & S2).
      * intros d Hd. apply in_map_iff in Hd. destruct Hd as (x & <- & _). reflexivity.
      * rewrite E2. replace (b && negb (forallb closes (map (subpath_edges eval monic quad_ctrl) (subpaths p)))) with false.
        -- cbn. auto.
        -- destruct b; [|reflexivity]. rewrite H1 by reflexivity. reflexivity.
    + destruct H as (-> & H1 & H2). rewrite H1. cbn. split; [reflexivity|]. eapply stores_fail; [exact Hs|exact H2|].
      intros d Hd. apply in_map_iff in Hd. destruct Hd as (x & <- & _). reflexivity.
    + eauto.
Qed.

Lemma run_stores ops : forall cs a a' oks, stores cs a ->
  run eval ctrl monic quad_ctrl at_y sort_by a ops = Some (a', oks) ->
  stores (cs ++ history_contours eval monic quad_ctrl ops) a' /\
  oks = map (fun op => snd (op_contours eval monic quad_ctrl op)) ops.
Proof.
  induction ops as [|op ops IH]; intros cs a a' oks Hs H; cbn [run history_contours flat_map map] in *.
  - inversion H; subst. rewrite app_nil_r. auto.
  - pose proof (apply_op_ok cs a op Hs) as Ho.
    destruct (apply_op eval ctrl monic quad_ctrl at_y sort_by a op) as [a1|a1 p q|]; [| |discriminate];
      destruct Ho as [O1 O2];
      (destruct (run eval ctrl monic quad_ctrl at_y sort_by a1 ops) as [[a2 r]|] eqn:R; [|discriminate]);
      cbn in H; inversion H; subst; rewrite O1; destruct (IH _ _ _ _ O2 R) as [I1 I2]; rewrite app_assoc; split;
      [exact I1|now rewrite I2|exact I1|now rewrite I2].
Qed.

Lemma run_polylines_total ops : (forall op, In op ops -> forall b p, op <> OpBez b p) -> forall cs a, stores cs a ->
  exists a', run eval ctrl monic quad_ctrl at_y sort_by a ops = Some (a', map (fun _ => true) ops).
Proof.
  induction ops as [|op ops IH]; intros Hn cs a Hs; cbn [run map].
  - eauto.
  - pose proof (apply_op_ok cs a op Hs) as Ho.
    assert (S1 : snd (op_contours eval monic quad_ctrl op) = true).
    { destruct op; try reflexivity. exfalso. eapply Hn; [now left|reflexivity]. }
    destruct (apply_op eval ctrl monic quad_ctrl at_y sort_by a op) as [a1|a1 p q|].
    + destruct Ho as [_ O]. destruct (IH (fun o Ho => Hn o (or_intror Ho)) _ _ O) as [a' R]. rewrite R. cbn. eauto.
    + destruct Ho. congruence.
    + destruct Ho as (b & p & ->). exfalso. eapply Hn; [now left|reflexivity].
Qed.
End Hist.
