(** Proofs about the segment arena, continued: the event lists are sorted. *)
From Coq Require Import List Bool ZArith Lia Permutation Sorted Arith.
From Verif Require Import F64 F64Arith TreeVecModel CurveOrderSpec CurveOrderProofs GeomModel SegmentsModel SegmentsSpec SegmentsProofs SegmentsProofs2 SegmentsProofs3.
Import ListNotations.

Definition by_height (a b : f64 * nat) : Prop := fle (fst a) (fst b) = true.

Lemma exit_preorder l : Forall (fun x : f64 * nat => nan (fst x) = false) l -> preorder_on exit_cmp l.
Proof.
  intros H. rewrite Forall_forall in H. unfold exit_cmp. split.
  - intros x y Hx Hy. apply cof_cmp_antisym.
  - intros x y z Hx Hy Hz. rewrite !cof_cmp_key by (apply H; assumption). intros A B. 
    change (key (fst x) <= key (fst y))%Z in A. change (key (fst y) <= key (fst z))%Z in B.
    change (key (fst x) <= key (fst z))%Z. lia.
Qed.

(** An entry of the entrance list for a segment on which [at_y] behaves. *)
Definition entry_ok (at_y : segment -> f64 -> f64) (ss : list segment) (x : f64 * nat) : Prop :=
  nan (fst x) = false /\ fst x = py (seg_start (nth (snd x) ss s0)) /\ at_y_ok at_y (nth (snd x) ss s0).

Lemma enter_preorder at_y ss l : Forall (entry_ok at_y ss) l -> preorder_on (enter_cmp at_y ss) l.
Proof.
  intros H. rewrite Forall_forall in H. unfold enter_cmp.
  change (SLine (mkPoint fzero fzero) (mkPoint fzero fzero)) with s0.
  set (sg := fun x : f64 * nat => nth (snd x) ss s0).
  assert (NH : forall x, In x l -> nan (fst x) = false) by (intros x Hx; apply (H x Hx)).
  assert (NR : forall x, In x l -> feq (fst x) (fst x) = true).
  { intros x Hx. rewrite feq_key by (apply NH, Hx). apply Z.eqb_refl. }
  assert (NA : forall x y, In x l -> In y l -> key (fst x) = key (fst y) ->
     nan (at_y (sg y) (fst x)) = false /\ key (at_y (sg y) (fst x)) = key (at_y (sg y) (fst y))).
  { intros x y Hx Hy E. destruct (H y Hy) as (N & Q & A).
    assert (E' : feq (fst x) (py (seg_start (sg y))) = true).
    { unfold sg. rewrite <- Q, feq_key by (apply NH; assumption). apply Z.eqb_eq, E. }
    destruct (A _ E') as [A1 A2]. fold (sg y) in A1, A2. split; [exact A1|].
    unfold sg in A2 at 2 3. rewrite <- Q in A2. fold (sg y) in A2.
    destruct (feq_nonnan _ _ A2). rewrite feq_key in A2 by assumption. apply Z.eqb_eq, A2. }
  assert (K : forall x y, In x l -> In y l ->
     match cof_cmp (fst x) (fst y) with
     | Eq => cof_cmp (at_y (sg x) (fst x)) (at_y (sg y) (fst x)) | Lt => Lt | Gt => Gt end =
     match (key (fst x) ?= key (fst y))%Z with
     | Eq => (key (at_y (sg x) (fst x)) ?= key (at_y (sg y) (fst y)))%Z | c => c end).
  { intros x y Hx Hy. rewrite cof_cmp_key by (apply NH; assumption).
    destruct (Z.compare_spec (key (fst x)) (key (fst y))) as [E| |]; try reflexivity.
    destruct (NA x y Hx Hy E) as [N1 K1]. destruct (NA x x Hx Hx eq_refl) as [N2 _].
    rewrite cof_cmp_key by assumption. rewrite K1. reflexivity. }
  split.
  - intros x y Hx Hy. fold (sg x) (sg y). 
    etransitivity; [apply K; assumption|]. etransitivity; [|symmetry; apply f_equal, K; assumption].
    rewrite (Z.compare_antisym (key (fst x))). 
    destruct (key (fst x) ?= key (fst y))%Z; cbn; try reflexivity. apply Z.compare_antisym.
  - intros x y z Hx Hy Hz A B. 
    pose proof (K x y Hx Hy) as E1. pose proof (K y z Hy Hz) as E2. pose proof (K x z Hx Hz) as E3.
    unfold sg in *. rewrite E1 in A. rewrite E2 in B. rewrite E3.
    destruct (Z.compare_spec (key (fst x)) (key (fst y))), (Z.compare_spec (key (fst y)) (key (fst z))),
      (Z.compare_spec (key (fst x)) (key (fst z))); try congruence; try lia.
    match type of A with (?p ?= ?q)%Z <> Gt => change (p <= q)%Z in A end.
    match type of B with (?p ?= ?q)%Z <> Gt => change (p <= q)%Z in B end.
    match goal with |- (?p ?= ?q)%Z <> Gt => change (p <= q)%Z end. lia.
Qed.

Lemma StronglySorted_weaken {A} (R Q : A -> A -> Prop) l :
  (forall x y, In x l -> In y l -> R x y -> Q x y) -> StronglySorted R l -> StronglySorted Q l.
Proof.
  intros H S. induction S as [|x l S IH F]; constructor.
  - apply IH. intros; apply H; try (now right); assumption.
  - rewrite Forall_forall in *. intros y Hy. apply H; [now left|now right|apply F, Hy].
Qed.

Lemma cof_not_gt x y : nan x = false -> nan y = false -> cof_cmp x y <> Gt -> fle x y = true.
Proof. intros A B. rewrite cof_cmp_key, fle_key by assumption. intros C. apply Z.leb_le. exact C. Qed.

Section Sorted.
Variable eval : cubic -> f64 -> point.
Variable ctrl : cubic -> f64 -> f64 -> point * point.
Variable monic : f64 -> f64 -> f64 * f64.
Variable quad_ctrl : point -> point -> point -> point * point.
Variable at_y : segment -> f64 -> f64.
Variable sort_by : ((f64 * nat) -> (f64 * nat) -> comparison) -> list (f64 * nat) -> list (f64 * nat).
Hypothesis Hsort : sort_spec sort_by.

(** No edge end is NaN. *)
Definition edge_nonnan (e : edge) : Prop := point_nonnan (e_from e) /\ point_nonnan (e_to e).

Lemma stores_nonnan cs a i : stores cs a -> Forall edge_nonnan (all_edges cs) -> i < length (segs a) ->
  nan (py (seg_start (nth i (segs a) s0))) = false /\ nan (py (seg_end (nth i (segs a) s0))) = false.
Proof.
  intros [] F L. destruct (nth_error (combine (segs a) (orientation a)) i) as [[s o]|] eqn:E.
  2:{ apply nth_error_None in E. rewrite combine_length in E. lia. }
  pose proof (nth_error_map' read_from (combine (segs a) (orientation a)) i) as A.
  pose proof (nth_error_map' read_to (combine (segs a) (orientation a)) i) as B.
  rewrite st_from, nth_error_map', E in A. rewrite st_to, nth_error_map', E in B.
  destruct (nth_error (all_edges cs) i) as [e|] eqn:Ee; [|discriminate].
  rewrite Forall_forall in F. destruct (F e (nth_error_In _ _ Ee)) as [[F1 F2] [F3 F4]].
  rewrite combine_nth_error in E. destruct (nth_error (segs a) i) as [s'|] eqn:Es; [|discriminate].
  destruct (nth_error (orientation a) i); [|discriminate]. inversion E; subst.
  rewrite (nth_error_nth _ _ s0 Es). cbn in A, B. inversion A as [A']. inversion B as [B'].
  rewrite A' in F2. rewrite B' in F4. unfold read_from, read_to in *. cbn in *. destruct o; auto.
Qed.

Lemma sort_enter_sorted ss l : Forall (entry_ok at_y ss) l ->
  StronglySorted by_height (sort_by (enter_cmp at_y ss) l).
Proof.
  intros H. destruct Hsort as [HP HS]. specialize (HS _ _ (enter_preorder at_y ss l H)).
  assert (H' : Forall (fun x => nan (fst x) = false) (sort_by (enter_cmp at_y ss) l)).
  { rewrite Forall_forall in *. intros x Hx. apply H. eapply Permutation_in; [symmetry; apply HP|exact Hx]. }
  rewrite Forall_forall in H'.
  eapply StronglySorted_weaken; [|exact HS]. intros x y Hx Hy C. apply cof_not_gt; try (apply H'; assumption).
  intros G. apply C. unfold enter_cmp. rewrite G. reflexivity.
Qed.
Lemma sort_exit_sorted l : Forall (fun x : f64 * nat => nan (fst x) = false) l ->
  StronglySorted by_height (sort_by exit_cmp l).
Proof.
  intros H. destruct Hsort as [HP HS]. specialize (HS _ _ (exit_preorder l H)).
  assert (H' : Forall (fun x => nan (fst x) = false) (sort_by exit_cmp l)).
  { rewrite Forall_forall in *. intros x Hx. apply H. eapply Permutation_in; [symmetry; apply HP|exact Hx]. }
  rewrite Forall_forall in H'.
  eapply StronglySorted_weaken; [|exact HS]. intros x y Hx Hy C. apply cof_not_gt; try (apply H'; assumption). exact C.
Qed.

Definition events_sorted (a : arena) : Prop :=
  StronglySorted by_height (enter a) /\ StronglySorted by_height (exit_ a).

Lemma update_sorted cs a old a' : stores cs a' -> Forall edge_nonnan (all_edges cs) -> Forall (at_y_ok at_y) (segs a') ->
  update_enter_exit at_y sort_by a old = Some a' -> events_sorted a'.
Proof.
  intros Hs F HA H. unfold update_enter_exit in H. destruct (register _ _ _ _) as [[en ex]|]; [|discriminate].
  cbn [option_bind fst snd] in H. inversion H as [H1]. clear H.
  assert (N : Forall (entry_ok at_y (segs a')) (enter a') /\ Forall (fun x : f64 * nat => nan (fst x) = false) (exit_ a')).
  { assert (Lr : forall i, In i (registered_from 0 cs) -> i < length (segs a')).
    { intros i Hi. apply registered_range in Hi. destruct Hs.
      assert (length (segs a') = length (all_edges cs)) as ->; [|lia].
      rewrite <- (map_length e_from), <- st_from, map_length, combine_length, st_orient. lia. }
    split; rewrite Forall_forall; intros x Hx.
    - apply (Permutation_in _ (st_enter _ _ Hs)) in Hx. apply in_map_iff in Hx. destruct Hx as (i & <- & Hi).
      split; [cbn; eapply stores_nonnan; [exact Hs|exact F|apply Lr, Hi]|]. split; [reflexivity|]. cbn.
      rewrite Forall_forall in HA. apply HA, nth_In, Lr, Hi.
    - apply (Permutation_in _ (st_exit _ _ Hs)) in Hx. apply in_map_iff in Hx. destruct Hx as (i & <- & Hi).
      apply filter_In in Hi. cbn. eapply stores_nonnan; [exact Hs|exact F|apply Lr, Hi]. }
  clear Hs HA. subst a'. cbn [enter exit_ segs] in *. destruct N as [N1 N2]. destruct Hsort as [HP _]. split; cbn [enter exit_].
  - apply sort_enter_sorted. rewrite Forall_forall in *. intros x Hx. apply N1. eapply Permutation_in; [apply HP|exact Hx].
  - apply sort_exit_sorted. rewrite Forall_forall in *. intros x Hx. apply N2. eapply Permutation_in; [apply HP|exact Hx].
Qed.

Lemma apply_op_sorted cs a op a' : stores cs a -> events_sorted a ->
  stores (cs ++ fst (op_contours eval monic quad_ctrl op)) a' ->
  Forall edge_nonnan (all_edges (cs ++ fst (op_contours eval monic quad_ctrl op))) ->
  Forall (at_y_ok at_y) (segs a') ->
  (apply_op eval ctrl monic quad_ctrl at_y sort_by a op = AddOk a' \/ exists p q, apply_op eval ctrl monic quad_ctrl at_y sort_by a op = AddErr a' p q) ->
  events_sorted a'.
Proof.
  intros Hs He Hs' F HA H. destruct op as [ps|pss|b p]; cbn [apply_op] in H.
  - destruct H as [H|(p & q & H)]; [|destruct (add_points at_y sort_by a ps); discriminate].
    unfold add_points in H. destruct (length ps <=? 1); [inversion H; subst; assumption|].
    destruct (push_edges a (pairs ps)) as [a1|]; [|discriminate]. cbn [option_bind] in H.
    destruct (if arena_len a <? arena_len a1 then _ else _) as [a2|]; [|discriminate]. cbn [option_bind] in H.
    destruct (update_enter_exit at_y sort_by a2 (arena_len a)) as [a3|] eqn:U; [|discriminate].
    inversion H; subst. eapply update_sorted; eassumption.
  - destruct H as [H|(p & q & H)]; [|destruct (add_closed_polylines at_y sort_by a pss); discriminate].
    unfold add_closed_polylines in H. destruct (add_polylines a pss) as [a1|]; [|discriminate]. cbn [option_bind] in H.
    destruct (update_enter_exit at_y sort_by a1 (arena_len a)) as [a3|] eqn:U; [|discriminate].
    inversion H; subst. eapply update_sorted; eassumption.
  - unfold add_bez_path in H.
    apply stores_split in Hs as Hs1. destruct Hs1 as [Hb _].
    pose proof (add_subpaths_ok eval ctrl monic quad_ctrl b (subpaths p) a (body_even _ _ Hb) (bd_orient _ _ Hb)) as A. cbn in A.
    destruct (add_subpaths eval ctrl monic quad_ctrl b a (subpaths p)) as [a1|a1 q1 q2|].
    + destruct (update_enter_exit at_y sort_by a1 (arena_len a)) as [a3|] eqn:U;
        [|destruct H as [H|(? & ? & H)]; discriminate].
      destruct H as [H|(? & ? & H)]; [|discriminate]. inversion H; subst. eapply update_sorted; eassumption.
    + destruct H as [H|(? & ? & H)]; [discriminate|]. inversion H; subst. destruct A as (_ & _ & L).
      destruct (body_linked_all _ _ _ _ Hb L) as (_ & EN & EX & _). unfold events_sorted. rewrite EN, EX. exact He.
    + destruct H as [H|(? & ? & H)]; discriminate.
Qed.

Lemma push_edges_prefix es : forall a a', push_edges a es = Some a' -> exists ss, segs a' = segs a ++ ss.
Proof.
  intros a a' H. destruct (push_edges_ok es a) as (x & E & X). rewrite E in H. inversion H; subst.
  destruct X as [(ss & os & S & _) _ _ _ _ _ _]. eauto.
Qed.

Lemma apply_op_prefix cs a op a' : stores cs a ->
  (apply_op eval ctrl monic quad_ctrl at_y sort_by a op = AddOk a' \/ exists p q, apply_op eval ctrl monic quad_ctrl at_y sort_by a op = AddErr a' p q) ->
  exists ss, segs a' = segs a ++ ss.
Proof.
  assert (U : forall a1 n a2, update_enter_exit at_y sort_by a1 n = Some a2 -> segs a2 = segs a1).
  { intros a1 n a2. unfold update_enter_exit. destruct (register _ _ _ _) as [r|]; [|discriminate]. cbn. intros E; inversion E; reflexivity. }
  intros Hs H. destruct op as [ps|pss|b p]; cbn [apply_op] in H.
  - destruct H as [H|(p & q & H)]; [|destruct (add_points at_y sort_by a ps); discriminate].
    unfold add_points in H. destruct (length ps <=? 1); [inversion H; subst; exists []; now rewrite app_nil_r|].
    destruct (push_edges a (pairs ps)) as [a1|] eqn:P; [|discriminate]. cbn [option_bind] in H.
    destruct (if arena_len a <? arena_len a1 then _ else _) as [a2|] eqn:L; [|discriminate]. cbn [option_bind] in H.
    destruct (update_enter_exit at_y sort_by a2 (arena_len a)) as [a3|] eqn:UE; [|discriminate].
    inversion H; subst. rewrite (U _ _ _ UE). destruct (push_edges_prefix _ _ _ P) as [ss S]. exists ss. rewrite <- S.
    destruct (arena_len a <? arena_len a1); [|inversion L; reflexivity]. unfold set_links in L.
    destruct (upd (contour_prev a1) _ _); [|discriminate]. cbn in L. destruct (upd (contour_next a1) _ _); [|discriminate]. cbn in L.
    inversion L. reflexivity.
  - destruct H as [H|(p & q & H)]; [|destruct (add_closed_polylines at_y sort_by a pss); discriminate].
    apply stores_split in Hs. destruct Hs as [Hb _].
    unfold add_closed_polylines in H. destruct (add_polylines_ok pss a (body_even _ _ Hb)) as (a1 & E & L). rewrite E in H. cbn [option_bind] in H.
    destruct (update_enter_exit at_y sort_by a1 (arena_len a)) as [a3|] eqn:UE; [|discriminate].
    inversion H; subst. rewrite (U _ _ _ UE). eapply body_linked_all; eassumption.
  - unfold add_bez_path in H.
    apply stores_split in Hs as Hs1. destruct Hs1 as [Hb _].
    pose proof (add_subpaths_ok eval ctrl monic quad_ctrl b (subpaths p) a (body_even _ _ Hb) (bd_orient _ _ Hb)) as A. cbn in A.
    destruct (add_subpaths eval ctrl monic quad_ctrl b a (subpaths p)) as [a1|a1 q1 q2|].
    + destruct (update_enter_exit at_y sort_by a1 (arena_len a)) as [a3|] eqn:UE;
        [|destruct H as [H|(? & ? & H)]; discriminate].
      destruct H as [H|(? & ? & H)]; [|discriminate]. inversion H; subst. rewrite (U _ _ _ UE). destruct A as [_ L].
      eapply body_linked_all; eassumption.
    + destruct H as [H|(? & ? & H)]; [discriminate|]. inversion H; subst. destruct A as (_ & _ & L).
      eapply body_linked_all; eassumption.
    + destruct H as [H|(? & ? & H)]; discriminate.
Qed.

Lemma run_prefix ops : forall cs a a' oks, stores cs a ->
  run eval ctrl monic quad_ctrl at_y sort_by a ops = Some (a', oks) -> exists ss, segs a' = segs a ++ ss.
Proof.
  induction ops as [|op ops IH]; intros cs a a' oks Hs H; cbn [run] in *.
  - inversion H; subst. exists []. now rewrite app_nil_r.
  - pose proof (apply_op_ok eval ctrl monic quad_ctrl at_y sort_by Hsort cs a op Hs) as Ho.
    pose proof (apply_op_prefix cs a op) as S.
    destruct (apply_op eval ctrl monic quad_ctrl at_y sort_by a op) as [a1|a1 p q|] eqn:E; [| |discriminate];
      destruct Ho as [O1 O2];
      (destruct (run eval ctrl monic quad_ctrl at_y sort_by a1 ops) as [[a2 r]|] eqn:R; [|discriminate]);
      cbn in H; inversion H; subst; destruct (IH _ _ _ _ O2 R) as [s2 I2];
      destruct (S a1 Hs) as [s1 I1]; eauto; exists (s1 ++ s2); rewrite I2, I1, app_assoc; reflexivity.
Qed.

Lemma run_sorted ops : forall cs a a' oks, stores cs a -> events_sorted a ->
  Forall edge_nonnan (all_edges (cs ++ history_contours eval monic quad_ctrl ops)) ->
  Forall (at_y_ok at_y) (segs a') ->
  run eval ctrl monic quad_ctrl at_y sort_by a ops = Some (a', oks) -> events_sorted a'.
Proof.
  induction ops as [|op ops IH]; intros cs a a' oks Hs He F HA H; cbn [run history_contours flat_map] in *.
  - inversion H; subst. assumption.
  - pose proof (apply_op_ok eval ctrl monic quad_ctrl at_y sort_by Hsort cs a op Hs) as Ho.
    rewrite app_assoc in F.
    assert (F1 : Forall edge_nonnan (all_edges (cs ++ fst (op_contours eval monic quad_ctrl op)))).
    { rewrite all_edges_app in F. apply Forall_app in F. apply F. }
    pose proof (apply_op_sorted cs a op) as S.
    destruct (apply_op eval ctrl monic quad_ctrl at_y sort_by a op) as [a1|a1 p q|] eqn:E; [| |discriminate];
      destruct Ho as [O1 O2];
      (destruct (run eval ctrl monic quad_ctrl at_y sort_by a1 ops) as [[a2 r]|] eqn:R; [|discriminate]);
      cbn in H; inversion H; subst; destruct (run_prefix ops _ _ _ _ O2 R) as [s2 I2];
      (assert (HA1 : Forall (at_y_ok at_y) (segs a1)) by (rewrite I2 in HA; apply Forall_app in HA; apply HA));
      eapply (IH _ _ _ _ O2); try eassumption; apply S; auto.
    right. eauto.
Qed.

(** Edges without NaN from the input. *)
Definition op_nonnan (op : seg_op) : Prop :=
  match op with
  | OpPoints ps => Forall point_nonnan ps
  | OpClosed pss => Forall (Forall point_nonnan) pss
  | OpBez _ p => path_exact eval monic quad_ctrl p
  end.

Lemma p00_nonnan : point_nonnan p00.
Proof. split; reflexivity. Qed.
Lemma nth_nonnan ps i : Forall point_nonnan ps -> point_nonnan (nth i ps p00).
Proof.
  intros F. destruct (nth_in_or_default i ps p00) as [H| ->]; [|apply p00_nonnan].
  rewrite Forall_forall in F. apply F, H.
Qed.

Lemma curve_edges_nonnan inp c ts : (forall t, In t ts -> point_nonnan (eval c t)) -> Forall edge_nonnan (curve_edges eval inp c ts).
Proof.
  induction ts as [|t0 ts IH]; intros H; [constructor|]. destruct ts as [|t1 ts]; [constructor|].
  change (curve_edges eval inp c (t0 :: t1 :: ts)) with
      ((if point_eq (eval c t0) (eval c t1) then [] else [mkEdge (eval c t0) (eval c t1) (t0, t1) inp]) ++ curve_edges eval inp c (t1 :: ts)).
  apply Forall_app. split; [|apply IH; intros; apply H; now right].
  destruct (point_eq (eval c t0) (eval c t1)); constructor; [|constructor].
  split; cbn; apply H; cbn; auto.
Qed.

Lemma subpath_edges_nonnan p sub : path_exact eval monic quad_ctrl p -> In sub (subpaths p) ->
  Forall edge_nonnan (subpath_edges eval monic quad_ctrl sub).
Proof.
  intros X Hs. unfold subpath_edges. destruct (kurbo_segments sub) as [ss|] eqn:K; [|constructor].
  specialize (X _ _ Hs K). clear -X. induction ss as [|s ss IH]; [constructor|]. inversion X; subst.
  cbn. apply Forall_app. split; [|apply IH; assumption].
  destruct s as [a b|a b c|c]; cbn [pathseg_edges ends_exact] in *.
  - destruct H1. destruct (point_eq a b); constructor; [|constructor]. split; assumption.
  - apply curve_edges_nonnan. apply H1.
  - apply curve_edges_nonnan. apply H1.
Qed.

Lemma history_nonnan ops : (forall op, In op ops -> op_nonnan op) ->
  Forall edge_nonnan (all_edges (history_contours eval monic quad_ctrl ops)).
Proof.
  intros H. apply Forall_forall. intros e He. apply in_flat_map in He. destruct He as (c & Hc & He).
  apply in_flat_map in Hc. destruct Hc as (op & Ho & Hc). specialize (H _ Ho).
  destruct op as [ps|pss|b p]; cbn [op_contours fst op_nonnan] in *.
  - destruct Hc as [<-|[]]. cbn in He. unfold open_edges in He. apply in_map_iff in He. destruct He as (i & <- & _).
    split; apply nth_nonnan; assumption.
  - apply in_map_iff in Hc. destruct Hc as (ps & <- & Hp). cbn in He. rewrite Forall_forall in H. specialize (H _ Hp).
    unfold closed_edges in He. destruct (length ps <=? 1); [easy|]. apply in_map_iff in He. destruct He as (i & <- & _).
    split; apply nth_nonnan; assumption.
  - assert (exists sub, In sub (subpaths p) /\ edges c = subpath_edges eval monic quad_ctrl sub) as (sub & S1 & S2).
    { destruct (b && negb _); cbn [fst] in Hc; apply in_map_iff in Hc; destruct Hc as (es & <- & Hx);
      [apply upto_first_bad_incl in Hx|]; apply in_map_iff in Hx; destruct Hx as (sub & <- & Hs); exists sub; split; [assumption|reflexivity|assumption|reflexivity]. }
    rewrite S2 in He. pose proof (subpath_edges_nonnan p sub H S1) as F. rewrite Forall_forall in F. apply F, He.
Qed.
End Sorted.

(** ** Insertion sort satisfies the sorting specification. *)
Section InsertionSort.
Context {A : Type}.
Fixpoint insert_by (cmp : A -> A -> comparison) (x : A) (l : list A) : list A :=
  match l with
  | [] => [x]
  | y :: l' => match cmp x y with Gt => y :: insert_by cmp x l' | _ => x :: l end
  end.
Definition isort (cmp : A -> A -> comparison) (l : list A) : list A := fold_right (insert_by cmp) [] l.

Lemma insert_perm cmp x l : Permutation (x :: l) (insert_by cmp x l).
Proof.
  induction l as [|y l IH]; cbn; [reflexivity|]. destruct (cmp x y); try reflexivity.
  rewrite perm_swap. constructor. exact IH.
Qed.
Lemma isort_perm cmp l : Permutation l (isort cmp l).
Proof. induction l as [|x l IH]; cbn; [reflexivity|]. rewrite <- insert_perm. constructor. exact IH. Qed.

Lemma insert_sorted cmp x l : preorder_on cmp (x :: l) -> StronglySorted (fun a b => cmp a b <> Gt) l ->
  StronglySorted (fun a b => cmp a b <> Gt) (insert_by cmp x l).
Proof.
  intros P S. induction S as [|y l S IH F]; cbn; [repeat constructor|].
  destruct P as [AS TR]. destruct (cmp x y) eqn:E.
  3:{ constructor.
      - apply IH. split.
        + intros u v Hu Hv. apply AS; cbn in *; tauto.
        + intros u v w Hu Hv Hw. apply TR; cbn in *; tauto.
      - rewrite Forall_forall in *. intros z Hz. apply (Permutation_in _ (Permutation_sym (insert_perm cmp x l))) in Hz.
        destruct Hz as [<-|Hz]; [|apply F, Hz]. rewrite (AS x y), E by (cbn; auto). discriminate. }
  all: constructor; [constructor; assumption|]; constructor; [congruence|];
    rewrite Forall_forall in *; intros z Hz; apply (TR x y z); cbn; auto; congruence.
Qed.

Lemma isort_spec : sort_spec isort.
Proof.
  split; [apply isort_perm|]. intros cmp l P. induction l as [|x l IH]; [constructor|]. cbn.
  apply insert_sorted.
  - destruct P as [AS TR]. assert (I : forall z, In z (x :: isort cmp l) -> In z (x :: l)).
    { intros z [<-|H]; [now left|]. right. eapply Permutation_in; [symmetry; apply isort_perm|exact H]. }
    split.
    + intros u v Hu Hv. apply AS; apply I; assumption.
    + intros u v w Hu Hv Hw. apply TR; apply I; assumption.
  - apply IH. destruct P as [AS TR]. split.
    + intros u v Hu Hv. apply AS; right; assumption.
    + intros u v w Hu Hv Hw. apply TR; right; assumption.
Qed.
End InsertionSort.
