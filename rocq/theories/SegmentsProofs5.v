(** Proofs about the segment arena, continued: when a path addition can panic. *)
From Coq Require Import List Bool ZArith Lia Permutation Sorted Arith.
From Verif Require Import F64 F64Arith TreeVecModel CurveOrderSpec CurveOrderProofs GeomModel SegmentsModel SegmentsSpec SegmentsProofs SegmentsProofs2 SegmentsProofs3 SegmentsProofs4.
Import ListNotations.

Section Panics.
Variable eval : cubic -> f64 -> point.
Variable ctrl : cubic -> f64 -> f64 -> point * point.
Variable monic : f64 -> f64 -> f64 * f64.
Variable quad_ctrl : point -> point -> point -> point * point.

Lemma roots_le_2 c : length (roots monic c) <= 2.
Proof.
  unfold roots. destruct (finf _ || finf _); cbn; [lia|]. destruct (monic _ _) as [r0 r1]. destruct (fne r1 r0); cbn; lia.
Qed.

Lemma mono_loop_length c rs : forall t, length (mono_loop eval ctrl c t rs) <= S (length rs).
Proof.
  induction rs as [|r rs IH]; intros t; cbn [mono_loop].
  - destruct (force_monotonic _); cbn; lia.
  - destruct (fgt r fzero && flt r fone).
    + destruct (force_monotonic _); cbn [length]; specialize (IH r); lia.
    + specialize (IH t). cbn [length]. lia.
Qed.

Lemma monotonic_pieces_some c : exists ps, monotonic_pieces eval ctrl monic c = Some ps /\ length ps <= 3 /\
  ps = mono_loop eval ctrl c fzero (roots monic c).
Proof.
  unfold monotonic_pieces. pose proof (mono_loop_length c (roots monic c) fzero). pose proof (roots_le_2 c).
  replace (length (mono_loop eval ctrl c fzero (roots monic c)) <=? 3) with true by (symmetry; apply Nat.leb_le; lia).
  eexists. split; [reflexivity|]. split; [lia|reflexivity].
Qed.

(** All coordinates of a cubic are finite. *)
Definition cubic_fin (c : cubic) : Prop :=
  point_fin (c0 c) /\ point_fin (c1 c) /\ point_fin (c2 c) /\ point_fin (c3 c).

(** All coordinates computed from an input segment are finite. *)
Definition pathseg_fin (s : pathseg) : Prop :=
  match s with
  | PLine p q => point_fin p /\ point_fin q
  | _ => forall ps m, monotonic_pieces eval ctrl monic (to_cubic quad_ctrl s) = Some ps -> In m ps -> cubic_fin (pc m)
  end.

Lemma from_kurbo_fin p : point_fin p -> from_kurbo p = Some p.
Proof. intros [A B]. unfold from_kurbo. rewrite A, B. reflexivity. Qed.

Lemma push_piece_total a inp m : cubic_fin (pc m) -> exists a', push_piece a inp m = Some a'.
Proof.
  intros (F0 & F1 & F2 & F3). unfold push_piece.
  pose proof (fin_point _ (proj1 F0) (proj2 F0)) as N0. pose proof (fin_point _ (proj1 F3) (proj2 F3)) as N3.
  destruct (tuple_le (c0 (pc m)) (c3 (pc m))) eqn:T; rewrite !from_kurbo_fin by assumption; cbn [option_bind]; unfold monotonic_cubic.
  - rewrite tuple_le_key in T by assumption. rewrite straight_ok by assumption.
    destruct (feq _ _); cbn; eauto.
  - rewrite tuple_le_key in T by assumption. apply point_nle_le in T. rewrite straight_ok by assumption.
    destruct (feq _ _); cbn; eauto.
Qed.

Lemma push_pieces_total ms : forall a inp, (forall m, In m ms -> cubic_fin (pc m)) -> exists a', push_pieces a inp ms = Some a'.
Proof.
  induction ms as [|m ms IH]; intros a inp H; cbn; [eauto|].
  destruct (push_piece_total a inp m (H m (or_introl eq_refl))) as [a1 E]. rewrite E. cbn. apply IH. intros; apply H; now right.
Qed.

Lemma push_pathseg_total a s : pathseg_fin s -> exists a', push_pathseg eval ctrl monic quad_ctrl a s = Some a'.
Proof.
  destruct s as [p q|p q r|c]; cbn [push_pathseg pathseg_fin].
  - intros [A B]. rewrite !from_kurbo_fin by assumption. cbn [option_bind].
    destruct (point_le p q) eqn:L.
    + destruct (negb (point_eq p q)); [|eauto]. rewrite straight_ok by assumption. cbn; eauto.
    + apply point_nle_le in L. destruct (negb (point_eq q p)); [|eauto]. rewrite straight_ok by assumption. cbn; eauto.
  - intros H. destruct (monotonic_pieces_some (to_cubic quad_ctrl (PQuad p q r))) as (ps & E & _). rewrite E. cbn [option_bind].
    apply push_pieces_total. intros m Hm. eapply H; eassumption.
  - intros H. destruct (monotonic_pieces_some (to_cubic quad_ctrl (PCubic c))) as (ps & E & _). rewrite E. cbn [option_bind].
    apply push_pieces_total. intros m Hm. eapply H; eassumption.
Qed.

Lemma push_pathsegs_total l : forall a, Forall pathseg_fin l -> exists a', push_pathsegs eval ctrl monic quad_ctrl a l = Some a'.
Proof.
  induction l as [|s l IH]; intros a F; cbn; [eauto|]. inversion F; subst.
  destruct (push_pathseg_total a s H1) as [a1 E]. rewrite E. cbn. apply IH, H2.
Qed.

Lemma add_subpath_total must a sub ss : even a -> length (orientation a) = length (segs a) ->
  kurbo_segments sub = Some ss -> Forall pathseg_fin ss ->
  add_subpath eval ctrl monic quad_ctrl must a sub <> AddPanic.
Proof.
  intros Hev Hor K F. unfold add_subpath. rewrite K. cbn [option_bind].
  destruct (push_pathsegs_total ss a F) as [a1 E]. rewrite E. apply push_pathsegs_ok in E.
  pose proof (extends_len _ _ _ E) as L. remember (flat_map (pathseg_edges eval monic quad_ctrl) ss) as es.
  destruct (arena_len a <? arena_len a1) eqn:LT; [|discriminate]. apply Nat.ltb_lt in LT.
  destruct (extends_oriented a es a1 0 E Hor) as [S0 _]. rewrite Nat.add_0_r in S0.
  destruct (extends_oriented a es a1 (length es - 1) E Hor) as [_ E0].
  replace (arena_len a + (length es - 1)) with (arena_len a1 - 1) in E0 by lia.
  destruct es as [|e es]; [cbn in L; lia|]. remember (e :: es) as l.
  rewrite S0, E0. subst l. cbn [nth_error option_map]. rewrite (nth_error_last (e :: es) e) by discriminate. cbn [option_map].
  destruct (kpoint_eq _ _).
  - destruct (set_links_ok a (e :: es) a1 true KClosed (Some (arena_len a1 - 1)) (Some (arena_len a)) Hev E) as (a2 & R1 & R2).
    + discriminate.
    + cbn [prev_of]. rewrite L. reflexivity.
    + unfold next_of. replace (S (length (e :: es) - 1) =? length (e :: es)) with true; [reflexivity|].
      symmetry; apply Nat.eqb_eq. cbn. lia.
    + rewrite R1. discriminate.
  - destruct must; discriminate.
Qed.

Lemma add_subpaths_total must subs : forall a, even a -> length (orientation a) = length (segs a) ->
  (forall sub, In sub subs -> exists ss, kurbo_segments sub = Some ss /\ Forall pathseg_fin ss) ->
  add_subpaths eval ctrl monic quad_ctrl must a subs <> AddPanic.
Proof.
  induction subs as [|sub subs IH]; intros a Hev Hor H; cbn [add_subpaths]; [discriminate|].
  destruct (H sub (or_introl eq_refl)) as (ss & K & F).
  pose proof (add_subpath_total must a sub ss Hev Hor K F) as T.
  pose proof (add_subpath_ok eval ctrl monic quad_ctrl true must a sub Hev Hor) as O. cbn in O.
  destruct (add_subpath eval ctrl monic quad_ctrl must a sub) as [a1|a1 p q|]; [|discriminate|congruence].
  destruct O as [_ O]. apply IH.
  - eapply linked_even; eassumption.
  - eapply linked_orient; eassumption.
  - intros; apply H; now right.
Qed.

Lemma kurbo_segments_none sub : kurbo_segments sub = None -> exists r, sub = ClosePath :: r.
Proof. destruct sub as [|e sub]; [discriminate|]. destruct e; cbn; try discriminate. eauto. Qed.

Lemma subpaths_head p sub r : In sub (subpaths p) -> sub = ClosePath :: r -> exists r', p = ClosePath :: r'.
Proof.
  intros H ->. apply In_nth_error in H. destruct H as [i H]. destruct i as [|i].
  - unfold subpaths in H. destruct p as [|e p]; [discriminate|]. cbn [length subpaths_fuel] in H.
    destruct (take_subpath_head (e :: p)) as (e2 & sub2 & T2 & _). rewrite T2 in H. cbn [nth_error] in H. inversion H; subst.
    pose proof (take_subpath_app false (e :: p)) as A2. rewrite T2 in A2. cbn in A2. inversion A2; subst. eauto.
  - destruct (subpaths_fuel_heads (length p) p (le_n _) i _ H) as (q & rest & E). discriminate.
Qed.
End Panics.
