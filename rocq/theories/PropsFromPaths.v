(** Property theorems about collecting the paths given to [Topology::from_paths]: C55. *)
From Coq Require Import List Bool ZArith Lia Permutation Sorted Arith.
From Verif Require Import F64 F64Arith TreeVecModel GeomModel SegmentsModel SegmentsSpec SegmentsProofs
  SegmentsProofs2 SegmentsProofs3 SegmentsProofs4 SegmentsProofs5 PropsSegments CurveOrderModel CurveOrderSpec CurveOrderProofs
  SweepModel SweepSpec SweepReach TopoModel TopoSpec WindSpec FromPathsModel FromPathsProofs.
Import ListNotations.

Section Props.
Variable eval : cubic -> f64 -> point.
Variable ctrl : cubic -> f64 -> f64 -> point * point.
Variable monic : f64 -> f64 -> f64 * f64.
Variable quad_ctrl : point -> point -> point -> point * point.
Variable at_y : segment -> f64 -> f64.
Variable sort_by : ((f64 * nat) -> (f64 * nat) -> comparison) -> list (f64 * nat) -> list (f64 * nat).
Context {T : Type}.

(** The edges of the input in order, each with the tag of its path. *)
Definition tagged_edges (ps : list (list pathel * T)) : list (edge * T) :=
  flat_map (fun pt => map (fun e => (e, snd pt)) (flat_map (subpath_edges eval monic quad_ctrl) (subpaths (fst pt)))) ps.
(** All subpaths return to their starts. *)
Definition path_closed (p : list pathel) : Prop := forall sub, In sub (subpaths p) -> closes (subpath_edges eval monic quad_ctrl sub) = true.

Lemma tagged_fst ps : map fst (tagged_edges ps) = all_edges (paths_contours eval monic quad_ctrl ps).
Proof.
  rewrite contours_edges. unfold tagged_edges. induction ps as [|pt ps IH]; [reflexivity|]. cbn [flat_map]. rewrite map_app, map_map, IH. cbn. rewrite map_id. reflexivity.
Qed.
Lemma tagged_snd ps : map snd (tagged_edges ps) = paths_tags eval monic quad_ctrl ps.
Proof.
  unfold tagged_edges, paths_tags. induction ps as [|pt ps IH]; [reflexivity|]. cbn [flat_map]. rewrite map_app, map_map, IH. f_equal. cbn.
  unfold path_edges. generalize (flat_map (subpath_edges eval monic quad_ctrl) (subpaths (fst pt))). intros l. induction l; cbn; congruence.
Qed.

(** Collecting paths succeeds exactly if all are closed.  Then the arena holds, in order, the edges of the paths, each with the tag of
    its path; it consists of closed contours of one tag each; all segments are registered for the sweep; and it can be swept.
    Otherwise the ends of the first subpath that does not close are reported.  The assertions of [check_invariants] never fail. *)
Theorem from_paths_collects : sort_spec sort_by -> forall ps : list (list pathel * T),
  (forall p t, In (p, t) ps -> path_exact eval monic quad_ctrl p) ->
  match collect eval ctrl monic quad_ctrl at_y sort_by ps with
  | Collected a tag =>
      (forall p t, In (p, t) ps -> path_closed p) /\
      arena_len a = length (tagged_edges ps) /\ length tag = arena_len a /\ length (orientation a) = arena_len a /\
      (forall i, oriented_start a i = option_map (fun et => e_from (fst et)) (nth_error (tagged_edges ps) i) /\
                 oriented_end a i = option_map (fun et => e_to (fst et)) (nth_error (tagged_edges ps) i) /\
                 nth_error tag i = option_map snd (nth_error (tagged_edges ps) i)) /\
      (forall i, SweepSpec.registered a i <-> i < arena_len a) /\ closed_contours a tag /\
      ((forall s, In s (segs a) -> at_y_ok at_y s) -> sweepable a)
  | NotClosed sp ep =>
      exists l1 p t l2 s1 sub s2 e, ps = l1 ++ (p, t) :: l2 /\ (forall q u, In (q, u) l1 -> path_closed q) /\
        subpaths p = s1 ++ sub :: s2 /\ (forall s, In s s1 -> closes (subpath_edges eval monic quad_ctrl s) = true) /\
        closes (subpath_edges eval monic quad_ctrl sub) = false /\ nth_error (subpath_edges eval monic quad_ctrl sub) 0 = Some e /\
        sp = e_from e /\ ep = e_to (last (subpath_edges eval monic quad_ctrl sub) e)
  | CollectPanic => ~ (forall p t sub, In (p, t) ps -> In sub (subpaths p) -> exists ss, kurbo_segments sub = Some ss /\ Forall (pathseg_fin eval ctrl monic quad_ctrl) ss)
  | CheckFailed => False
  end.
Proof.
  intros HS ps X. assert (X' : forall pt, In pt ps -> path_exact eval monic quad_ctrl (fst pt)) by (intros [p t]; apply X).
  pose proof stores_default as S0. pose proof S0 as B0. apply stores_split in B0. destruct B0 as [B0 _].
  pose proof (add_paths_ok eval ctrl monic quad_ctrl ps [] arena_default [] B0 eq_refl ltac:(intros s [])) as K.
  pose proof (add_paths_total eval ctrl monic quad_ctrl ps [] arena_default ([] : list T) B0) as KT.
  unfold collect. destruct (add_paths eval ctrl monic quad_ctrl arena_default [] ps) as [a1 tag|sp ep| |] eqn:E.
  - destruct K as (G & L & -> & F). cbn [app].
    destruct (stores_add at_y sort_by HS [] (paths_contours eval monic quad_ctrl ps) arena_default a1 S0 L (contours_reg eval monic quad_ctrl ps)) as (a & U & ST).
    cbn [app] in ST. change (arena_len arena_default) with 0 in U. rewrite U.
    assert (F2 : fin_segs a).
    { unfold update_enter_exit in U. destruct (register _ _ _ _); [|discriminate]. cbn [option_bind] in U. injection U as <-. exact F. }
    assert (ND : no_dangling (paths_contours eval monic quad_ctrl ps)) by (intros c Hc KD; rewrite (contours_closed _ _ _ ps c G Hc) in KD; discriminate).
    assert (CH : forall c, In c (paths_contours eval monic quad_ctrl ps) -> contour_chain c) by (intros c; apply contours_chain, X').
    rewrite (stored_checked _ a ST ND CH F2).
    assert (LA : arena_len a = length (tagged_edges ps)) by (rewrite (sd_len _ a ST), <- tagged_fst, map_length; reflexivity).
    split; [intros p t Hp; apply (G _ Hp)|]. split; [exact LA|]. split; [rewrite tags_length; symmetry; apply (sd_len _ a ST)|]. split; [apply (st_orient _ _ ST)|].
    split; [|split; [apply (sd_reg _ a ST), contours_reg|split]].
    + intros i. rewrite oriented_end_read, oriented_start_read, <- !nth_error_map', (st_from _ _ ST), (st_to _ _ ST), <- tagged_fst, <- tagged_snd, !nth_error_map'.
      destruct (nth_error (tagged_edges ps) i); cbn; auto.
    + eapply stored_closed; try eassumption; [apply contours_reg|intros c Hc; right; eapply contours_closed; eassumption|apply tags_contour].
    + intros AT. eapply stored_sweepable; try eassumption; [apply contours_reg|].
      eapply update_sorted; [exact HS|exact ST|apply contours_nonnan, X'|apply Forall_forall, AT|exact U].
  - destruct K as (l1 & p & t & l2 & s1 & sub & s2 & e & K1 & K2 & K3). exists l1, p, t, l2, s1, sub, s2, e. split; [exact K1|]. split; [|exact K3].
    intros q u Hq. apply (K2 _ Hq).
  - intros H. apply KT; [exact H|reflexivity].
  - exact K.
Qed.
End Props.

(** ** Non-vacuity: a triangle tagged [true] and a square tagged [false] *)
Definition fp_tri : list pathel := [MoveTo (PropsSegments.pt 0 0); LineTo (PropsSegments.pt 4 4); LineTo (PropsSegments.pt 0 4); ClosePath].
Definition fp_sq : list pathel := [MoveTo (PropsSegments.pt 10 0); LineTo (PropsSegments.pt 20 0); LineTo (PropsSegments.pt 20 10); LineTo (PropsSegments.pt 10 10); LineTo (PropsSegments.pt 10 0)].
Definition fp_open : list pathel := [MoveTo (PropsSegments.pt 10 0); LineTo (PropsSegments.pt 20 0); LineTo (PropsSegments.pt 20 10)].
Definition fp_collect := @collect ex_eval ex_ctrl ex_monic ex_quad ex_at_y isort.
Lemma fp_exact : forall p t, In (p, t) [(fp_tri, true); (fp_sq, false)] -> path_exact ex_eval ex_monic ex_quad p.
Proof.
  intros p t [[= <- _]|[[= <- _]|[]]] sub ss Hs K; cbn in Hs; destruct Hs as [<-|[]]; cbn in K; injection K as <-;
    repeat (apply Forall_cons || apply Forall_nil); cbn [ends_exact]; split; split; vm_compute; reflexivity.
Qed.
Example fp_ok : match fp_collect bool [(fp_tri, true); (fp_sq, false)] with
  | Collected a tag => (arena_len a =? 7) && match tag with [true; true; true; false; false; false; false] => true | _ => false end &&
      match contour_next a with [Some 1; Some 2; Some 0; Some 4; Some 5; Some 6; Some 3] => true | _ => false end
  | _ => false end = true.
Proof. vm_compute. reflexivity. Qed.
Example fp_err : match fp_collect unit [(fp_tri, tt); (fp_open, tt)] with
  | NotClosed p q => point_eq p (PropsSegments.pt 10 0) && point_eq q (PropsSegments.pt 20 10) | _ => false end = true.
Proof. vm_compute. reflexivity. Qed.
Print Assumptions from_paths_collects.
