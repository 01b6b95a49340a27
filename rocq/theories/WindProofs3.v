(** Winding numbers: the balance at each position of a range. *)
From Coq Require Import List Bool ZArith Arith Lia Permutation Sorted.
From Verif Require Import F64 F64Arith TreeVecModel GeomModel SegmentsModel SegmentsSpec SegmentsProofs CurveOrderModel CurveOrderProofs SweepModel SweepSpec
  SweepProofs2 SweepProofs10 RangeModel RangeSpec RangeProofs3 RangeProofs4 RangeProofs5 TopoModel TopoSpec TopoProofs TopoProofs2 TopoProofs3 TopoProofs4 TopoProofs5 TopoProofs6 TopoProofs7 TopoProofs8 WindSpec WindProofs.
Import ListNotations.

Section Balance.
Context {W T : Type}.
Variable ops : wops W T.
Hypothesis OK : wops_ok ops.
Infix "+w" := (w_add ops) (at level 50, left associativity).
Notation w0 := (w_zero ops).
Variable tag : list T.
Variable a : arena.
Variable eps : f64.
Variables lower upper : segment -> f64 -> f64 -> f64.
Variable at_y : segment -> f64 -> f64.
Variable sort_by : forall A : Type, (A -> A -> comparison) -> list A -> list A.
Hypothesis SP : sweepable a.
Hypothesis TAG : length tag = arena_len a.
Hypothesis ORI : length (orientation a) = arena_len a.
Notation tline := (tline a eps lower upper at_y sort_by).
Notation st c := (fst (ci_segs c)).
Notation en c := (snd (ci_segs c)).
Variable s : sweeper.
Variable before : list lentry.
Hypothesis TL : tline s before.
Variable c : cinterval.
Hypothesis HC : In c (sw_changed s).
Variable evs : list oevent.
Hypothesis REP : range_report a s c evs.
Variable l : list view.
Hypothesis V : views_of evs l.
Hypothesis CC : closed_contours a tag.
Hypothesis CT : corners_together a s c.
Variable v : view.
Hypothesis Hv : In v l.
Notation x := (vw_x v).
Notation gain := (gain ops a tag).
Notation G e := (gain (ev_seg e) true).
Notation opt b w := (if (b : bool) then w else w0).

Lemma gain_flip i : gain i true +w gain i false = w0.
Proof.
  unfold TopoSpec.gain. destruct (nth_error tag i) as [g|]; [|apply wadd_0, OK]. destruct (nth_error (orientation a) i) as [[|]|]; cbn [Bool.eqb]; [apply OK| |apply wadd_0, OK].
  rewrite (wo_comm _ OK). apply OK.
Qed.
Definition rg (e : oevent) : W := gain (ev_seg e) (flt (ev_x0 e) (ev_x1 e)).

Lemma event_balance e : In e evs ->
  opt (fle (ev_lo e) x && flt x (ev_hi e)) (rg e) +w opt (feq (ev_x1 e) x) (G e) = opt (flt (ev_lo e) x && fle x (ev_hi e)) (rg e) +w opt (feq (ev_x0 e) x) (G e).
Proof.
  intros He. pose proof (ev_num _ _ V e He) as N. destruct N as [N0 N1]. pose proof (view_num _ _ V v Hv) as Nx. destruct (lo_kl e (conj N0 N1)) as [L1 L2]. destruct (hi_kh e (conj N0 N1)) as [H1 H2].
  unfold rg. fk. rewrite L2, H2. unfold kl, kh. set (k0 := key (ev_x0 e)). set (k1 := key (ev_x1 e)). set (k := key x). pose proof (gain_flip (ev_seg e)) as F.
  destruct (Z.ltb_spec k0 k1); destruct (Z.leb_spec (Z.min k0 k1) k); destruct (Z.ltb_spec k (Z.max k0 k1)); destruct (Z.ltb_spec (Z.min k0 k1) k); destruct (Z.leb_spec k (Z.max k0 k1)); try lia; cbn [andb];
    destruct (Z.eqb_spec k1 k); destruct (Z.eqb_spec k0 k); try lia; rewrite ?wadd_0, ?(wo_zero _ OK) by exact OK; try reflexivity.
  - rewrite (wo_comm _ OK). exact F.
  - symmetry. rewrite (wo_comm _ OK). exact F.
Qed.

(** *** Corners *)
Lemma ev_live e : In e evs -> registered a (ev_seg e) /\ nan (start_y a (ev_seg e)) = false /\ nan (end_y a (ev_seg e)) = false /\
  (key (start_y a (ev_seg e)) <= key (sw_y s) <= key (end_y a (ev_seg e)))%Z.
Proof.
  intros He. assert (RG : registered a (ev_seg e)) by (eapply seg_registered; eassumption). destruct (sp_finite _ SP _ (registered_lt _ SP _ RG)) as [[F1 F2] [F3 F4]]. apply fin_nonnan in F1, F2, F3, F4.
  split; [exact RG|]. split; [assumption|]. split; [assumption|]. pose proof (tl_y _ _ _ _ _ _ _ _ TL) as Ny. assert (X : In (ev_seg e) (map ev_seg evs)) by (apply in_map, He).
  apply (segs_in a s c evs REP) in X. destruct X as [X|X].
  - assert (Y : In (ev_seg e) (members (sw_line s))) by (unfold members in *; rewrite in_flat_map in *; destruct X as (f & Hf & X); exists f; split; [eapply in_piece_in, Hf|exact X]).
    apply (tl_all _ _ _ _ _ _ _ _ TL) in Y. destruct Y as (_ & _ & Y1 & Y2). unfold start_y, end_y in *. fk. zb. lia.
  - apply hor_in in X. apply (tl_hor _ _ _ _ _ _ _ _ TL) in X. destruct X as (_ & X1 & X2). destruct (sp_down _ SP _ (registered_lt _ SP _ RG)) as [D _]. unfold slanted, start_y, end_y in *. fk. zb. lia.
Qed.
(** Point [p] is at the present position (for a lone entry, at the height of the line). *)
Definition here (p : point) : Prop := key (py p) = key (sw_y s) /\ (lone c = false -> key (px p) = key x).
Lemma lone_at e : In e evs -> lone c = true -> key (ev_x0 e) = key x /\ key (ev_x1 e) = key x.
Proof.
  intros He L. pose proof (vo_at _ _ V) as A. rewrite Forall_forall in A. destruct (A v Hv) as (_ & f & Hf & K). unfold kl, kh in K.
  pose proof (rr_lone _ _ _ _ REP e f He Hf L) as E1. pose proof (rr_lone _ _ _ _ REP f f Hf Hf L) as E2. pose proof (rr_lone _ _ _ _ REP f e Hf He L) as E3. rewrite E1, <- E3, <- E2 in *. lia.
Qed.
Lemma start_here e : In e evs -> (negb (ev_above e) && feq (ev_x0 e) x = true <-> here (seg_start (seg_def a (ev_seg e)))).
Proof.
  intros He. destruct (ev_live e He) as (RG & N1 & N2 & L1 & L2). pose proof (ev_num _ _ V e He) as [N3 N4]. pose proof (view_num _ _ V v Hv) as Nx. pose proof (tl_y _ _ _ _ _ _ _ _ TL) as Ny.
  pose proof (rr_above _ _ _ _ REP e He) as A. rewrite flt_key in A by assumption. rewrite andb_true_iff, negb_true_iff, feq_key, Z.eqb_eq by assumption. unfold here. fold (start_y a (ev_seg e)). split.
  - intros [B K]. rewrite B in A. symmetry in A. apply Z.ltb_ge in A. split; [lia|]. intros L. rewrite <- K, (rr_start _ _ _ _ REP e He L B). reflexivity.
  - intros [K1 K2]. assert (B : ev_above e = false) by (rewrite A; apply Z.ltb_ge; lia). split; [exact B|]. destruct (lone c) eqn:L; [apply lone_at; assumption|]. rewrite (rr_start _ _ _ _ REP e He L B). apply K2. reflexivity.
Qed.
Lemma end_here e : In e evs -> (negb (ev_below e) && feq (ev_x1 e) x = true <-> here (seg_end (seg_def a (ev_seg e)))).
Proof.
  intros He. destruct (ev_live e He) as (RG & N1 & N2 & L1 & L2). pose proof (ev_num _ _ V e He) as [N3 N4]. pose proof (view_num _ _ V v Hv) as Nx. pose proof (tl_y _ _ _ _ _ _ _ _ TL) as Ny.
  pose proof (rr_below _ _ _ _ REP e He) as A. rewrite flt_key in A by assumption. rewrite andb_true_iff, negb_true_iff, feq_key, Z.eqb_eq by assumption. unfold here. fold (end_y a (ev_seg e)). split.
  - intros [B K]. rewrite B in A. symmetry in A. apply Z.ltb_ge in A. split; [lia|]. intros L. rewrite <- K, (rr_end _ _ _ _ REP e He L B). reflexivity.
  - intros [K1 K2]. assert (B : ev_below e = false) by (rewrite A; apply Z.ltb_ge; lia). split; [exact B|]. destruct (lone c) eqn:L; [apply lone_at; assumption|]. rewrite (rr_end _ _ _ _ REP e He L B). apply K2. reflexivity.
Qed.
Definition head_at (e : oevent) : bool := if orient a (ev_seg e) then negb (ev_below e) && feq (ev_x1 e) x else negb (ev_above e) && feq (ev_x0 e) x.
Definition tail_at (e : oevent) : bool := if orient a (ev_seg e) then negb (ev_above e) && feq (ev_x0 e) x else negb (ev_below e) && feq (ev_x1 e) x.
Lemma head_here e : In e evs -> (head_at e = true <-> here (seg_head a (ev_seg e))).
Proof. intros He. unfold head_at, seg_head. destruct (orient a (ev_seg e)); [apply end_here|apply start_here]; exact He. Qed.
Lemma tail_here e : In e evs -> (tail_at e = true <-> here (seg_tail a (ev_seg e))).
Proof. intros He. unfold tail_at, seg_tail. destruct (orient a (ev_seg e)); [apply start_here|apply end_here]; exact He. Qed.
Lemma here_eq p q : point_eq p q = true -> (here p <-> here q).
Proof.
  intros H. destruct (point_eq_nonnan _ _ H) as [[N1 N2] [N3 N4]]. unfold point_eq in H. apply andb_true_iff in H. destruct H as [H1 H2]. unfold here. fk. zb. rewrite H1, H2. reflexivity.
Qed.

Definition nxt (i : nat) : nat := match nth_error (contour_next a) i with Some (Some j) => j | _ => i end.
Definition unit_of (i : nat) : W := match nth_error tag i with Some g => w_single ops g true | None => w0 end.
Lemma follows_nxt i j : follows a i j -> nxt i = j.
Proof. intros [H _]. unfold nxt. rewrite H. reflexivity. Qed.
Lemma in_range i : In i (range_members s c) <-> exists e, In e evs /\ ev_seg e = i.
Proof.
  unfold range_members. rewrite <- (rr_segs _ _ _ _ REP), in_map_iff. split; intros (e & A & B); exists e; auto.
Qed.
Lemma here_y p : nan (py p) = false -> here p -> feq (py p) (sw_y s) = true.
Proof. intros N [H _]. rewrite feq_key by (try exact N; apply (tl_y _ _ _ _ _ _ _ _ TL)). apply Z.eqb_eq, H. Qed.
Lemma corner_perm : Permutation (map nxt (map ev_seg (filter head_at evs))) (map ev_seg (filter tail_at evs)).
Proof.
  assert (HD : forall i, In i (map ev_seg (filter head_at evs)) -> exists e j, In e evs /\ ev_seg e = i /\ registered a i /\ registered a j /\ follows a i j /\ nxt i = j /\ here (seg_head a i)).
  { intros i H. apply in_map_iff in H. destruct H as (e & <- & He). apply filter_In in He. destruct He as [He Q]. destruct (ev_live e He) as (RG & _). destruct (cc_next _ _ CC _ RG) as (j & Rj & F & _).
    exists e, j. split; [exact He|]. split; [reflexivity|]. split; [exact RG|]. split; [exact Rj|]. split; [exact F|]. split; [apply follows_nxt, F|]. apply head_here; assumption. }
  apply NoDup_Permutation.
  - assert (INJ : forall i i', In i (map ev_seg (filter head_at evs)) -> In i' (map ev_seg (filter head_at evs)) -> nxt i = nxt i' -> i = i').
    { intros i i' H H' E. destruct (HD i H) as (e & j & _ & _ & _ & _ & (_ & P & _) & Q & _). destruct (HD i' H') as (e' & j' & _ & _ & _ & _ & (_ & P' & _) & Q' & _). congruence. }
    pose proof (nodup_filter_map _ _ V head_at) as ND. induction (map ev_seg (filter head_at evs)) as [|i m IH]; cbn; [constructor|]. inversion ND as [|? ? N ND']; subst. constructor.
    + intros X. apply in_map_iff in X. destruct X as (i' & E & Hi'). apply N. rewrite (INJ i i'); [exact Hi'|left; reflexivity|right; exact Hi'|auto].
    + apply IH; [intros i' H; apply HD; right; exact H|intros i1 i2 H1 H2; apply INJ; right; assumption|exact ND'].
  - apply (nodup_filter_map _ _ V).
  - intros j. rewrite in_map_iff. split.
    + intros (i & E & H). destruct (HD i H) as (e & j' & He & Ei & R1 & R2 & F & Q & HR). rewrite Q in E. subst j'. pose proof F as (_ & _ & PE).
      assert (X : In j (range_members s c)). { apply (CT i j R1 R2 F); [|apply in_range; eauto]. apply here_y; [|exact HR]. apply point_eq_nonnan in PE. apply PE. }
      apply in_range in X. destruct X as (f & Hf & <-). apply in_map. apply filter_In. split; [exact Hf|]. apply tail_here; [exact Hf|]. apply (here_eq _ _ PE), HR.
    + intros H. apply in_map_iff in H. destruct H as (f & <- & Hf). apply filter_In in Hf. destruct Hf as [Hf Q]. apply tail_here in Q; [|exact Hf]. destruct (ev_live f Hf) as (RG & _).
      destruct (cc_prev _ _ CC _ RG) as (i & Ri & F & _). exists i. split; [apply follows_nxt, F|]. pose proof F as (_ & _ & PE). pose proof (proj2 (here_eq _ _ PE) Q) as HR.
      assert (X : In i (range_members s c)). { apply (CT i _ Ri RG F); [|apply in_range; eauto]. apply here_y; [|exact HR]. apply point_eq_nonnan in PE. apply PE. }
      apply in_range in X. destruct X as (e & He & <-). apply in_map. apply filter_In. split; [exact He|]. apply head_here; assumption.
Qed.
Lemma corner_units : sumf ops (fun e => opt (head_at e) (unit_of (ev_seg e))) evs = sumf ops (fun e => opt (tail_at e) (unit_of (ev_seg e))) evs.
Proof.
  rewrite <- !(sumf_filter ops OK). unfold sumf. rewrite <- !(map_map ev_seg unit_of). rewrite <- (wsum_perm ops OK _ _ (Permutation_map unit_of corner_perm)). rewrite (map_map nxt unit_of). f_equal.
  apply map_ext_in. intros i H. apply in_map_iff in H. destruct H as (e & <- & He). apply filter_In in He. destruct He as [He _]. destruct (ev_live e He) as (RG & _). destruct (cc_next _ _ CC _ RG) as (j & Rj & F & E).
  rewrite (follows_nxt _ _ F). unfold unit_of. rewrite E. reflexivity.
Qed.
Lemma G_unit e : In e evs -> orient a (ev_seg e) = true -> G e = unit_of (ev_seg e).
Proof.
  intros He O. destruct (ev_live e He) as (RG & _). apply (registered_lt _ SP) in RG. unfold orient in O. unfold TopoSpec.gain, unit_of. destruct (nth_error tag (ev_seg e)); [|reflexivity].
  destruct (nth_error (orientation a) (ev_seg e)) eqn:E; [subst; reflexivity|apply nth_error_None in E; lia].
Qed.
Lemma G_unit_neg e : In e evs -> orient a (ev_seg e) = false -> G e +w unit_of (ev_seg e) = w0.
Proof.
  intros He O. unfold orient in O. unfold TopoSpec.gain, unit_of. destruct (nth_error tag (ev_seg e)); [|apply wadd_0, OK].
  destruct (nth_error (orientation a) (ev_seg e)) as [b|] eqn:E; [|discriminate]. subst. cbn. rewrite (wo_comm _ OK). apply OK.
Qed.
Lemma corners : sumf ops (fun e => opt (negb (ev_above e) && feq (ev_x0 e) x) (G e)) evs = sumf ops (fun e => opt (negb (ev_below e) && feq (ev_x1 e) x) (G e)) evs.
Proof.
  apply (wadd_cancel_r ops OK (sumf ops (fun e => opt (head_at e) (unit_of (ev_seg e))) evs)). rewrite corner_units at 2. rewrite <- !(sumf_add ops OK). apply sumf_ext. intros e He.
  unfold head_at, tail_at. destruct (orient a (ev_seg e)) eqn:O.
  - rewrite (G_unit e He O). apply (wo_comm _ OK).
  - pose proof (G_unit_neg e He O) as X. destruct (negb (ev_above e) && feq (ev_x0 e) x), (negb (ev_below e) && feq (ev_x1 e) x); rewrite ?X, ?(wo_zero _ OK); congruence.
Qed.

Definition igains (v : view) : list W := map (fun q => gain (fst q) (snd q)) (vw_in v).
Definition ugains (v : view) : list W := map (fun i => gain i true) (vw_up v).
Lemma split_cond (b q : bool) w : opt q w = opt (b && q) w +w opt (negb b && q) w.
Proof. destruct b, q; cbn; rewrite ?(wo_zero _ OK), ?wadd_0 by exact OK; reflexivity. Qed.
Lemma view_balance : wsum ops (igains v) +w wsum ops (ugains v) = wsum ops (dgains ops a tag v) +w wsum ops (ogains ops a tag v).
Proof.
  pose proof (view_sees _ _ V v Hv) as [SI SO (mu & PU & EU & _) (md & PD & ED & _)].
  assert (E1 : wsum ops (igains v) = sumf ops (fun e => opt (flt (ev_lo e) x && fle x (ev_hi e)) (rg e)) evs).
  { unfold igains. rewrite (wsum_perm ops OK _ _ (Permutation_map _ SI)), map_map. apply (sumf_filter ops OK). }
  assert (E2 : wsum ops (ogains ops a tag v) = sumf ops (fun e => opt (fle (ev_lo e) x && flt x (ev_hi e)) (rg e)) evs).
  { unfold ogains. rewrite (wsum_perm ops OK _ _ (Permutation_map _ SO)), map_map. apply (sumf_filter ops OK). }
  assert (E3 : wsum ops (ugains v) = sumf ops (fun e => opt (ev_above e && feq (ev_x0 e) x) (G e)) evs).
  { unfold ugains. rewrite EU, map_map. rewrite (wsum_perm ops OK _ _ (Permutation_map _ PU)). apply (sumf_filter ops OK). }
  assert (E4 : wsum ops (dgains ops a tag v) = sumf ops (fun e => opt (ev_below e && feq (ev_x1 e) x) (G e)) evs).
  { unfold dgains. rewrite ED, map_map. rewrite (wsum_perm ops OK _ _ (Permutation_map _ PD)). apply (sumf_filter ops OK). }
  rewrite E1, E2, E3, E4. apply (wadd_cancel_r ops OK (sumf ops (fun e => opt (negb (ev_above e) && feq (ev_x0 e) x) (G e)) evs)).
  rewrite corners at 2. rewrite <- !(sumf_add ops OK). apply sumf_ext. intros e He. pose proof (event_balance e He) as B.
  rewrite (split_cond (ev_below e) (feq (ev_x1 e) x)), (split_cond (ev_above e) (feq (ev_x0 e) x)) in B. rewrite <- (wo_assoc _ OK), <- B, (wo_assoc _ OK). f_equal. apply (wo_comm _ OK).
Qed.
End Balance.
