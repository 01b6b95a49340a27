(** Contours stay connected: the invariant of the run. *)
From Coq Require Import List Bool ZArith Arith Lia Permutation Sorted.
From Verif Require Import F64 F64Arith TreeVecModel GeomModel SegmentsModel SegmentsSpec SegmentsProofs CurveOrderModel CurveOrderProofs SweepModel SweepSpec
  SweepProofs2 SweepProofs8 SweepProofs10 RangeModel RangeSpec RangeProofs3 RangeProofs4 RangeProofs5 PropsSweep PropsRange TopoModel TopoSpec TopoProofs TopoProofs2 TopoProofs3 TopoProofs4 TopoProofs5 TopoProofs6 TopoProofs7
  TopoProofs8 TopoProofs9 WindSpec WindProofs3 WindProofs5 CallbackProofs2 ChainSpec ChainProofs.
Import ListNotations.

Section Chain.
Context {W T : Type}.
Variable ops : wops W T.
Variable a : arena.
Variable tag : list T.
Variable eps : f64.
Variables lower upper : segment -> f64 -> f64 -> f64.
Variable at_y : segment -> f64 -> f64.
Variable sort_by : forall A : Type, (A -> A -> comparison) -> list A -> list A.
Hypothesis SP : sweepable a.
Hypothesis TAG : length tag = arena_len a.
Hypothesis ORI : length (orientation a) = arena_len a.
Notation st c := (fst (ci_segs c)).
Notation en c := (snd (ci_segs c)).
Notation none := (fun _ : nat => @None nat).
Implicit Types t : topo W.
Notation rstep := (rstep ops a tag eps lower upper at_y sort_by).
Notation tline := (tline a eps lower upper at_y sort_by).
Notation labels := (list (sweeper * cinterval)).

(** Point [p] was made at the height of [x] by a range containing segment [i]; and at [x] unless the range is a lone entry. *)
Definition corner_at t (L : labels) (i : nat) (x : point) (p : nat) : Prop := exists s0 c0 z, nth_error L p = Some (s0, c0) /\ nth_error (t_points t) p = Some z /\ point_nonnan z /\
  key (py z) = key (sw_y s0) /\ key (py x) = key (sw_y s0) /\ In i (range_members s0 c0) /\ (lone c0 = false -> key (px z) = key (px x)).
Notation seg_s i := (seg_start (seg_def a i)).
Notation seg_e i := (seg_end (seg_def a i)).
Definition fresh (D : list sweeper) (s : sweeper) (k i : nat) : Prop :=
  (forall s0 c0, In s0 D -> In c0 (sw_changed s0) -> ~ In i (range_members s0 c0)) /\
  (forall k' c', k' < k -> nth_error (sw_changed s) k' = Some c' -> ~ In i (range_members s c')).
Definition begun (s : sweeper) (k i : nat) : Prop :=
  (key (start_y a i) <= key (sw_y s))%Z /\
  ((key (start_y a i) < key (sw_y s))%Z \/ exists k' c', k' < k /\ nth_error (sw_changed s) k' = Some c' /\ In i (range_members s c')).
(** Each half runs as its output segment says. *)
Definition dirs t (i : nat) (hs : list half) : Prop := forall h, In h hs -> nth_error (t_pos t) (h_idx h) = Some (Bool.eqb (h_first h) (orient a i)).
Definition pieces t (hs : list half) (i : nat) : Prop := (NoDup (map h_idx hs) /\ forall x, In x (map h_idx hs) <-> nth_error (t_orig t) x = Some i) /\ dirs t i hs.
Definition cstate t (R : list (list half)) (O : nat -> option nat) (L : labels) D s k (i : nat) : Prop :=
  (fresh D s k i /\ O i = None /\ pieces t [] i) \/
  (begun s k i /\ exists p hs q o, corner_at t L i (seg_s i) p /\ O i = Some o /\ trail R p hs q /\ vx R (first_half o) q /\ pieces t (hs ++ [first_half o]) i) \/
  (begun s k i /\ exists p hs q, corner_at t L i (seg_s i) p /\ corner_at t L i (seg_e i) q /\ O i = None /\ trail R p hs q /\ pieces t hs i).
Record chains (D : list sweeper) (s : sweeper) (k : nat) t R O (L : labels) : Prop := {
  ch_len : length L = length R;
  ch_in : forall p s0 c0, nth_error L p = Some (s0, c0) -> (In s0 D /\ In c0 (sw_changed s0) /\ (key (sw_y s0) < key (sw_y s))%Z) \/ (s0 = s /\ exists k', k' < k /\ nth_error (sw_changed s) k' = Some c0);
  ch_inj : forall p q s0 c0 x y, nth_error L p = Some (s0, c0) -> nth_error L q = Some (s0, c0) -> nth_error (t_points t) p = Some x -> nth_error (t_points t) q = Some y ->
     lone c0 = true \/ key (px x) = key (px y) -> p = q;
  ch_all : forall i, registered a i -> cstate t R O L D s k i }.

Lemma corner_grow t t' L M i x p m : t_points t' = t_points t ++ m -> corner_at t L i x p -> corner_at t' (L ++ M) i x p.
Proof.
  intros E (s0 & c0 & z & H1 & H2 & H). exists s0, c0, z. split; [rewrite nth_error_app1; [exact H1|apply nth_error_Some; congruence]|]. split; [|exact H].
  rewrite E, nth_error_app1; [exact H2|apply nth_error_Some; congruence].
Qed.
Lemma begun_mono s k k' i : k <= k' -> begun s k i -> begun s k' i.
Proof. intros L [H1 [H|(j & c & Lj & H)]]; (split; [exact H1|]); [left; exact H|]. right. exists j, c. split; [lia|exact H]. Qed.
Lemma trail_both R p hs q h : trail R p hs q -> In h hs -> (exists r, vx R h r) /\ exists r, vx R (other_half h) r.
Proof. induction 1 as [|p h' r hs q H1 H2 TR IH]; intros H; [destruct H|]. destruct H as [<-|H]; [eauto|apply IH, H]. Qed.
Lemma trail_second R p hs q o : trail R p hs q -> In o (map h_idx hs) -> exists r, vx R (second_half o) r.
Proof.
  intros TR H. apply in_map_iff in H. destruct H as (h & <- & H). destruct (trail_both _ _ _ _ _ TR H) as [H1 H2]. destruct h as [o b]. destruct b; [exact H2|exact H1].
Qed.
Lemma reopen_new O evs l N i d : In i (map ev_seg evs) -> reopen O evs l (vrecs N O [] l) i = Some d -> N <= d.
Proof.
  intros M HO. unfold reopen in HO. apply memn_spec in M. rewrite M in HO. apply assoc_in, in_combine_r in HO. unfold odowns in HO. apply in_concat in HO. destruct HO as (u & Hu & Ho). apply in_map_iff in Hu. destruct Hu as (rec & <- & Hr).
  apply In_nth_error in Hr. destruct Hr as [k Hr]. destruct (vrecs_at _ _ _ _ _ _ Hr) as (l0 & v & l1 & _ & _ & ->). cbn in Ho. apply in_seq in Ho. lia.
Qed.

Section Step.
Variables (D : list sweeper) (s : sweeper) (before : list lentry) (k : nat) (c : cinterval) (evs : list oevent) (l : list view) (t : topo W) (R : list (list half)) (O : nat -> option nat)
  (t' : topo W) (R' : list (list half)) (O' : nat -> option nat) (L : labels).
Hypothesis IV : intervals_ok a eps lower upper s.
Hypothesis RS : rstep s before c evs l t R O t' R' O'.
Hypothesis HK : nth_error (sw_changed s) k = Some c.
Hypothesis CH : chains D s k t R O L.
Let TL := rs_line _ _ _ _ _ _ _ _ _ _ _ _ _ _ _ _ _ _ _ RS.
Let REP := rs_rep _ _ _ _ _ _ _ _ _ _ _ _ _ _ _ _ _ _ _ RS.
Let V := rs_views _ _ _ _ _ _ _ _ _ _ _ _ _ _ _ _ _ _ _ RS.
Let HC : In c (sw_changed s) := nth_error_In _ _ HK.
Notation N := (length (t_wind t)).
Notation P := (length R).
Notation L' := (L ++ repeat (s, c) (length l)).
Notation kx v := (key (vw_x v)).

Lemma st_points : t_points t' = t_points t ++ map (fun v => mkPoint (sw_y s) (vw_x v)) l. Proof. apply (rs_points _ _ _ _ _ _ _ _ _ _ _ _ _ _ _ _ _ _ _ RS). Qed.
Lemma st_orig : t_orig t' = t_orig t ++ vorig l. Proof. apply (rs_points _ _ _ _ _ _ _ _ _ _ _ _ _ _ _ _ _ _ _ RS). Qed.
Lemma st_R : R' = R ++ map vring (vrecs N O [] l). Proof. apply (rs_R _ _ _ _ _ _ _ _ _ _ _ _ _ _ _ _ _ _ _ RS). Qed.
Lemma st_len_orig : length (t_orig t) = N. Proof. apply (li_orig _ _ _ _ _ (proj1 (rs_ti _ _ _ _ _ _ _ _ _ _ _ _ _ _ _ _ _ _ _ RS))). Qed.
Lemma st_len_points : length (t_points t) = P. Proof. symmetry. apply (ri_points _ _ _ (proj2 (rs_ti _ _ _ _ _ _ _ _ _ _ _ _ _ _ _ _ _ _ _ RS))). Qed.
Lemma st_rings m v : nth_error l m = Some v -> nth_error R' (P + m) = Some (vring (vrec_at N O [] (firstn m l) v)).
Proof.
  intros H. rewrite st_R, nth_error_app2 by lia. replace (P + m - P) with m by lia. rewrite nth_error_map'. destruct (split_at _ _ _ H) as (l0 & l1 & -> & L0).
  assert (F : firstn m (l0 ++ v :: l1) = l0) by (rewrite <- L0, firstn_app, Nat.sub_diag, firstn_all; apply app_nil_r). rewrite F, <- L0, vrecs_at'. reflexivity.
Qed.
Lemma st_point m v : nth_error l m = Some v -> nth_error (t_points t') (P + m) = Some (mkPoint (sw_y s) (vw_x v)).
Proof. intros H. rewrite st_points, nth_error_app2 by (rewrite st_len_points; lia). rewrite st_len_points. replace (P + m - P) with m by lia. rewrite nth_error_map', H. reflexivity. Qed.
Lemma nth_repeat {A} (x : A) n m : m < n -> nth_error (repeat x n) m = Some x.
Proof. revert m. induction n as [|n IH]; intros [|m] H; try lia; [reflexivity|]. apply IH. lia. Qed.
Lemma st_label m v : nth_error l m = Some v -> nth_error L' (P + m) = Some (s, c).
Proof. intros H. assert (m < length l) by (apply nth_error_Some; congruence). rewrite nth_error_app2 by (rewrite (ch_len _ _ _ _ _ _ _ CH); lia). rewrite (ch_len _ _ _ _ _ _ _ CH). apply nth_repeat. lia. Qed.
Lemma label_cases p s0 c0 : nth_error L' p = Some (s0, c0) -> (p < P /\ nth_error L p = Some (s0, c0)) \/ (s0 = s /\ c0 = c /\ exists m v, p = P + m /\ nth_error l m = Some v).
Proof.
  intros H. apply app_nth_cases in H. rewrite (ch_len _ _ _ _ _ _ _ CH) in H. destruct H as [H|[Lp H]]; [left; exact H|]. right. assert (X : p - P < length l) by (rewrite <- (repeat_length (s, c) (length l)); apply nth_error_Some; congruence).
  rewrite nth_repeat in H by exact X. injection H as <- <-. split; [reflexivity|]. split; [reflexivity|]. destruct (nth_error l (p - P)) as [v|] eqn:E; [|apply nth_error_None in E; lia]. exists (p - P), v. split; [lia|exact E].
Qed.
(** No earlier point has the label of this range. *)
Lemma label_new p : nth_error L p <> Some (s, c).
Proof.
  intros H. apply (ch_in _ _ _ _ _ _ _ CH) in H. destruct H as [(_ & _ & K)|(_ & k' & Lk & H)]; [lia|]. pose proof (changed_nodup a eps lower upper s IV _ (Nat.lt_succ_diag_r _)) as ND.
  assert (k' = k); [|lia]. eapply (proj1 (NoDup_nth_error _) ND); [apply nth_error_Some; congruence|congruence].
Qed.
Lemma members_evs i : In i (range_members s c) <-> In i (map ev_seg evs).
Proof. symmetry. eapply (in_members_range); [exact HC|exact REP]. Qed.

Lemma new_seg_event m v j i : nth_error l m = Some v -> nth_error (vw_down v ++ map fst (vw_out v)) j = Some i -> In i (map ev_seg evs).
Proof.
  intros H X. apply nth_error_In in X, H. apply in_app_iff in X. destruct X as [X|X].
  - apply (down_in _ _ V v i H) in X. destruct X as (e & He & _ & _ & <-). apply in_map, He.
  - destruct (out_seg _ _ V v i H X) as (e & He & <-). apply in_map, He.
Qed.
Lemma orig_iff x i : nth_error (t_orig t') x = Some i <-> nth_error (t_orig t) x = Some i \/ exists m v j, nth_error l m = Some v /\ nth_error (vw_down v ++ map fst (vw_out v)) j = Some i /\ x = off l N m + j.
Proof.
  rewrite st_orig. split.
  - intros H. apply app_nth_cases in H. destruct H as [[_ H]|[Lx H]]; [left; exact H|]. right. apply vorig_nth in H. destruct H as (m & v & j & H1 & H2 & H3). exists m, v, j. unfold off. rewrite st_len_orig in *. split; [exact H1|]. split; [exact H2|lia].
  - intros [H|(m & v & j & H1 & H2 & ->)]; [rewrite nth_error_app1; [exact H|apply nth_error_Some; congruence]|]. unfold off. rewrite nth_error_app2 by (rewrite st_len_orig; lia). rewrite st_len_orig. apply vorig_nth. exists m, v, j. split; [exact H1|]. split; [exact H2|lia].
Qed.
Lemma old_lt x i : nth_error (t_orig t) x = Some i -> x < N.
Proof. intros H. rewrite <- st_len_orig. apply nth_error_Some. congruence. Qed.

Lemma dirs_grow i hs : dirs t i hs -> dirs t' i hs.
Proof.
  intros H h Hh. specialize (H h Hh). assert (X : t_pos t' = t_pos t ++ vpos a l) by (apply (rs_points _ _ _ _ _ _ _ _ _ _ _ _ _ _ _ _ _ _ _ RS)). rewrite X, nth_error_app1; [exact H|apply nth_error_Some; congruence].
Qed.
Lemma pos_at m v j : nth_error l m = Some v -> j < length (vw_down v) + length (vw_out v) ->
  nth_error (t_pos t') (off l N m + j) = nth_error (map (orient a) (vw_down v) ++ map (fun q => Bool.eqb (snd q) (orient a (fst q))) (vw_out v)) j.
Proof.
  intros Hm Lj. assert (X : t_pos t' = t_pos t ++ vpos a l) by (apply (rs_points _ _ _ _ _ _ _ _ _ _ _ _ _ _ _ _ _ _ _ RS)). assert (LP : length (t_pos t) = N) by (apply (li_pos _ _ _ _ _ (proj1 (rs_ti _ _ _ _ _ _ _ _ _ _ _ _ _ _ _ _ _ _ _ RS)))).
  rewrite X, nth_error_app2 by (rewrite LP; unfold off; lia). rewrite LP. replace (off l N m + j - N) with (length (vorig (firstn m l)) + j) by (unfold off; lia). apply vpos_nth; assumption.
Qed.
Lemma other_segment i : ~ In i (map ev_seg evs) -> cstate t R O L D s k i -> cstate t' R' O' L' D s (S k) i.
Proof.
  intros NI CS. assert (EO : O' i = O i). { rewrite (rs_O _ _ _ _ _ _ _ _ _ _ _ _ _ _ _ _ _ _ _ RS). unfold reopen. rewrite (proj2 (memn_false i (map ev_seg evs)) NI). reflexivity. }
  assert (PC : forall os, pieces t os i -> pieces t' os i).
  { intros os [[ND IN] DR]. split; [|apply dirs_grow, DR]. split; [exact ND|]. intros x. rewrite IN, orig_iff. split; [auto|]. intros [H|(m & v & j & H1 & H2 & _)]; [exact H|]. exfalso. apply NI. eapply new_seg_event; eassumption. }
  destruct CS as [([F1 F2] & H1 & H2)|[(B & p & hs & q & o & H1 & H2 & H3 & H4 & H5)|(B & p & hs & q & H1 & H2 & H3 & H4 & H5)]].
  - left. split; [|split; [congruence|apply PC, H2]]. split; [exact F1|]. intros k' c' Lk Hc. destruct (Nat.eq_dec k' k) as [->|D']; [|apply (F2 k'); [lia|exact Hc]].
    rewrite HK in Hc. injection Hc as <-. rewrite members_evs. exact NI.
  - right. left. split; [eapply begun_mono; [|exact B]; lia|]. exists p, hs, q, o. split; [eapply corner_grow; [apply st_points|exact H1]|]. split; [congruence|]. rewrite st_R. split; [apply trail_grow, H3|]. split; [apply vx_grow, H4|apply PC, H5].
  - right. right. split; [eapply begun_mono; [|exact B]; lia|]. exists p, hs, q. split; [eapply corner_grow; [apply st_points|exact H1]|]. split; [eapply corner_grow; [apply st_points|exact H2]|]. split; [congruence|]. rewrite st_R. split; [apply trail_grow, H4|apply PC, H5].
Qed.

Lemma ev_key e : In e evs -> registered a (ev_seg e) /\ (key (start_y a (ev_seg e)) <= key (sw_y s) <= key (end_y a (ev_seg e)))%Z /\ nan (start_y a (ev_seg e)) = false /\ nan (end_y a (ev_seg e)) = false.
Proof.
  intros He. destruct (ev_live tag a eps lower upper at_y sort_by SP TAG ORI s before TL c evs REP e He) as (A & B & C & E). auto.
Qed.
(** The way of the segment up to the position where it enters the range. *)
Lemma way_before e ka va : In e evs -> nth_error l ka = Some va -> kx va = key (ev_x0 e) -> cstate t R O L D s k (ev_seg e) ->
  exists p hs, corner_at t' L' (ev_seg e) (seg_s (ev_seg e)) p /\ trail R' p hs (P + ka) /\ pieces t hs (ev_seg e).
Proof.
  intros He Ha Ka CS. destruct (ev_key e He) as (RG & LV & N1 & N2). pose proof (tl_y _ _ _ _ _ _ _ _ TL) as Ny. pose proof (rr_above _ _ _ _ REP e He) as AB.
  pose proof (open_iff_above a tag eps lower upper at_y sort_by TAG ORI s before TL c HC evs REP O (rs_open _ _ _ _ _ _ _ _ _ _ _ _ _ _ _ _ _ _ _ RS) e He) as OA.
  destruct (ev_above e) eqn:A.
  - assert (X : O (ev_seg e) <> None) by (apply OA; reflexivity). destruct CS as [(_ & H & _)|[(B & p & hs & q & o & H1 & H2 & H3 & H4 & H5)|(_ & p & hs & q & _ & _ & H & _)]]; try contradiction.
    assert (U : In (ev_seg e) (vw_up va)) by (apply (up_in _ _ V va _ (nth_error_In _ _ Ha)); exists e; auto).
    exists p, (hs ++ [first_half o]). split; [eapply corner_grow; [apply st_points|exact H1]|]. split; [|exact H5].
    eapply trail_app; [rewrite st_R; apply trail_grow, H3|]. apply trail_one; [rewrite st_R; apply vx_grow, H4|]. exact (second_up l N P O R' st_rings ka va _ o Ha U H2).
  - assert (X : O (ev_seg e) = None) by (destruct (O (ev_seg e)) as [o|] eqn:E; [exfalso; assert (Some o <> None) by discriminate; apply OA in H; discriminate|reflexivity]).
    symmetry in AB. rewrite flt_key in AB by assumption. apply Z.ltb_ge in AB.
    destruct CS as [(F & _ & H5)|[(_ & p & hs & q & o & _ & H & _)|(B & _)]]; [|congruence|exfalso].
    + exists (P + ka), []. split; [|split; [constructor|exact H5]]. exists s, c, (mkPoint (sw_y s) (vw_x va)). split; [eapply st_label, Ha|]. split; [apply st_point, Ha|]. split; [split; [apply (view_num _ _ V va (nth_error_In _ _ Ha))|exact Ny]|]. cbn [py px]. split; [reflexivity|]. split; [unfold start_y in *; lia|].
      split; [apply members_evs, in_map, He|]. intros LO. rewrite Ka, (rr_start _ _ _ _ REP e He LO A). reflexivity.
    + destruct B as [_ [B|(k' & c' & Lk & Hc & B)]]; [lia|]. assert (c = c') by (eapply one_range; [exact SP|exact TL|exact IV|exact (Nat.lt_succ_diag_r _)|exact HC|eapply nth_error_In, Hc|apply members_evs, in_map, He|exact B]). subst c'.
      pose proof (changed_nodup a eps lower upper s IV _ (Nat.lt_succ_diag_r _)) as ND. assert (k' = k); [|lia]. eapply (proj1 (NoDup_nth_error _) ND); [apply nth_error_Some; congruence|congruence].
Qed.

Lemma own_segment e : In e evs -> cstate t R O L D s k (ev_seg e) -> cstate t' R' O' L' D s (S k) (ev_seg e).
Proof.
  intros He CS. destruct (range_way evs l V N P O R' st_rings e He) as (ka & va & kb & vb & hs & Ha & Ka & Hb & Kb & TR & ND & FL & IN).
  destruct (way_before e ka va He Ha Ka CS) as (p & pre & C1 & TP & [ND0 IN0] & DR0). destruct (ev_key e He) as (RG & LV & N1 & N2). pose proof (tl_y _ _ _ _ _ _ _ _ TL) as Ny.
  assert (IM : In (ev_seg e) (range_members s c)) by (apply members_evs, in_map, He).
  assert (BG : begun s (S k) (ev_seg e)). { split; [apply LV|]. right. exists k, c. split; [lia|auto]. }
  assert (TW : trail R' p (pre ++ hs) (P + kb)) by (eapply trail_app; eassumption).
  assert (NEW : forall x, In x (map h_idx hs) -> N <= x). { intros x H. apply IN in H. destruct H as (m & v & j & _ & _ & ->). unfold off. lia. }
  assert (NDW : NoDup (map h_idx (pre ++ hs))). { rewrite map_app. apply nodup_app. split; [exact ND0|]. split; [exact ND|]. intros x H1 H2. apply IN0 in H1. apply old_lt in H1. apply NEW in H2. lia. }
  assert (SPL : forall x, nth_error (t_orig t') x = Some (ev_seg e) <-> In x (map h_idx (pre ++ hs)) \/ exists m v j, nth_error l m = Some v /\ nth_error (vw_down v) j = Some (ev_seg e) /\ x = off l N m + j).
  { intros x. rewrite orig_iff, map_app, in_app_iff, IN0, IN. split.
    - intros [H|(m & v & j & H1 & H2 & ->)]; [auto|]. apply app_nth_cases in H2. destruct H2 as [[_ H2]|[Lj H2]]; [right; exists m, v, j; auto|]. left. right. exists m, v, (j - length (vw_down v)). split; [exact H1|]. split; [exact H2|lia].
    - intros [[H|(m & v & j & H1 & H2 & ->)]|(m & v & j & H1 & H2 & ->)]; [auto| |].
      + right. exists m, v, (length (vw_down v) + j). split; [exact H1|]. split; [|lia]. rewrite nth_error_app2 by lia. replace (length (vw_down v) + j - length (vw_down v)) with j by lia. exact H2.
      + right. exists m, v, j. split; [exact H1|]. split; [|reflexivity]. rewrite nth_error_app1; [exact H2|apply nth_error_Some; congruence]. }
  assert (DRW : dirs t' (ev_seg e) (pre ++ hs)).
  { intros h Hh. apply in_app_iff in Hh. destruct Hh as [Hh|Hh]; [apply (dirs_grow _ _ DR0 h Hh)|]. pose proof (in_map h_idx _ _ Hh) as X. apply IN in X. destruct X as (m & v & j & H1 & H2 & ->). rewrite nth_error_map in H2.
    destruct (nth_error (vw_out v) j) as [[i b]|] eqn:EJ; [|discriminate H2]. cbn in H2. injection H2 as ->. assert (Lj : j < length (vw_out v)) by (apply nth_error_Some; congruence).
    rewrite <- Nat.add_assoc, (pos_at m v) by (exact H1 || lia). rewrite nth_error_app2 by (rewrite map_length; lia). rewrite map_length. replace (length (vw_down v) + j - length (vw_down v)) with j by lia. rewrite nth_error_map, EJ. cbn [option_map fst snd].
    apply nth_error_In in EJ. apply (out_in _ _ V v _ (nth_error_In _ _ H1)) in EJ. destruct EJ as (f & Hf & _ & E). unfold rightward in E. injection E as E1 ->. rewrite (same_event _ _ V f e Hf He (eq_sym E1)), (FL h Hh). reflexivity. }
  pose proof (reopen_iff O evs l N (ev_seg e) V) as RO. rewrite <- (rs_O _ _ _ _ _ _ _ _ _ _ _ _ _ _ _ _ _ _ _ RS) in RO.
  destruct (ev_below e) eqn:B.
  - destruct (down_way evs l V N P O R' st_rings e He B) as (m & v & j & Hm & Km & Hj & VD & UN). assert (m = kb) by (eapply (view_same evs l V); [exact Hm|exact Hb|congruence]). subst m.
    assert (X : O' (ev_seg e) <> None) by (apply RO; left; eauto). destruct (O' (ev_seg e)) as [d|] eqn:EO; [|contradiction]. clear X RO.
    assert (DN : d = off l N kb + j).
    { assert (GE : N <= d). { rewrite (rs_O _ _ _ _ _ _ _ _ _ _ _ _ _ _ _ _ _ _ _ RS) in EO. eapply reopen_new; [|exact EO]. apply in_map, He. }
      destruct (rs_ti' _ _ _ _ _ _ _ _ _ _ _ _ _ _ _ _ _ _ _ RS) as [LI' RI']. destruct (li_own _ _ _ _ _ LI' (ev_seg e) d (or_intror (or_introl EO))) as [_ OD]. apply SPL in OD. destruct OD as [OD|(m' & v' & j' & H1 & H2 & ->)]; [exfalso|exact (UN m' v' j' H1 H2)].
      destruct (trail_second _ _ _ _ _ TW OD) as (r & rr & H1 & H2). assert (X : In (second_half d) (concat R')) by (eapply nth_concat; eassumption). apply (ri_all _ _ _ RI') in X. destruct X as [_ [X|X]]; [discriminate X|]. apply X. exists (ev_seg e). right. left. exact EO. }
    right. left. split; [exact BG|]. exists p, (pre ++ hs), (P + kb), d. split; [exact C1|]. split; [exact EO|]. split; [exact TW|]. split; [rewrite DN; exact VD|]. split; [rewrite map_app; cbn [map first_half h_idx]; split|].
    + apply nodup_app. split; [exact NDW|]. split; [repeat constructor; intros []|]. intros x H [<-|[]]. destruct (rs_ti' _ _ _ _ _ _ _ _ _ _ _ _ _ _ _ _ _ _ _ RS) as [LI' RI'].
      destruct (trail_second _ _ _ _ _ TW H) as (r & rr & H1 & H2). assert (X : In (second_half d) (concat R')) by (eapply nth_concat; eassumption). apply (ri_all _ _ _ RI') in X. destruct X as [_ [X|X]]; [discriminate X|]. apply X. exists (ev_seg e). right. left. exact EO.
    + intros x. rewrite SPL, in_app_iff. split; [intros [H|[<-|[]]]; [auto|]; right; exists kb, v, j; auto|]. intros [H|(m' & v' & j' & H1 & H2 & ->)]; [auto|]. right. left. rewrite DN. symmetry. exact (UN m' v' j' H1 H2).
    + intros h Hh. apply in_app_iff in Hh. destruct Hh as [Hh|[<-|[]]]; [exact (DRW h Hh)|]. assert (Lj : j < length (vw_down v)) by (apply nth_error_Some; congruence). cbn [first_half h_idx h_first]. rewrite DN, (pos_at kb v) by (exact Hm || lia).
      rewrite nth_error_app1 by (rewrite map_length; exact Lj). rewrite nth_error_map, Hj. cbn [option_map]. destruct (orient a (ev_seg e)); reflexivity.
  - right. right. split; [exact BG|]. exists p, (pre ++ hs), (P + kb). split; [exact C1|]. split.
    + pose proof (rr_below _ _ _ _ REP e He) as BE. rewrite B in BE. symmetry in BE. rewrite flt_key in BE by assumption. apply Z.ltb_ge in BE. exists s, c, (mkPoint (sw_y s) (vw_x vb)). split; [eapply st_label, Hb|]. split; [apply st_point, Hb|]. split; [split; [apply (view_num _ _ V vb (nth_error_In _ _ Hb))|exact Ny]|]. cbn [py px]. split; [reflexivity|].
      split; [unfold end_y in *; lia|]. split; [exact IM|]. intros LO. rewrite Kb, (rr_end _ _ _ _ REP e He LO B). reflexivity.
    + split; [|split; [exact TW|split; [split; [exact NDW|]|exact DRW]]].
      * destruct (O' (ev_seg e)) as [d|] eqn:EO; [exfalso|reflexivity]. assert (X : Some d <> None) by discriminate. apply RO in X. destruct X as [(f & Hf & E & X)|[X _]]; [rewrite (same_event _ _ V f e Hf He E) in X; congruence|apply X, in_map, He].
      * intros x. rewrite SPL. split; [auto|]. intros [H|(m & v & j & H1 & H2 & _)]; [exact H|]. exfalso. eapply (no_down evs l V e m v He B H1). eapply nth_error_In, H2.
Qed.

Lemma chains_range : chains D s (S k) t' R' O' L'.
Proof.
  pose proof CH as [CL CI CJ CA]. constructor.
  - rewrite st_R, !app_length, repeat_length, map_length, vrecs_length, CL. reflexivity.
  - intros p s0 c0 H. apply label_cases in H. destruct H as [[_ H]|(-> & -> & _)].
    + apply CI in H. destruct H as [H|(E & k' & Lk & H)]; [left; exact H|]. right. split; [exact E|]. exists k'. split; [lia|exact H].
    + right. split; [reflexivity|]. exists k. split; [lia|exact HK].
  - intros p q s0 c0 x y Hp Hq Hx Hy K. pose proof st_len_points as LP. apply label_cases in Hp, Hq. destruct Hp as [[Lp Hp]|(-> & -> & m & v & -> & Hm)]; destruct Hq as [[Lq Hq]|(E1 & E2 & m' & v' & -> & Hm')].
    + rewrite st_points, nth_error_app1 in Hx, Hy by lia. eapply CJ; eassumption.
    + exfalso. subst. eapply label_new, Hp.
    + exfalso. eapply label_new, Hq.
    + rewrite (st_point m v Hm) in Hx. rewrite (st_point m' v' Hm') in Hy. injection Hx as <-. injection Hy as <-. cbn [px] in K. f_equal. eapply (view_same evs l V); [exact Hm|exact Hm'|]. destruct K as [K|K]; [|exact K].
      assert (G : forall u, In u l -> exists e, In e evs /\ kx u = key (ev_x0 e)).
      { intros u Hu. pose proof (vo_at _ _ V) as A. rewrite Forall_forall in A. destruct (A u Hu) as (_ & e & He & Q). exists e. split; [exact He|]. pose proof (rr_lone _ _ _ _ REP e e He He K) as Q'. unfold kl, kh in Q. rewrite Q' in *. lia. }
      destruct (G v (nth_error_In _ _ Hm)) as (e & He & ->). destruct (G v' (nth_error_In _ _ Hm')) as (e' & He' & ->). rewrite (rr_lone _ _ _ _ REP e e' He He' K), (rr_lone _ _ _ _ REP e' e' He' He' K). reflexivity.
  - intros i RG. destruct (in_dec Nat.eq_dec i (map ev_seg evs)) as [X|X]; [|apply other_segment; [exact X|apply CA, RG]]. apply in_map_iff in X. destruct X as (e & <- & He). apply own_segment; [exact He|apply CA, RG].
Qed.
End Step.

Lemma chains_line D s s' t R O L : (key (sw_y s) < key (sw_y s'))%Z -> chains D s (length (sw_changed s)) t R O L -> chains (D ++ [s]) s' 0 t R O L.
Proof.
  clear SP TAG ORI ops tag eps lower upper at_y sort_by. intros K [CL CI CJ CA]. constructor; try assumption.
  - intros p s0 c0 H. apply CI in H. left. destruct H as [(H1 & H2 & H3)|(-> & k' & _ & H)].
    + split; [apply in_or_app; auto|]. split; [exact H2|lia].
    + split; [apply in_or_app; right; left; reflexivity|]. split; [eapply nth_error_In, H|exact K].
  - assert (BG : forall i, begun s (length (sw_changed s)) i -> begun s' 0 i) by (intros i [B _]; split; [lia|left; lia]).
    intros i RG. destruct (CA i RG) as [([F1 F2] & H)|[(B & H)|(B & H)]].
    + left. split; [|exact H]. split; [|intros k' c' Lk; lia]. intros s0 c0 Hs Hc. apply in_app_iff in Hs. destruct Hs as [Hs|[<-|[]]]; [exact (F1 s0 c0 Hs Hc)|]. apply In_nth_error in Hc. destruct Hc as (k' & Hc). apply (F2 k'); [apply nth_error_Some; congruence|exact Hc].
    + right. left. split; [apply BG, B|exact H].
    + right. right. split; [apply BG, B|exact H].
Qed.
Lemma chains_start : chains [] start_line 0 (topo_new (W := W) (arena_len a)) [] none [].
Proof.
  clear SP TAG ORI ops tag eps lower upper at_y sort_by.
  constructor; [reflexivity|intros p; destruct p; discriminate|intros p q s0 c0 x y H; destruct p; discriminate|]. intros i _. left. split; [split; [intros s0 c0 []|intros k' c' Lk; lia]|]. split; [reflexivity|]. split; [split; [constructor|]|intros h []].
  intros x. split; [intros []|]. destruct x; discriminate.
Qed.
End Chain.
