(** Merging coincident segments: what the sweep guarantees about the output segments before merging. *)
From Coq Require Import List Bool ZArith Arith Lia Permutation Sorted.
From Verif Require Import F64 F64Arith TreeVecModel GeomModel SegmentsModel SegmentsSpec SegmentsProofs CurveOrderModel CurveOrderProofs SweepModel SweepSpec
  SweepProofs2 SweepProofs7 SweepProofs8 SweepProofs10 RangeModel RangeSpec RangeProofs3 RangeProofs4 RangeProofs5 PropsSweep PropsRange TopoModel TopoSpec TopoProofs TopoProofs2 TopoProofs3 TopoProofs4
  TopoProofs5 TopoProofs6 TopoProofs7 TopoProofs8 TopoProofs9 TopoProofs10 WindSpec WindProofs WindProofs2 MergeSpec MergeProofs MergeProofs2 MergeProofs4.
Import ListNotations.

(** *** Corners *)
Definition co_of (r : vrec) : corner := mkCo (vr_in r) (vr_up r) (vr_down r) (vr_out r).
Lemma cring_of r : cring (co_of r) = vring r. Proof. reflexivity. Qed.
Lemma laid_app : forall V N oin M0 V' M, laid N oin V M0 -> laid M0 [] V' M -> laid N oin (V ++ V') M.
Proof.
  induction V as [|v V IH]; intros N oin M0 V' M H H'; cbn [app laid] in *; [destruct H as [-> ->]; exact H'|]. destruct H as (H1 & H2 & H3 & H4). repeat split; try assumption. eapply IH; eassumption.
Qed.
Lemma laid_vrecs O : forall l N oin inn, chained inn l -> length oin = length inn -> laid N oin (map co_of (vrecs N O oin l)) (N + length (vorig l)).
Proof.
  induction l as [|v l IH]; intros N oin inn CH L; cbn [chained vrecs map laid] in *.
  - subst inn. destruct oin; [|discriminate]. split; [reflexivity|cbn; lia].
  - destruct CH as [<- CH]. cbn [co_in co_down co_out co_of vr_in vr_down vr_out]. rewrite !seq_length. split; [reflexivity|]. split; [reflexivity|]. split; [reflexivity|].
    rewrite vorig_len. replace (N + (length (vw_down v) + length (vw_out v) + length (vorig l))) with (N + length (vw_down v) + length (vw_out v) + length (vorig l)) by lia.
    apply (IH _ _ (vw_out v) CH). apply seq_length.
Qed.
Lemma laid_le : forall V N oin M, laid N oin V M -> N <= M.
Proof. induction V as [|v V IH]; intros N oin M H; cbn [laid] in H; [destruct H; lia|]. destruct H as (_ & _ & _ & H). apply IH in H. lia. Qed.
Lemma laid_bounds : forall V N oin M v o, laid N oin V M -> In v V -> In o (co_down v) \/ In o (co_out v) -> N <= o < M.
Proof.
  induction V as [|u V IH]; intros N oin M v o H Hv Ho; [destruct Hv|]. cbn [laid] in H. destruct H as (_ & H2 & H3 & H4). destruct Hv as [->|Hv].
  - pose proof (laid_le _ _ _ _ H4). destruct Ho as [Ho|Ho]; [rewrite H2 in Ho|rewrite H3 in Ho]; apply in_seq in Ho; lia.
  - specialize (IH _ _ _ v o H4 Hv Ho). lia.
Qed.
Lemma laid_disjoint : forall V N oin M u v o, laid N oin V M -> In u V -> In v V -> In o (co_down u) -> In o (co_out v) -> False.
Proof.
  induction V as [|w V IH]; intros N oin M u v o H Hu Hv H1 H2; [destruct Hu|]. cbn [laid] in H. destruct H as (_ & D & E & H). destruct Hu as [<-|Hu], Hv as [<-|Hv].
  - rewrite D in H1. rewrite E in H2. apply in_seq in H1, H2. lia.
  - pose proof (laid_bounds _ _ _ _ v o H Hv (or_intror H2)). rewrite D in H1. apply in_seq in H1. lia.
  - pose proof (laid_bounds _ _ _ _ u o H Hu (or_introl H1)). rewrite E in H2. apply in_seq in H2. lia.
  - exact (IH _ _ _ u v o H Hu Hv H1 H2).
Qed.
Lemma laid_next : forall V N oin M p v, laid N oin V M -> nth_error V p = Some v -> co_out v <> [] -> exists u, nth_error V (S p) = Some u /\ co_in u = co_out v.
Proof.
  induction V as [|w V IH]; intros N oin M p v H Hp NE; [destruct p; discriminate|]. cbn [laid] in H. destruct H as (_ & _ & _ & H). destruct p as [|p]; cbn [nth_error] in *.
  - injection Hp as ->. destruct V as [|u V]; cbn [laid] in H; [destruct H; contradiction|]. exists u. split; [reflexivity|apply H].
  - eapply IH; eassumption.
Qed.
Lemma new_corner N O l u : In u (map co_of (vrecs N O [] l)) -> exists l0 v l1, l = l0 ++ v :: l1 /\ u = co_of (vrec_at N O [] l0 v).
Proof.
  intros H. apply in_map_iff in H. destruct H as (r & <- & H). apply In_nth_error in H. destruct H as [k H]. destruct (vrecs_at _ _ _ _ _ _ H) as (l0 & v & l1 & E & _ & ->). eauto.
Qed.
Lemma adj_nth {A} (l : list A) k i j : nth_error l k = Some i -> nth_error l (S k) = Some j -> adj l i j.
Proof.
  intros Hi Hj. apply nth_error_split in Hi. destruct Hi as (l1 & l2 & -> & L). rewrite nth_error_app2, <- L in Hj by lia. replace (S (length l1) - length l1) with 1 in Hj by lia.
  destruct l2 as [|z l2]; [discriminate|]. cbn in Hj. injection Hj as ->. exists l1, l2. reflexivity.
Qed.

Lemma outs_in N l0 o : In o (last_outs N [] l0) -> exists l2 u, l0 = l2 ++ [u] /\ N + length (vorig l2) + length (vw_down u) <= o < N + length (vorig l2) + length (vw_down u) + length (vw_out u).
Proof.
  destruct (last_case l0) as [->|(l2 & u & ->)]; [intros []|]. rewrite last_outs_snoc. intros H. apply in_seq in H. exists l2, u. split; [reflexivity|lia].
Qed.

(** *** West neighbours *)
Lemma wests_next : forall m w k q, S q < m -> nth_error (wests w k m) (S q) = Some (Some (k + q)).
Proof.
  induction m as [|m IH]; intros w k q L; [lia|]. cbn [wests nth_error]. destruct m as [|m]; [lia|]. destruct q as [|q]; [cbn; rewrite Nat.add_0_r; reflexivity|]. rewrite IH by lia. do 2 f_equal. lia.
Qed.
Definition below_opt (w : option nat) (k : nat) : Prop := forall x, w = Some x -> x < k.
Lemma wests_below : forall m w k q x, below_opt w k -> nth_error (wests w k m) q = Some (Some x) -> x < k + q.
Proof.
  induction m as [|m IH]; intros w k q x B H; [destruct q; discriminate|]. cbn [wests] in H. destruct q as [|q]; cbn [nth_error] in H; [injection H as ->; specialize (B x eq_refl); lia|].
  apply IH in H; [lia|]. intros y E. injection E as <-. lia.
Qed.
Lemma lastw_below : forall m w k, below_opt w k -> below_opt (lastw w k m) (k + m).
Proof.
  induction m as [|m IH]; intros w k B; cbn [lastw]; [rewrite Nat.add_0_r; exact B|]. replace (k + S m) with (S k + m) by lia. apply IH. intros x E. injection E as <-. lia.
Qed.
Lemma vwests_below : forall l w N q x, below_opt w N -> nth_error (vwests w N l) q = Some (Some x) -> x < N + q.
Proof.
  induction l as [|v l IH]; intros w N q x B H; cbn [vwests] in H; [destruct q; discriminate|]. pose proof (lastw_below (length (vw_down v)) w N B) as LB.
  apply app_nth_cases in H. rewrite !app_length, wests_length, repeat_length in H. destruct H as [[L H]|[L H]].
  - apply app_nth_cases in H. rewrite wests_length in H. destruct H as [[L2 H]|[L2 H]]; [eapply wests_below; eassumption|].
    apply nth_error_In, repeat_spec in H. symmetry in H. apply LB in H. lia.
  - apply IH in H; [lia|]. intros y E. apply LB in E. lia.
Qed.
Lemma vwests_len : forall l w N, length (vwests w N l) = length (vorig l).
Proof. induction l as [|v l IH]; intros w N; [reflexivity|]. cbn [vwests]. rewrite vorig_len, !app_length, wests_length, repeat_length, IH. lia. Qed.
Lemma vwests_next : forall l0 v l1 w N q, S q < length (vw_down v) -> nth_error (vwests w N (l0 ++ v :: l1)) (length (vorig l0) + S q) = Some (Some (N + length (vorig l0) + q)).
Proof.
  induction l0 as [|u l0 IH]; intros v l1 w N q L; cbn [app vwests].
  - cbn [vorig map concat length]. rewrite Nat.add_0_l, Nat.add_0_r. rewrite nth_error_app1 by (rewrite app_length, wests_length; lia). rewrite nth_error_app1 by (rewrite wests_length; lia). apply wests_next, L.
  - rewrite vorig_len. rewrite nth_error_app2 by (rewrite app_length, wests_length, repeat_length; lia). rewrite app_length, wests_length, repeat_length.
    replace (length (vw_down u) + length (vw_out u) + length (vorig l0) + S q - (length (vw_down u) + length (vw_out u))) with (length (vorig l0) + S q) by lia. rewrite IH by exact L. do 2 f_equal. lia.
Qed.

Section Inv.
Context {W T : Type}.
Variable ops : wops W T.
Variable a : arena.
Variable tag : list T.
Variable eps : f64.
Variables lower upper : segment -> f64 -> f64 -> f64.
Variable at_y : segment -> f64 -> f64.
Variable sort_by : forall A : Type, (A -> A -> comparison) -> list A -> list A.
Hypothesis SP : sweepable a.
Hypothesis TAG : length tag = arena_len a.
Hypothesis ORI : length (orientation a) = arena_len a.
Hypothesis SIB : starts_in_box a eps lower upper.
Variable ys : list f64.
Notation st c := (fst (ci_segs c)).
Notation en c := (snd (ci_segs c)).
Notation none := (fun _ : nat => @None nat).
Implicit Types t : topo W.
Notation rstep := (rstep ops a tag eps lower upper at_y sort_by).
Notation tline := (tline a eps lower upper at_y sort_by).
Notation lo i y := (fsub (lower (seg_def a i) y eps) eps).
Notation up i y := (fadd (upper (seg_def a i) y eps) eps).

(** At some height between, the box of [j] is to the right of the box of [i]. *)
Definition apart (y0 y1 : f64) (i j : nat) : Prop := exists y, nan y = false /\ In y ys /\ (key y0 < key y <= key y1)%Z /\ fle (lo j y) (up i y) = false.
Lemma apart_later y0 y1 y2 i j : (key y1 <= key y2)%Z -> apart y0 y1 i j -> apart y0 y2 i j.
Proof. intros L (y & N & I & K & H). exists y. split; [exact N|]. split; [exact I|]. split; [lia|exact H]. Qed.

Record MI (s : sweeper) (before : list lentry) (pos : nat) t (R : list (list half)) (O : nat -> option nat) (V : list corner) : Prop := {
  mi_R : R = map cring V;
  mi_pts : Forall (fun x => In (py x) ys) (t_points t);
  mi_laid : laid 0 [] V (length (t_wind t));
  mi_flat : forall p v, nth_error V p = Some v -> co_out v <> [] -> exists x z, nth_error (t_points t) p = Some x /\ nth_error (t_points t) (S p) = Some z /\ py x = py z;
  mi_slant : forall v o x y, In v V -> In o (co_down v) -> at_vertex t R (first_half o) x -> at_vertex t R (second_half o) y -> (key (py x) < key (py y))%Z;
  mi_next : forall v o, In v V -> In o (co_down v) -> In (S o) (co_down v) -> nth_error (t_west t) (S o) = Some (Some o);
  mi_west : forall o w, nth_error (t_west t) o = Some (Some w) -> w < o;
  mi_open : forall v o i j x, In v V -> In o (co_down v) -> In (S o) (co_down v) -> O i = Some o -> O j = Some (S o) -> at_vertex t R (first_half o) x ->
    adj (mixed (sw_line s) before pos) i j \/ apart (py x) (sw_y s) i j;
  mi_done : forall v o i j x y p r, In v V -> In o (co_down v) -> In (S o) (co_down v) -> nth_error (t_orig t) o = Some i -> nth_error (t_orig t) (S o) = Some j ->
    at_vertex t R (first_half o) x -> at_vertex t R (second_half o) y -> nth_error R p = Some r -> In (second_half o) r -> In (second_half (S o)) r ->
    In (second_half o, second_half (S o)) (cyclic r) \/ apart (py x) (py y) i j }.

Lemma MI_start : MI start_line [] 0 (topo_new (arena_len a)) [] none [].
Proof.
  constructor.
  - reflexivity.
  - constructor.
  - split; reflexivity.
  - intros p v H. destruct p; discriminate.
  - intros v o x y [].
  - intros v o [].
  - intros o w H. destruct o; discriminate.
  - intros v o i j x [].
  - intros v o i j x y p r [].
Qed.
Lemma MI_gap s before p q t R O V : tline s before -> p <= q -> (forall j, p <= j < q -> gap s j) -> MI s before p t R O V -> MI s before q t R O V.
Proof.
  intros TL L G []. constructor; try assumption. intros v o i j x Hv H1 H2 O1 O2 AT. destruct (mi_open0 v o i j x Hv H1 H2 O1 O2 AT) as [H|H]; [left|right; exact H].
  replace (mixed (sw_line s) before q) with (mixed (sw_line s) before p) by (eapply (mixed_gap a tag); eassumption). exact H.
Qed.
Lemma MI_line s before s' before' t R O V : tline s' before' -> length before = length (sw_line s) -> old_segs before' = new_segs (sw_line s) -> (key (sw_y s) < key (sw_y s'))%Z ->
  MI s before (length (sw_line s)) t R O V -> MI s' before' 0 t R O V.
Proof.
  intros TL LB E K []. constructor; try assumption. intros v o i j x Hv H1 H2 O1 O2 AT. destruct (mi_open0 v o i j x Hv H1 H2 O1 O2 AT) as [H|H]; [left|right; eapply apart_later; [|exact H]; lia].
  unfold mixed in *. rewrite firstn_all, skipn_all2 in H by lia. cbn [old_segs flat_map] in H. rewrite app_nil_r in H. cbn [firstn skipn new_segs filter map app]. rewrite E. exact H.
Qed.

Lemma MI_range s before c evs l t R O t' R' O' V : In (sw_y s) ys -> rstep s before c evs l t R O t' R' O' -> ends a s before (st c) t R O ->
  reaches a eps lower upper s ->
  MI s before (st c) t R O V -> MI s before (en c) t' R' O' (V ++ map co_of (vrecs (length (t_wind t)) O [] l)).
Proof.
  intros IY RS EN RE M. destruct M as [M1 M0 M2 M3 M4 M5 M6 M7 M8]. destruct (rs_points _ _ _ _ _ _ _ _ _ _ _ _ _ _ _ _ _ _ _ RS) as (EP & EW & EO & _ & EWE).
  pose proof (rs_views _ _ _ _ _ _ _ _ _ _ _ _ _ _ _ _ _ _ _ RS) as VW. pose proof (rs_line _ _ _ _ _ _ _ _ _ _ _ _ _ _ _ _ _ _ _ RS) as TL. pose proof (rs_in _ _ _ _ _ _ _ _ _ _ _ _ _ _ _ _ _ _ _ RS) as HC.
  pose proof (rs_rep _ _ _ _ _ _ _ _ _ _ _ _ _ _ _ _ _ _ _ RS) as REP. pose proof (rs_ti _ _ _ _ _ _ _ _ _ _ _ _ _ _ _ _ _ _ _ RS) as I. pose proof (rs_ti' _ _ _ _ _ _ _ _ _ _ _ _ _ _ _ _ _ _ _ RS) as I'.
  pose proof (rs_R _ _ _ _ _ _ _ _ _ _ _ _ _ _ _ _ _ _ _ RS) as ER. pose proof (rs_O _ _ _ _ _ _ _ _ _ _ _ _ _ _ _ _ _ _ _ RS) as EOO.
  set (N := length (t_wind t)) in *. set (V' := map co_of (vrecs N O [] l)) in *.
  assert (LW : length (t_wind t') = N + length (vorig l)). { rewrite <- (li_orig _ _ _ _ _ (proj1 I')), EO, app_length, (li_orig _ _ _ _ _ (proj1 I)). reflexivity. }
  assert (LD' : laid N [] V' (N + length (vorig l))) by (apply (laid_vrecs O l N [] []); [apply (views_chained _ _ VW)|reflexivity]).
  assert (LP : length R = length (t_points t)) by apply (ri_points _ _ _ (proj2 I)).
  assert (LV : length V = length R) by (rewrite M1, map_length; reflexivity).
  assert (OLDV : forall v o, In v (V ++ V') -> In o (co_down v) -> o < N -> In v V).
  { intros v o Hv Ho Lo. apply in_app_iff in Hv. destruct Hv as [Hv|Hv]; [exact Hv|]. pose proof (laid_bounds _ _ _ _ v o LD' Hv (or_introl Ho)). lia. }
  assert (NEWV : forall v o, In v (V ++ V') -> In o (co_down v) -> N <= o -> In v V').
  { intros v o Hv Ho Lo. apply in_app_iff in Hv. destruct Hv as [Hv|Hv]; [|exact Hv]. pose proof (laid_bounds _ _ _ _ v o M2 Hv (or_introl Ho)). fold N in H. lia. }
  assert (DOWNLT : forall v o, In v V -> In o (co_down v) -> o < N) by (intros v o Hv Ho; pose proof (laid_bounds _ _ _ _ v o M2 Hv (or_introl Ho)); fold N in H; lia).
  assert (UPN : forall v o, In v l -> In o (map (val O) (vw_up v)) -> exists i, In i (vw_up v) /\ O i = Some o /\ o < N /\ nth_error (t_orig t) o = Some i /\ In i (old_segs (piece before (st c) (en c)))).
  { intros v o Hv Ho. apply in_map_iff in Ho. destruct Ho as (i & Q & Hi). destruct (up_open ops a tag eps lower upper at_y sort_by _ _ _ _ _ _ _ _ _ _ _ v i RS Hv Hi) as (o' & e & A1 & A2 & A3 & _ & _ & _ & A4).
    exists i. unfold val in Q. rewrite A1 in Q. subst o'. auto. }
  (* second halves at new points *)
  assert (SECN : forall v o l0 u l1, In v (V ++ V') -> In o (co_down v) -> l = l0 ++ u :: l1 -> In (second_half o) (vring (vrec_at N O [] l0 u)) ->
     exists i, In i (vw_up u) /\ O i = Some o /\ o < N /\ nth_error (t_orig t) o = Some i /\ In i (old_segs (piece before (st c) (en c)))).
  { intros v o l0 u l1 Hv Ho EL Hh. assert (Hu : In u l) by (rewrite EL; apply in_or_app; right; left; reflexivity). apply vring_second in Hh. destruct Hh as [Hh|Hh]; [exfalso|apply (UPN u o Hu Hh)].
    apply outs_in in Hh. destruct Hh as (l2 & w & E2 & Q). assert (LB : N <= o) by lia. apply (NEWV v o Hv Ho) in LB.
    eapply (laid_disjoint _ _ _ _ v (co_of (vrec_at N O [] l2 w)) o LD' LB); [|exact Ho|cbn; apply in_seq; lia].
    unfold V'. apply in_map. rewrite EL, E2, <- app_assoc. apply (nth_error_In _ (length l2)). apply vrecs_at'. }
  assert (VC : forall h x, at_vertex t' R' h x -> (at_vertex t R h x /\ h_idx h < N) \/ (exists l0 v l1, l = l0 ++ v :: l1 /\ In h (vring (vrec_at N O [] l0 v)) /\ x = mkPoint (sw_y s) (vw_x v))).
  { intros h x H. exact (vertex_cases ops a tag eps lower upper at_y sort_by TAG ORI _ _ _ _ _ _ _ _ _ _ _ h x RS H). }
  assert (ND : NoDup (ups l)) by apply (ups_nodup _ _ VW).
  pose proof (mixed_start a eps lower upper at_y sort_by s before TL c HC) as MS. pose proof (mixed_end a eps lower upper at_y sort_by s before TL c HC) as ME.
  assert (UL : ups l = old_segs (piece before (st c) (en c))) by (eapply ups_line; [exact TL|exact HC|exact REP|exact VW|apply (rs_oldpos _ _ _ _ _ _ _ _ _ _ _ _ _ _ _ _ _ _ _ RS)]).
  assert (DL : downs l = new_segs (piece (sw_line s) (st c) (en c))) by (eapply downs_line; [exact TL|exact REP|exact VW|apply (rs_newpos _ _ _ _ _ _ _ _ _ _ _ _ _ _ _ _ _ _ _ RS)]).
  assert (LN : forall i, In i (new_segs (firstn (st c) (sw_line s))) -> ~ In i (map ev_seg evs)) by (eapply (left_not_segs a tag); eassumption).
  assert (RN : forall i, In i (old_segs (skipn (en c) before)) -> ~ In i (map ev_seg evs)) by (eapply (right_not_segs a tag); eassumption).
  assert (BN : forall i, In i (old_segs (piece before (st c) (en c))) -> In i (map ev_seg evs)).
  { intros i H. rewrite <- UL in H. apply (ups_in _ _ VW) in H. destruct H as (e & He & _ & <-). apply in_map, He. }
  constructor.
  - rewrite ER, map_app, <- M1. f_equal. unfold V'. rewrite map_map. apply map_ext. intros r. reflexivity.
  - rewrite EP. apply Forall_app. split; [exact M0|]. apply Forall_map, Forall_forall. intros v _. exact IY.
  - rewrite LW. eapply laid_app; [exact M2|exact LD'].
  - intros p v Hp NE. rewrite EP. apply app_nth_cases in Hp. destruct Hp as [[L Hp]|[L Hp]].
    + destruct (M3 p v Hp NE) as (x & z & X & Z & E). exists x, z. rewrite !nth_error_app1 by (apply nth_error_Some; congruence). auto.
    + destruct (laid_next _ _ _ _ _ _ LD' Hp NE) as (u & Hu & _).
      assert (PT : forall k u, nth_error V' k = Some u -> exists x, nth_error (t_points t ++ map (fun v => mkPoint (sw_y s) (vw_x v)) l) (length V + k) = Some x /\ py x = sw_y s).
      { intros k w Hk. assert (Lk : k < length l) by (rewrite <- (vrecs_length O l N []), <- (map_length co_of); apply nth_error_Some; fold V'; congruence).
        rewrite nth_error_app2 by lia. replace (length V + k - length (t_points t)) with k by lia. rewrite nth_error_map. destruct (nth_error l k) as [z|] eqn:E; [|apply nth_error_None in E; lia]. exists (mkPoint (sw_y s) (vw_x z)). auto. }
      destruct (PT _ _ Hp) as (x & X1 & X2), (PT _ _ Hu) as (z & Z1 & Z2). exists x, z. replace (length V + (p - length V)) with p in X1 by lia. replace (length V + S (p - length V)) with (S p) in Z1 by lia. split; [exact X1|]. split; [exact Z1|congruence].
  - intros v o x y Hv Ho Hx Hy. apply VC in Hx, Hy. cbn [first_half second_half h_idx] in Hx, Hy. destruct Hy as [[Hy Lo]|(l0 & u & l1 & EL & Hk & ->)].
    + destruct Hx as [[Hx _]|(l0 & u & l1 & EL & Hk & ->)]; [eapply M4; [exact (OLDV v o Hv Ho Lo)|exact Ho|exact Hx|exact Hy]|]. apply vring_first in Hk. lia.
    + destruct (SECN v o l0 u l1 Hv Ho EL Hk) as (i & Hi & Oi & Lo & _ & Q). destruct Hx as [[Hx _]|(m0 & w & m1 & EM & Hh & ->)]; [|apply vring_first in Hh; lia].
      cbn [py]. apply (en_open _ _ _ _ _ _ _ EN i o x Oi Hx). rewrite (skipn_piece before (st c) (en c)), old_segs_app by (apply (tl_bounds _ _ _ _ _ _ _ _ TL), HC). apply in_or_app. left. exact Q.
  - intros v o Hv H1 H2. rewrite EWE. destruct (Nat.lt_ge_cases o N) as [L|L].
    + pose proof (OLDV v o Hv H1 L) as Hv'. pose proof (DOWNLT v (S o) Hv' H2). rewrite nth_error_app1 by (rewrite (li_west _ _ _ _ _ (proj1 I)); exact H). eapply M5; eassumption.
    + pose proof (NEWV v o Hv H1 L) as Hv'. apply new_corner in Hv'. destruct Hv' as (l0 & u & l1 & EL & ->). cbn in H1, H2. apply in_seq in H1, H2.
      rewrite nth_error_app2 by (rewrite (li_west _ _ _ _ _ (proj1 I)); fold N; lia). rewrite (li_west _ _ _ _ _ (proj1 I)). fold N. rewrite EL.
      replace (S o - N) with (length (vorig l0) + S (o - N - length (vorig l0))) by lia. rewrite vwests_next by lia. do 2 f_equal. lia.
  - intros o w. rewrite EWE. intros H. apply app_nth_cases in H. destruct H as [[L H]|[L H]]; [eapply M6; exact H|]. rewrite (li_west _ _ _ _ _ (proj1 I)) in *. fold N in L, H. apply vwests_below in H; [lia|].
    intros x E. unfold west_of in E. destruct (st c) as [|k]; [discriminate|]. destruct (line_segment s k) as [g|]; [|discriminate]. eapply LI_own_lt; [apply I|right; left; exact E].
  - intros v o i j x Hv H1 H2 O1 O2 AT. destruct (Nat.lt_ge_cases o N) as [L|L].
    + pose proof (OLDV v o Hv H1 L) as Hv'. pose proof (DOWNLT v (S o) Hv' H2) as L2.
      assert (BACK : forall i o, o < N -> O' i = Some o -> O i = Some o /\ ~ In i (map ev_seg evs)).
      { clear - EOO VW I'. intros i o L H. rewrite EOO in H. unfold reopen in H. destruct (memn i (map ev_seg evs)) eqn:ME; [exfalso|apply memn_false in ME; auto].
        apply assoc_in, in_combine_r in H. unfold odowns in H. apply in_concat in H. destruct H as (u & Hu & Ho). apply in_map_iff in Hu. destruct Hu as (rec & <- & Hr).
        apply In_nth_error in Hr. destruct Hr as [k Hr]. destruct (vrecs_at _ _ _ _ _ _ Hr) as (l0 & v & l1 & _ & _ & ->). cbn in Ho. apply in_seq in Ho. lia. }
      destruct (BACK i o L O1) as [O1' NI], (BACK j (S o) L2 O2) as [O2' NJ].
      apply VC in AT. cbn [first_half h_idx] in AT. destruct AT as [[AT _]|(l0 & u & l1 & EL & Hk & ->)]; [|apply vring_first in Hk; lia].
      destruct (M7 v o i j x Hv' H1 H2 O1' O2' AT) as [H|H]; [|right; exact H]. rewrite MS in H. rewrite ME.
      apply adj_app in H. destruct H as [H|[H|(A' & B' & EA & EB)]]; [left; apply adj_left, H| |].
      * apply adj_app in H. destruct H as [H|[H|(A' & B' & EA & EB)]]; [exfalso; apply NI, BN, (adj_in _ _ _ H)|left; apply adj_right, adj_right, H|].
        exfalso. apply NI, BN. rewrite EA. apply in_or_app. right. left. reflexivity.
      * destruct (old_segs (piece before (st c) (en c))) as [|b B] eqn:BO; [|exfalso; cbn in EB; injection EB as -> _; apply NJ, BN; left; reflexivity]. cbn [app] in EB.
        destruct (new_segs (piece (sw_line s) (st c) (en c))) as [|n0 nn] eqn:BNW.
        -- left. cbn [app]. rewrite EA, EB. apply adj_join.
        -- right. exists (sw_y s). split; [apply (tl_y _ _ _ _ _ _ _ _ TL)|]. split; [exact IY|]. split; [split; [|lia]|].
           ++ (* both begin at the same point *)
              assert (AT2 : at_vertex t R (first_half (S o)) x).
              { destruct AT as (p & r & A1 & A2 & A3). exists p, r. split; [exact A1|]. split; [|exact A3]. apply In_nth_error in Hv'. destruct Hv' as [q Q].
                assert (QR : nth_error R q = Some (cring v)) by (rewrite M1, nth_error_map, Q; reflexivity).
                assert (FI : forall m, In m (co_down v) -> In (first_half m) (cring v)). { intros m Hm. unfold cring, ring_of. apply in_or_app. right. apply in_or_app. left. rewrite <- in_rev. apply in_map, Hm. }
                assert (p = q) by (eapply ring_unique; [apply (ri_nodup _ _ _ (proj2 I))|exact A1|exact QR|exact A2|apply FI, H1]). subst q. rewrite A1 in QR. injection QR as ->. apply FI, H2. }
              apply (en_open _ _ _ _ _ _ _ EN j (S o) x O2' AT2). rewrite (skipn_piece before (st c) (en c)), old_segs_app, BO, EB by (apply (tl_bounds _ _ _ _ _ _ _ _ TL), HC). left. reflexivity.
           ++ eapply (between tag a); try eassumption. rewrite BNW. discriminate.
    + pose proof (NEWV v o Hv H1 L) as Hv'. apply new_corner in Hv'. destruct Hv' as (l0 & u & l1 & EL & ->). cbn in H1, H2. apply in_seq in H1, H2. left. rewrite ME. apply adj_right, adj_left. rewrite <- DL.
      assert (OR : forall m k, N + length (vorig l0) <= m < N + length (vorig l0) + length (vw_down u) -> O' k = Some m -> nth_error (vw_down u) (m - N - length (vorig l0)) = Some k).
      { intros m k Lm Hk. destruct (li_own _ _ _ _ _ (proj1 I') k m (or_intror (or_introl Hk))) as [_ Q]. rewrite EO, EL, vorig_app, vorig_cons, app_assoc in Q.
        replace m with (length (t_orig t ++ vorig l0) + (m - N - length (vorig l0))) in Q at 1 by (rewrite app_length, (li_orig _ _ _ _ _ (proj1 I)); fold N; lia).
        rewrite (nth_mid a tag eps lower upper at_y TAG ORI) in Q by (rewrite app_length; lia). rewrite nth_error_app1 in Q by lia. exact Q. }
      apply OR in O1; [|lia]. apply OR in O2; [|lia]. replace (S o - N - length (vorig l0)) with (S (o - N - length (vorig l0))) in O2 by lia.
      unfold downs. rewrite EL, map_app, concat_app. cbn [map concat]. apply adj_right, adj_left. eapply adj_nth; eassumption.
  - intros v o i j x y p r Hv H1 H2 G1 G2 AX AY HR I1 I2. rewrite ER in HR. apply app_nth_cases in HR.
    apply VC in AX, AY. cbn [first_half second_half h_idx] in AX, AY.
    destruct HR as [[L HR]|[L HR]].
    + assert (LL : forall m, In (second_half m) r -> m < N). { intros m H. assert (X : In (second_half m) (concat R)) by (eapply nth_concat; eassumption). apply (ri_all _ _ _ (proj2 I)) in X. apply X. }
      pose proof (LL o I1) as L1. pose proof (LL (S o) I2) as L2. pose proof (OLDV v o Hv H1 L1) as Hv'.
      rewrite EO in G1, G2. rewrite nth_error_app1 in G1 by (rewrite (li_orig _ _ _ _ _ (proj1 I)); exact L1). rewrite nth_error_app1 in G2 by (rewrite (li_orig _ _ _ _ _ (proj1 I)); exact L2).
      destruct AX as [[AX _]|(l0 & u & l1 & EL & Hk & ->)]; [|apply vring_first in Hk; lia].
      destruct AY as [[AY _]|(l0 & u & l1 & EL & Hk & ->)]; [eapply M8; eassumption|]. exfalso.
      assert (Q : nth_error (R ++ map vring (vrecs N O [] l)) (length R + length l0) = Some (vring (vrec_at N O [] l0 u))). { rewrite nth_error_app2 by lia. replace (length R + length l0 - length R) with (length l0) by lia. rewrite nth_error_map, EL, vrecs_at'. reflexivity. }
      rewrite <- ER in Q. assert (HR' : nth_error R' p = Some r) by (rewrite ER, nth_error_app1 by exact L; exact HR).
      pose proof (ring_unique R' p (length R + length l0) r _ (second_half o) (ri_nodup _ _ _ (proj2 I')) HR' Q I1 Hk). lia.
    + rewrite nth_error_map in HR. destruct (nth_error (vrecs N O [] l) (p - length R)) as [rc|] eqn:E; [|discriminate]. injection HR as <-. destruct (vrecs_at _ _ _ _ _ _ E) as (l0 & u & l1 & EL & L0 & ->).
      destruct (SECN v o l0 u l1 Hv H1 EL I1) as (i' & Hi & Oi & Lo & Gi & Bi). destruct (SECN v (S o) l0 u l1 Hv H2 EL I2) as (j' & Hj & Oj & Lo2 & Gj & Bj). pose proof (OLDV v o Hv H1 Lo) as Hv'.
      rewrite EO in G1, G2. rewrite nth_error_app1 in G1 by (rewrite (li_orig _ _ _ _ _ (proj1 I)); exact Lo). rewrite nth_error_app1 in G2 by (rewrite (li_orig _ _ _ _ _ (proj1 I)); exact Lo2).
      assert (i' = i) by congruence. assert (j' = j) by congruence. subst i' j'.
      destruct AX as [[AX _]|(m0 & w & m1 & EM & Hk & ->)]; [|apply vring_first in Hk; lia].
      assert (PY : py y = sw_y s).
      { destruct AY as [[(q & r2 & A1 & A2 & A3) _]|(m0 & w & m1 & EM & Hk & ->)]; [exfalso|reflexivity].
        assert (Q : nth_error R' q = Some r2) by (rewrite ER, nth_error_app1 by (apply nth_error_Some; congruence); exact A1).
        assert (Q2 : nth_error R' p = Some (vring (vrec_at N O [] l0 u))) by (rewrite ER, nth_error_app2 by exact L; rewrite nth_error_map, E; reflexivity).
        pose proof (ring_unique R' q p _ _ (second_half o) (ri_nodup _ _ _ (proj2 I')) Q Q2 A2 I1). assert (q < length R) by (apply nth_error_Some; congruence). lia. }
      rewrite PY. destruct (M7 v o i j x Hv' H1 H2 Oi Oj AX) as [H|H]; [|right; exact H]. left. rewrite MS in H.
      assert (NI : ~ In i (new_segs (firstn (st c) (sw_line s)))) by (intros X; apply (LN i X), BN, Bi). assert (NJ : ~ In j (old_segs (skipn (en c) before))) by (intros X; apply (RN j X), BN, Bj).
      assert (AB : adj (ups l) i j).
      { apply adj_app in H. destruct H as [H|[H|(A' & B' & EA & EB)]]; [exfalso; apply NI, (adj_in _ _ _ H)| |exfalso; apply NI; rewrite EA; apply in_or_app; right; left; reflexivity].
        apply adj_app in H. destruct H as [H|[H|(A' & B' & EA & EB)]]; [rewrite UL; exact H|exfalso; apply NJ, (adj_in _ _ _ H)|exfalso; apply NJ; rewrite EB; left; reflexivity]. }
      assert (AV : adj (vw_up u) i j). { apply (adj_concat (map vw_up l) (length l0)); try assumption. rewrite nth_error_map, EL, nth_error_app2, Nat.sub_diag by lia. reflexivity. }
      unfold vring, ring_of, vrec_at. cbn [vr_in vr_up vr_down vr_out]. rewrite !app_assoc. apply adj_cyclic.
      replace (second_half o) with (second_half (val O i)) by (unfold val; rewrite Oi; reflexivity). replace (second_half (S o)) with (second_half (val O j)) by (unfold val; rewrite Oj; reflexivity).
      apply adj_map. apply adj_map. exact AV.
Qed.
End Inv.
