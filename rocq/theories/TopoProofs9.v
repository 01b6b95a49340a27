(** Proofs about building a topology: the lines of a sweep, and the ends of output segments. *)
From Coq Require Import List Bool ZArith Arith Lia Permutation Sorted.
From Verif Require Import F64 F64Arith TreeVecModel GeomModel SegmentsModel SegmentsSpec SegmentsProofs CurveOrderModel CurveOrderProofs SweepModel SweepSpec
  SweepProofs2 SweepProofs8 SweepProofs10 RangeModel RangeSpec RangeProofs3 RangeProofs4 RangeProofs5 PropsSweep PropsRange TopoModel TopoSpec TopoProofs TopoProofs2 TopoProofs3 TopoProofs4 TopoProofs5 TopoProofs6 TopoProofs7 TopoProofs8.
Import ListNotations.

Lemma sorted_all {A} (R : A -> A -> Prop) l : StronglySorted R l -> forall t x y, nth_error l t = Some x -> nth_error l (S t) = Some y -> R x y.
Proof. intros S t x y Hx Hy. eapply sorted_nth; [exact S| |exact Hx|exact Hy]. lia. Qed.

Section Lines.
Variable a : arena.
Variable eps : f64.
Variables lower upper : segment -> f64 -> f64 -> f64.
Variable at_y : segment -> f64 -> f64.
Variable sort_by : forall A : Type, (A -> A -> comparison) -> list A -> list A.
Variables cmp ccmp : nat -> nat -> curve_order.
Variables min_x max_x : segment -> f64.
Variable pps : nat -> ((lentry -> bool) -> list lentry -> nat) * ((lentry -> bool) -> list lentry -> nat).
Hypothesis SET : sound_setting a cmp ccmp pps sort_by.
Hypothesis PS : positions_numbers a eps lower upper at_y.
Variables (fuel n : nat) (l : list sweeper) (done : bool).
Hypothesis RUN : sweep a eps cmp ccmp min_x max_x lower upper pps sort_by fuel n 0 (sweeper_new a) = Ok (l, done).
Variable good_line : sweeper -> Prop.
Hypothesis BOX : forall s, In s l -> boxes_ordered a eps lower upper (sw_y s) (sw_line s).
Hypothesis GOOD : forall s, In s l -> good_line s.

(** Before the first line. *)
Definition start_line : sweeper := mkSW fneginf [] 0 0 [] [] [] [].
Lemma lines_all : lines_ok a eps lower upper at_y sort_by good_line start_line l.
Proof.
  pose proof (run_ok a eps cmp ccmp min_x max_x lower upper pps sort_by SET _ _ _ _ RUN) as C.
  pose proof (chain_heights _ _ _ _ _ _ _ _ _ _ C) as HT.
  assert (G : forall m m0 s, l = m0 ++ m -> match lastof m0 with Some x => s = x | None => s = start_line end -> lines_ok a eps lower upper at_y sort_by good_line s m).
  { induction m as [|s' m IH]; intros m0 s E HS; [constructor|].
    assert (HI : In s' l) by (rewrite E; apply in_or_app; right; left; reflexivity).
    assert (N1 : nth_error l (length m0) = Some s') by (rewrite E, nth_error_app2, Nat.sub_diag by lia; reflexivity).
    assert (PR : exists p, nth_error (sweeper_new a :: l) (length m0) = Some p /\ new_segs (sw_line p) = new_segs (sw_line s) /\ (key (sw_y s) < key (sw_y s'))%Z).
    { destruct (last_case m0) as [->|(m1 & x & ->)].
      - cbn in HS. subst s. exists (sweeper_new a). split; [reflexivity|]. split; [reflexivity|].
        destruct (chain_in _ _ _ _ _ _ _ _ _ _ _ C HI) as (K & _). exact K.
      - rewrite lastof_snoc in HS. subst s. exists x. rewrite app_length. cbn [length]. replace (length m1 + 1) with (S (length m1)) by lia. cbn [nth_error].
        assert (N0 : nth_error l (length m1) = Some x) by (rewrite E, <- app_assoc, nth_error_app2, Nat.sub_diag by lia; reflexivity).
        split; [exact N0|]. split; [reflexivity|]. apply (sorted_all _ _ HT (length m1)); [exact N0|]. rewrite <- N1. rewrite app_length. cbn [length]. f_equal. lia. }
    destruct PR as (p & HP & EN & KY).
    destruct (tline_of a eps lower upper at_y sort_by cmp ccmp min_x max_x pps SET PS fuel n l done RUN (length m0) p s' HP N1 (BOX s' HI)) as (before & TL & EB).
    apply lk_cons with (before := before); [exact TL|apply GOOD, HI|congruence|exact KY|]. apply (IH (m0 ++ [s'])); [rewrite <- app_assoc; exact E|]. rewrite lastof_snoc. reflexivity. }
  apply (G l []); reflexivity.
Qed.
Lemma last_line_empty s : done = true -> new_segs (sw_line (last l s)) = [] \/ l = [].
Proof.
  intros D. destruct (last_case l) as [E|(m & x & E)]; [auto|left]. rewrite E, last_last.
  assert (HI : In x l) by (rewrite E; apply in_or_app; right; left; reflexivity).
  destruct (new_segs (sw_line x)) as [|i r] eqn:EN; [reflexivity|exfalso]. assert (X : In i (new_segs (sw_line x))) by (rewrite EN; left; reflexivity).
  rewrite D in RUN. destruct (line_holds_active_segments a eps cmp ccmp min_x max_x lower upper pps sort_by SET _ _ _ _ RUN x HI) as (L1 & _). apply L1 in X. destruct X as (R & X1 & X2).
  pose proof (ss_arena _ _ _ _ _ SET) as SPA.
  assert (SL : slanted a i = true). { unfold slanted. destruct (fle_nonnan _ _ X1) as [N1 N2]. destruct (flt_nonnan _ _ X2) as [_ N3]. fk. zb. lia. }
  destruct (segments_exit_once a eps cmp ccmp min_x max_x lower upper pps sort_by SET _ _ _ RUN i R SL) as (t & s' & Ht & _ & Q & _).
  pose proof (run_ok a eps cmp ccmp min_x max_x lower upper pps sort_by SET _ _ _ _ RUN) as C. pose proof (chain_heights _ _ _ _ _ _ _ _ _ _ C) as HT.
  assert (LE : (key (sw_y s') <= key (sw_y x))%Z).
  { assert (Lt : t < length l) by (apply nth_error_Some; congruence). rewrite E in *. rewrite app_length in Lt. cbn in Lt. destruct (Nat.eq_dec t (length m)) as [->|N].
    - rewrite nth_error_app2, Nat.sub_diag in Ht by lia. injection Ht as <-. lia.
    - apply Z.lt_le_incl. refine (sorted_nth _ _ HT t (length m) s' x _ Ht _); [lia|]. rewrite nth_error_app2, Nat.sub_diag by lia. reflexivity. }
  destruct (flt_nonnan _ _ X2) as [N1 N2]. destruct (feq_nonnan _ _ Q) as [N3 _]. fk. zb. lia.
Qed.
End Lines.

(** *** The data of new output segments *)
Section Data.
Context {W T : Type}.
Variable ops : wops W T.
Variable a : arena.
Variable tag : list T.

Fixpoint last_outs (N : nat) (oin : list nat) (l : list view) : list nat :=
  match l with
  | [] => oin
  | v :: l => let kd := length (vw_down v) in let ko := length (vw_out v) in last_outs (N + kd + ko) (seq (N + kd) ko) l
  end.
Lemma vorig_cons v l : vorig (v :: l) = (vw_down v ++ map fst (vw_out v)) ++ vorig l. Proof. reflexivity. Qed.
Lemma vorig_len v l : length (vorig (v :: l)) = length (vw_down v) + length (vw_out v) + length (vorig l).
Proof. rewrite vorig_cons, !app_length, map_length. reflexivity. Qed.
Lemma vrecs_app O : forall l0 l1 N oin, vrecs N O oin (l0 ++ l1) = vrecs N O oin l0 ++ vrecs (N + length (vorig l0)) O (last_outs N oin l0) l1.
Proof.
  induction l0 as [|v l0 IH]; intros l1 N oin; cbn [app vrecs last_outs].
  - cbn. rewrite Nat.add_0_r. reflexivity.
  - rewrite IH, vorig_len. f_equal. f_equal. f_equal. lia.
Qed.
Lemma vwinds_app : forall l0 l1 w, vwinds ops a tag w (l0 ++ l1) = vwinds ops a tag w l0 ++ vwinds ops a tag (wend ops w (concat (map (dgains ops a tag) l0))) l1.
Proof.
  assert (WE : forall g h w, wend ops w (g ++ h) = wend ops (wend ops w g) h) by (induction g as [|x g IH]; intros h w; [reflexivity|]; cbn; apply IH).
  induction l0 as [|v l0 IH]; intros l1 w; cbn [app vwinds map concat]; [reflexivity|]. rewrite IH, WE, <- !app_assoc. reflexivity.
Qed.
Lemma vorig_app l0 l1 : vorig (l0 ++ l1) = vorig l0 ++ vorig l1.
Proof. unfold vorig. rewrite map_app, concat_app. reflexivity. Qed.
Lemma vpos_app l0 l1 : vpos a (l0 ++ l1) = vpos a l0 ++ vpos a l1.
Proof. unfold vpos. rewrite map_app, concat_app. reflexivity. Qed.
Lemma vrecs_length O : forall l N oin, length (vrecs N O oin l) = length l.
Proof. induction l as [|v l IH]; intros N oin; [reflexivity|]. cbn. rewrite IH. reflexivity. Qed.
Lemma split_at {A} (l : list A) k x : nth_error l k = Some x -> exists l0 l1, l = l0 ++ x :: l1 /\ length l0 = k.
Proof. intros H. apply nth_error_split in H. exact H. Qed.
(** The record of the view after [l0]. *)
Definition vrec_at (N : nat) O (oin : list nat) (l0 : list view) (v : view) : vrec :=
  let M := N + length (vorig l0) in
  mkVr v (last_outs N oin l0) (map (val O) (vw_up v)) (seq M (length (vw_down v))) (seq (M + length (vw_down v)) (length (vw_out v))).
Lemma vrecs_at N O oin l k r : nth_error (vrecs N O oin l) k = Some r -> exists l0 v l1, l = l0 ++ v :: l1 /\ length l0 = k /\ r = vrec_at N O oin l0 v.
Proof.
  intros H. assert (Lk : k < length l) by (rewrite <- (vrecs_length O l N oin); apply nth_error_Some; congruence).
  destruct (nth_error l k) as [v|] eqn:E; [|apply nth_error_None in E; lia]. destruct (split_at _ _ _ E) as (l0 & l1 & -> & L0). exists l0, v, l1. split; [reflexivity|]. split; [exact L0|].
  rewrite vrecs_app in H. rewrite nth_error_app2 in H by (rewrite vrecs_length; lia). rewrite vrecs_length, L0, Nat.sub_diag in H. cbn [vrecs nth_error] in H. injection H as <-. reflexivity.
Qed.
Lemma vrecs_at' N O oin l0 v l1 : nth_error (vrecs N O oin (l0 ++ v :: l1)) (length l0) = Some (vrec_at N O oin l0 v).
Proof. rewrite vrecs_app, nth_error_app2 by (rewrite vrecs_length; lia). rewrite vrecs_length, Nat.sub_diag. reflexivity. Qed.
Lemma last_outs_snoc N oin l0 v : last_outs N oin (l0 ++ [v]) = seq (N + length (vorig l0) + length (vw_down v)) (length (vw_out v)).
Proof.
  revert N oin. induction l0 as [|u l0 IH]; intros N oin; cbn [app last_outs]; [cbn; rewrite Nat.add_0_r; reflexivity|]. rewrite IH, vorig_len. f_equal. lia.
Qed.
Lemma vring_first N O oin l0 v o : In (first_half o) (vring (vrec_at N O oin l0 v)) <-> N + length (vorig l0) <= o < N + length (vorig l0) + length (vw_down v) + length (vw_out v).
Proof.
  unfold vring, ring_of, vrec_at. cbn [vr_in vr_up vr_down vr_out]. rewrite !in_app_iff, <- !in_rev, !in_map_iff. split.
  - intros [(o' & E & H)|[(o' & E & H)|[(o' & E & H)|(o' & E & H)]]]; try discriminate; injection E as ->; apply in_seq in H; lia.
  - intros L. destruct (Nat.lt_ge_cases o (N + length (vorig l0) + length (vw_down v))) as [Q|Q]; [right; left|left]; exists o; (split; [reflexivity|apply in_seq; lia]).
Qed.
Lemma vring_second N O oin l0 v o : In (second_half o) (vring (vrec_at N O oin l0 v)) <-> In o (last_outs N oin l0) \/ In o (map (val O) (vw_up v)).
Proof.
  unfold vring, ring_of, vrec_at. cbn [vr_in vr_up vr_down vr_out]. rewrite !in_app_iff, <- !in_rev, !in_map_iff. split.
  - intros [(o' & E & H)|[(o' & E & H)|[(o' & E & H)|(o' & E & H)]]]; try discriminate; injection E as ->; auto. right. apply in_map_iff in H. exact H.
  - intros [H|(i & E & H)]; [right; right; left; eauto|]. right. right. right. exists o. split; [reflexivity|]. apply in_map_iff. eauto.
Qed.
End Data.

(** *** Ends of output segments *)
Section Ends.
Context {W T : Type}.
Variable ops : wops W T.
Variable a : arena.
Variable tag : list T.
Variable eps : f64.
Variables lower upper : segment -> f64 -> f64 -> f64.
Variable at_y : segment -> f64 -> f64.
Variable sort_by : forall A : Type, (A -> A -> comparison) -> list A -> list A.
Hypothesis SP : sweepable a.
Hypothesis TAG : length tag = arena_len a.
Hypothesis ORI : length (orientation a) = arena_len a.
Notation st c := (fst (ci_segs c)).
Notation en c := (snd (ci_segs c)).
Notation none := (fun _ : nat => @None nat).
Implicit Types t : topo W.
Notation rstep := (rstep ops a tag eps lower upper at_y sort_by).
Notation tline := (tline a eps lower upper at_y sort_by).

Definition klt (x y : point) : Prop := (key (py x) < key (py y))%Z \/ (key (py x) = key (py y) /\ (key (px x) < key (px y))%Z).
Definition at_vertex t (R : list (list half)) (h : half) (x : point) : Prop := exists p r, nth_error R p = Some r /\ In h r /\ nth_error (t_points t) p = Some x.
Record ends (s : sweeper) (before : list lentry) (pos : nat) t (R : list (list half)) (O : nat -> option nat) : Prop := {
  en_num : Forall point_nonnan (t_points t);
  en_lt : forall o x y, at_vertex t R (first_half o) x -> at_vertex t R (second_half o) y -> klt x y;
  en_open : forall i o x, O i = Some o -> at_vertex t R (first_half o) x ->
     (key (py x) <= key (sw_y s))%Z /\ (In i (old_segs (skipn pos before)) -> (key (py x) < key (sw_y s))%Z);
  en_span : forall h x i, at_vertex t R h x -> nth_error (t_orig t) (h_idx h) = Some i ->
     registered a i /\ (key (start_y a i) <= key (py x) <= key (end_y a i))%Z }.

Lemma rs_points s before c evs l t R O t' R' O' : rstep s before c evs l t R O t' R' O' -> t_points t' = t_points t ++ map (fun v => mkPoint (sw_y s) (vw_x v)) l /\
  t_wind t' = t_wind t ++ vwinds ops a tag (wind_of ops t (west_of s c O)) l /\ t_orig t' = t_orig t ++ vorig l /\ t_pos t' = t_pos t ++ vpos a l /\
  t_west t' = t_west t ++ vwests (west_of s c O) (length (t_wind t)) l.
Proof.
  intros RS. destruct (rs_grown _ _ _ _ _ _ _ _ _ _ _ _ _ _ _ _ _ _ _ RS) as (t1 & G & I1 & SL).
  assert (Q : t_points t' = t_points t1 /\ t_wind t' = t_wind t1 /\ t_orig t' = t_orig t1 /\ t_pos t' = t_pos t1 /\ t_west t' = t_west t1).
  { clear - SL. unfold scan_links in SL. destruct (vlast _ _ _) as [o|].
    - destruct (nth_error (sw_line s) (en c)) as [e|]; [|injection SL as <-; auto]. destruct (le_changed e); [injection SL as <-; auto|]. destruct (open_front t1 (le_seg e)) as [f|]; [|discriminate]. cbn [rbind] in SL.
      unfold set_east in SL. destruct (upd (t_east t1) o f); [|discriminate]. cbn [orerr rbind] in SL. injection SL as <-. auto.
    - match type of SL with rbind ?x _ = _ => destruct x as [w|]; [|discriminate] end. cbn [rbind] in SL. match type of SL with rbind ?x _ = _ => destruct x as [e|]; [|discriminate] end. cbn [rbind] in SL. injection SL as <-. destruct w, e; auto. }
  destruct G, Q as (-> & -> & -> & -> & ->). auto.
Qed.

Lemma ring_unique R p q r r' (h : half) : NoDup (concat R) -> nth_error R p = Some r -> nth_error R q = Some r' -> In h r -> In h r' -> p = q.
Proof.
  intros ND Hp Hq H1 H2. apply (flat_nodup_pos (fun x => x) R) with (x := r) (y := r') (z := h); try assumption.
Qed.
Lemma app_nth_cases {A} (l m : list A) p x : nth_error (l ++ m) p = Some x -> (p < length l /\ nth_error l p = Some x) \/ (length l <= p /\ nth_error m (p - length l) = Some x).
Proof. intros H. destruct (Nat.lt_ge_cases p (length l)) as [L|L]; [rewrite nth_error_app1 in H by exact L; auto|rewrite nth_error_app2 in H by exact L; auto]. Qed.

(** A half-segment at a vertex after a range: it was there before, or it is at a position of the range. *)
Lemma vertex_cases s before c evs l t R O t' R' O' h x : rstep s before c evs l t R O t' R' O' -> at_vertex t' R' h x ->
  (at_vertex t R h x /\ h_idx h < length (t_wind t)) \/ (exists l0 v l1, l = l0 ++ v :: l1 /\ In h (vring (vrec_at (length (t_wind t)) O [] l0 v)) /\ x = mkPoint (sw_y s) (vw_x v)).
Proof.
  intros RS (p & r & Hr & Hh & Hx). destruct (rs_points _ _ _ _ _ _ _ _ _ _ _ RS) as (EP & _). rewrite EP in Hx. rewrite (rs_R _ _ _ _ _ _ _ _ _ _ _ _ _ _ _ _ _ _ _ RS) in Hr.
  pose proof (ri_points _ _ _ (proj2 (rs_ti _ _ _ _ _ _ _ _ _ _ _ _ _ _ _ _ _ _ _ RS))) as LP.
  apply app_nth_cases in Hr. destruct Hr as [[L Hr]|[L Hr]].
  - left. rewrite nth_error_app1 in Hx by lia. split; [exists p, r; auto|]. assert (X : In h (concat R)) by (eapply nth_concat; eassumption). apply (ri_all _ _ _ (proj2 (rs_ti _ _ _ _ _ _ _ _ _ _ _ _ _ _ _ _ _ _ _ RS))) in X. apply X.
  - right. rewrite nth_error_app2 in Hx by lia. rewrite nth_error_map' in Hr. destruct (nth_error (vrecs _ _ _ _) (p - length R)) as [rec|] eqn:E; [|discriminate]. injection Hr as <-.
    destruct (vrecs_at _ _ _ _ _ _ E) as (l0 & v & l1 & -> & L0 & ->). exists l0, v, l1. split; [reflexivity|]. split; [exact Hh|].
    rewrite nth_error_map', <- LP, <- L0, nth_error_app2, Nat.sub_diag in Hx by lia. cbn in Hx. congruence.
Qed.
Lemma range_live s before c evs l t R O t' R' O' e : rstep s before c evs l t R O t' R' O' -> In e evs -> registered a (ev_seg e) /\ (key (start_y a (ev_seg e)) <= key (sw_y s) <= key (end_y a (ev_seg e)))%Z.
Proof.
  intros RS He. pose proof (rs_line _ _ _ _ _ _ _ _ _ _ _ _ _ _ _ _ _ _ _ RS) as TL. pose proof (rs_rep _ _ _ _ _ _ _ _ _ _ _ _ _ _ _ _ _ _ _ RS) as REP.
  assert (X : In (ev_seg e) (map ev_seg evs)) by (apply in_map, He). rewrite (rr_segs _ _ _ _ REP) in X. apply in_app_iff in X. pose proof (tl_y _ _ _ _ _ _ _ _ TL) as Ny. destruct X as [X|X].
  - assert (Y : In (ev_seg e) (members (sw_line s))). { unfold members in *. rewrite in_flat_map in *. destruct X as (f & Hf & X). exists f. split; [|exact X]. unfold range_entries in Hf. fold (piece (sw_line s) (st c) (en c)) in Hf. eapply in_piece_in, Hf. }
    apply (tl_all _ _ _ _ _ _ _ _ TL) in Y. destruct Y as (R1 & _ & L1 & L2). split; [exact R1|]. destruct (fle_nonnan _ _ L1). destruct (fle_nonnan _ _ L2). fk. zb. lia.
  - assert (Y : In (ev_seg e) (sw_horiz s)). { unfold range_horizontals in X. destruct (ci_hor c) as [[p q]|]; [|destruct X]. cbn [fst snd] in X. eapply (in_piece_in _ p q), X. }
    apply (tl_hor _ _ _ _ _ _ _ _ TL) in Y. destruct Y as (R1 & S1 & L1). split; [exact R1|]. destruct (sp_down _ SP _ (registered_lt _ SP _ R1)) as [D _].
    unfold slanted in S1. destruct (fle_nonnan _ _ D) as [N1 N2]. fk. zb. lia.
Qed.
Lemma nth_mid {A} (l m r : list A) k : k < length m -> nth_error (l ++ m ++ r) (length l + k) = nth_error m k.
Proof. intros L. rewrite nth_error_app2 by lia. replace (length l + k - length l) with k by lia. apply nth_error_app1, L. Qed.
(** Where the new output segments come from. *)
Lemma new_orig s before c evs l t R O t' R' O' l0 v l1 o : rstep s before c evs l t R O t' R' O' -> l = l0 ++ v :: l1 ->
  length (t_wind t) + length (vorig l0) <= o < length (t_wind t) + length (vorig l0) + length (vw_down v) + length (vw_out v) ->
  exists i e, nth_error (t_orig t') o = Some i /\ In e evs /\ ev_seg e = i.
Proof.
  intros RS EL L. destruct (rs_points _ _ _ _ _ _ _ _ _ _ _ RS) as (_ & _ & EO & _). pose proof (li_orig _ _ _ _ _ (proj1 (rs_ti _ _ _ _ _ _ _ _ _ _ _ _ _ _ _ _ _ _ _ RS))) as LO.
  pose proof (rs_views _ _ _ _ _ _ _ _ _ _ _ _ _ _ _ _ _ _ _ RS) as V.
  assert (Hv : In v l) by (rewrite EL; apply in_or_app; right; left; reflexivity).
  assert (X : nth_error (t_orig t') o = nth_error (vw_down v ++ map fst (vw_out v)) (o - length (t_wind t) - length (vorig l0))).
  { rewrite EO, EL, vorig_app, vorig_cons, app_assoc. replace o with (length (t_orig t ++ vorig l0) + (o - length (t_wind t) - length (vorig l0))) at 1 by (rewrite app_length; lia).
    apply nth_mid. rewrite app_length, map_length. lia. }
  destruct (nth_error (vw_down v ++ map fst (vw_out v)) (o - length (t_wind t) - length (vorig l0))) as [i|] eqn:E; [|apply nth_error_None in E; rewrite app_length, map_length in E; lia].
  exists i. apply nth_error_In, in_app_iff in E. destruct E as [E|E].
  - apply (down_in _ _ V v i Hv) in E. destruct E as (e & He & _ & _ & Q). exists e. auto.
  - destruct (out_seg _ _ V v i Hv E) as (e & He & Q). exists e. auto.
Qed.
Lemma last_outs_in N l0 o : In o (last_outs N [] l0) -> exists l2 u, l0 = l2 ++ [u] /\ N + length (vorig l2) + length (vw_down u) <= o < N + length (vorig l2) + length (vw_down u) + length (vw_out u).
Proof.
  destruct (last_case l0) as [->|(l2 & u & ->)]; [intros []|]. rewrite last_outs_snoc. intros H. apply in_seq in H. exists l2, u. split; [reflexivity|lia].
Qed.
(** Segments from above. *)
Lemma up_open s before c evs l t R O t' R' O' v i : rstep s before c evs l t R O t' R' O' -> In v l -> In i (vw_up v) ->
  exists o e, O i = Some o /\ o < length (t_wind t) /\ nth_error (t_orig t) o = Some i /\ In e evs /\ ev_seg e = i /\ ev_above e = true /\ In i (old_segs (piece before (st c) (en c))).
Proof.
  intros RS Hv Hi. pose proof (rs_views _ _ _ _ _ _ _ _ _ _ _ _ _ _ _ _ _ _ _ RS) as V. apply (up_in _ _ V v i Hv) in Hi. destruct Hi as (e & He & A & _ & E).
  assert (X : In i (old_segs (piece before (st c) (en c)))). { eapply old_piece; [apply RS|apply RS|]. eapply above_iff; [apply RS|apply RS|]. eauto. }
  assert (Y : O i <> None). { eapply (rs_open _ _ _ _ _ _ _ _ _ _ _ _ _ _ _ _ _ _ _ RS). erewrite mixed_start; [|apply RS|apply RS]. apply in_or_app. right. apply in_or_app. left. exact X. }
  destruct (O i) as [o|] eqn:EO; [|contradiction]. destruct (li_own _ _ _ _ _ (proj1 (rs_ti _ _ _ _ _ _ _ _ _ _ _ _ _ _ _ _ _ _ _ RS)) i o (or_intror (or_introl EO))) as [_ Q].
  exists o, e. split; [reflexivity|]. split; [eapply LI_own_lt; [apply RS|right; left; exact EO]|auto].
Qed.

Lemma ends_range s before c evs l t R O t' R' O' : rstep s before c evs l t R O t' R' O' -> ends s before (st c) t R O -> ends s before (en c) t' R' O'.
Proof.
  intros RS [E1 E2 E3 E4]. destruct (rs_points _ _ _ _ _ _ _ _ _ _ _ RS) as (EP & EW & EO & _). pose proof (rs_views _ _ _ _ _ _ _ _ _ _ _ _ _ _ _ _ _ _ _ RS) as V.
  pose proof (rs_ti' _ _ _ _ _ _ _ _ _ _ _ _ _ _ _ _ _ _ _ RS) as I'. pose proof (rs_ti _ _ _ _ _ _ _ _ _ _ _ _ _ _ _ _ _ _ _ RS) as I. pose proof (rs_line _ _ _ _ _ _ _ _ _ _ _ _ _ _ _ _ _ _ _ RS) as TL.
  set (N := length (t_wind t)) in *.
  assert (UPN : forall v o, In v l -> In o (map (val O) (vw_up v)) -> exists i, In i (vw_up v) /\ O i = Some o /\ o < N).
  { intros v o Hv Ho. apply in_map_iff in Ho. destruct Ho as (i & Q & Hi). destruct (up_open _ _ _ _ _ _ _ _ _ _ _ v i RS Hv Hi) as (o' & e & A1 & A2 & _). exists i. unfold val in Q. rewrite A1 in Q. subst o'. auto. }
  assert (OLDN : forall i o, O i = Some o -> o < N) by (intros i o Q; eapply LI_own_lt; [apply I|right; left; exact Q]).
  constructor.
  - rewrite EP. apply Forall_app. split; [exact E1|]. apply Forall_map, Forall_forall. intros v Hv. split; cbn; [apply (view_num _ _ V v Hv)|apply (tl_y _ _ _ _ _ _ _ _ TL)].
  - intros o x y Hx Hy. apply (vertex_cases _ _ _ _ _ _ _ _ _ _ _ _ _ RS) in Hx, Hy. fold N in Hx, Hy. cbn [first_half second_half h_idx] in Hx, Hy.
    destruct Hx as [[Hx Lo]|(l0 & v & l1 & EL & Hh & ->)]; destruct Hy as [[Hy Lo']|(m0 & u & m1 & EM & Hk & ->)].
    + eapply E2; eassumption.
    + apply vring_second in Hk. destruct Hk as [Hk|Hk]; [apply last_outs_in in Hk; destruct Hk as (l2 & w & _ & Q); lia|].
      assert (Hu : In u l) by (rewrite EM; apply in_or_app; right; left; reflexivity). destruct (UPN u o Hu Hk) as (i & Hi & EI & _).
      left. cbn [py]. apply (E3 i o x EI Hx). destruct (up_open _ _ _ _ _ _ _ _ _ _ _ u i RS Hu Hi) as (_ & _ & _ & _ & _ & _ & _ & _ & Q). rewrite (skipn_piece before (st c) (en c)), old_segs_app by (apply (tl_bounds _ _ _ _ _ _ _ _ TL), RS).
      apply in_or_app. left. exact Q.
    + apply vring_first in Hh. lia.
    + apply vring_first in Hh. apply vring_second in Hk. assert (Hu : In u l) by (rewrite EM; apply in_or_app; right; left; reflexivity).
      destruct Hk as [Hk|Hk]; [|destruct (UPN u o Hu Hk) as (i & _ & _ & Q); lia]. apply last_outs_in in Hk. destruct Hk as (l2 & w & -> & Q). right. cbn [py px]. split; [reflexivity|].
      (* [o] starts at [w], the position before [u] *)
      assert (LEN : length l0 = length l2).
      { pose proof (f_equal (@length _) EL) as LL. destruct (lt_eq_lt_dec (length l0) (length l2)) as [[Q1|Q1]|Q1]; [exfalso|exact Q1|exfalso].
        - assert (P : exists m, l2 = l0 ++ v :: m). { rewrite EL, <- app_assoc in EM. clear - EM Q1. revert l2 EM Q1. induction l0 as [|z l0 IH]; intros [|z' l2] EM Q1; cbn in *; try lia; injection EM as -> EM; [eauto|]. destruct (IH l2 EM) as [m ->]; [lia|]. eauto. }
          destruct P as [m ->]. rewrite vorig_app, app_length, vorig_len in Q. lia.
        - assert (P : exists m, l0 = l2 ++ w :: m). { rewrite EL, <- app_assoc in EM. clear - EM Q1. revert l0 EM Q1. induction l2 as [|z l2 IH]; intros [|z' l0] EM Q1; cbn in *; try lia; injection EM as -> EM; [eauto|]. destruct (IH l0 EM) as [m ->]; [lia|]. eauto. }
          destruct P as [m ->]. rewrite vorig_app, app_length, vorig_len in Hh. lia. }
      assert (w = v). { rewrite EL, <- app_assoc in EM. clear - EM LEN. revert l2 EM LEN. induction l0 as [|z l0 IH]; intros [|z' l2] EM LEN; cbn in *; try discriminate; injection EM as -> EM; [congruence|]. apply (IH l2 EM). lia. }
      subst w. pose proof (vo_sorted _ _ V)  as SO. refine (sorted_nth _ _ SO (length l2) (S (length l2)) _ _ _ _ _); [lia| |]; rewrite nth_error_map', EM, <- app_assoc.
      * rewrite nth_error_app2, Nat.sub_diag by lia. reflexivity.
      * rewrite nth_error_app2 by lia. replace (S (length l2) - length l2) with 1 by lia. reflexivity.
  - intros i o x HO Hx. rewrite (rs_O _ _ _ _ _ _ _ _ _ _ _ _ _ _ _ _ _ _ _ RS) in HO. unfold reopen in HO. apply (vertex_cases _ _ _ _ _ _ _ _ _ _ _ _ _ RS) in Hx. fold N in Hx. cbn [first_half h_idx] in Hx.
    destruct (memn i (map ev_seg evs)) eqn:M.
    + apply memn_spec in M. assert (NR : ~ In i (old_segs (skipn (en c) before))) by (intros X; eapply (right_not_segs a tag) in M; [exact M|exact TAG|exact ORI|apply RS|apply RS|apply RS|exact X]). split; [|contradiction].
      destruct Hx as [[Hx Lo]|(l0 & v & l1 & EL & _ & ->)]; [exfalso|cbn; lia]. apply assoc_in, in_combine_r in HO. unfold odowns in HO. apply in_concat in HO. destruct HO as (u & Hu & Ho). apply in_map_iff in Hu. destruct Hu as (rec & <- & Hr).
      apply In_nth_error in Hr. destruct Hr as [k Hr]. destruct (vrecs_at _ _ _ _ _ _ Hr) as (l0 & v & l1 & _ & _ & ->). cbn in Ho. apply in_seq in Ho. fold N in Ho. lia.
    + destruct Hx as [[Hx Lo]|(l0 & v & l1 & EL & Hh & ->)]; [|apply vring_first in Hh; pose proof (OLDN i o HO); lia]. destruct (E3 i o x HO Hx) as [A B]. split; [exact A|]. intros X. apply B.
      rewrite (skipn_piece before (st c) (en c)), old_segs_app by (apply (tl_bounds _ _ _ _ _ _ _ _ TL), RS). apply in_or_app. right. exact X.
  - intros h x i Hx HI. apply (vertex_cases _ _ _ _ _ _ _ _ _ _ _ _ _ RS) in Hx. fold N in Hx. destruct Hx as [[Hx Lo]|(l0 & v & l1 & EL & Hh & ->)].
    + apply (E4 h x i Hx). rewrite <- HI, EO. symmetry. apply nth_error_app1. rewrite (li_orig _ _ _ _ _ (proj1 I)). exact Lo.
    + cbn [py]. assert (X : exists e, In e evs /\ ev_seg e = i); [|destruct X as (e & He & <-); eapply range_live; eassumption].
      assert (Hv : In v l) by (rewrite EL; apply in_or_app; right; left; reflexivity).
      destruct h as [o [|]]; cbn [h_idx] in HI.
      * apply (vring_first N O [] l0 v o) in Hh. destruct (new_orig _ _ _ _ _ _ _ _ _ _ _ l0 v l1 o RS EL Hh) as (i' & e & Q & He & E). exists e. split; [exact He|congruence].
      * apply (vring_second N O [] l0 v o) in Hh. destruct Hh as [Hh|Hh].
        -- apply last_outs_in in Hh. destruct Hh as (l2 & w & -> & Q). rewrite <- app_assoc in EL. destruct (new_orig _ _ _ _ _ _ _ _ _ _ _ l2 w (v :: l1) o RS EL) as (i' & e & Q' & He & E); [unfold N in Q; lia|]. exists e. split; [exact He|congruence].
        -- apply in_map_iff in Hh. destruct Hh as (i' & Q & Hi'). destruct (up_open _ _ _ _ _ _ _ _ _ _ _ v i' RS Hv Hi') as (o' & e & A1 & A2 & A3 & He & A5 & _). unfold val in Q. rewrite A1 in Q. subst o'. exists e. split; [exact He|].
           rewrite EO, nth_error_app1 in HI by (rewrite (li_orig _ _ _ _ _ (proj1 I)); exact A2). congruence.
Qed.
Lemma ends_gap s before p q t R O : p <= q -> ends s before p t R O -> ends s before q t R O.
Proof.
  intros L []. constructor; try assumption. intros i o x HO Hx. destruct (en_open0 i o x HO Hx) as [A B]. split; [exact A|]. intros X. apply B. rewrite (skipn_piece before p q L), old_segs_app. apply in_or_app. right. exact X.
Qed.
Lemma ends_line s before s' before' t R O pos : (key (sw_y s) < key (sw_y s'))%Z -> ends s before pos t R O -> ends s' before' 0 t R O.
Proof. intros K []. constructor; try assumption. intros i o x HO Hx. destruct (en_open0 i o x HO Hx) as [A B]. split; [|intros _]; lia. Qed.
End Ends.
