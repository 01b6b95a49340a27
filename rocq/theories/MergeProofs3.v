(** Merging coincident segments: the whole loop, from the arrangement of the output segments before it. *)
From Coq Require Import List Bool ZArith Arith Lia Permutation Sorted.
From Verif Require Import F64 F64Arith TreeVecModel GeomModel SegmentsModel SegmentsSpec SegmentsProofs SweepModel RangeModel TopoModel TopoSpec TopoProofs TopoProofs2 TopoProofs4 TopoProofs7 TopoProofs9 TopoProofs10 WindSpec WindProofs MergeSpec MergeProofs MergeProofs2.
Import ListNotations.

Section Loop.
Context {W T : Type}.
Variable ops : wops W T.
Variable close : nat -> nat -> f64 -> f64 -> bool.
Hypothesis EQ : forall u v, w_eqb ops u v = true <-> u = v.
Implicit Types t : topo W.
Variable t0 : topo W.
Variable V : list corner.
Notation n := (length (t_wind t0)).
Notation R0 := (map cring V).
Notation nowt := (now R0).

Record premerge : Prop := {
  pm_rings : rings t0 (fun h => h_idx h < n) R0;
  pm_laid : laid 0 [] V n;
  pm_del : t_deleted t0 = repeat false n;
  pm_nbrs : length (t_nbrs t0) = n;
  pm_lwest : length (t_west t0) = n;
  pm_lorig : length (t_orig t0) = n;
  pm_agree : Forall (fun r => Forall (agree t0) (cyclic r)) R0;
  pm_diff : forall o p, nth_error (t_wind t0) o = Some p -> wn_cw p <> wn_ccw p;
  pm_slant : forall v o x y, In v V -> In o (co_down v) -> ends_at t0 (first_half o) x -> ends_at t0 (second_half o) y -> fne (py x) (py y) = true;
  pm_flat : forall v o x y, In v V -> In o (co_out v) -> ends_at t0 (first_half o) x -> ends_at t0 (second_half o) y -> fne (py x) (py y) = false;
  pm_lt : forall o x y, ends_at t0 (first_half o) x -> ends_at t0 (second_half o) y -> klt x y;
  pm_west : forall o w, nth_error (t_west t0) o = Some (Some w) -> w < o;
  pm_next : forall v o, In v V -> In o (co_down v) -> In (S o) (co_down v) -> nth_error (t_west t0) (S o) = Some (Some o);
  pm_safe : forall v o x y i j p r, In v V -> In o (co_down v) -> In (S o) (co_down v) -> pt t0 (second_half o) = pt t0 (second_half (S o)) ->
    ends_at t0 (first_half o) x -> ends_at t0 (second_half o) y -> nth_error (t_orig t0) o = Some i -> nth_error (t_orig t0) (S o) = Some j ->
    close j i (py x) (py y) = true -> nth_error R0 p = Some r -> In (second_half o) r -> In (second_half o, second_half (S o)) (cyclic r) }.
Hypothesis PM : premerge.

Record sound t : Prop := {
  so_frame : frame t0 t;
  so_rings : rings t (present t) (nowt t);
  so_agree : Forall (fun r => Forall (agree t) (cyclic r)) (nowt t) }.
Definition future t o : Prop := forall k, o <= k < n -> nth_error (t_deleted t) k = Some false /\ nth_error (t_wind t) k = nth_error (t_wind t0) k.
Definition grouped t o (G : list (list nat)) : Prop := concat G = seq 0 o /\ Forall (merged t0 t) G.
Definition thin t o : Prop := forall v i j, In v V -> In i (co_out v) -> In j (co_out v) -> i < o -> j < o -> remains t i -> remains t j -> i = j.
(** No two western neighbours that were found coincident both remain. *)
Definition twins v k : Prop := In k (co_down v) /\ In (S k) (co_down v) /\ pt t0 (second_half k) = pt t0 (second_half (S k)) /\
  exists x y i j, ends_at t0 (first_half k) x /\ ends_at t0 (second_half k) y /\ nth_error (t_orig t0) k = Some i /\ nth_error (t_orig t0) (S k) = Some j /\ close j i (py x) (py y) = true.
Definition tight t o : Prop := forall v k, In v V -> twins v k -> S k < o -> remains t k -> remains t (S k) -> False.

(** *** Basic facts *)
Lemma frame_pt t h : frame t0 t -> pt t h = pt t0 h.
Proof. intros F. unfold pt. rewrite (fr_pidx _ _ F). reflexivity. Qed.
Lemma frame_ends t h x : frame t0 t -> ends_at t h x <-> ends_at t0 h x.
Proof. intros F. unfold ends_at. rewrite (frame_pt t h F), (fr_points _ _ F). tauto. Qed.
Lemma half_cases (h : half) : h = first_half (h_idx h) \/ h = second_half (h_idx h).
Proof. destruct h as [i [|]]; [left|right]; reflexivity. Qed.
Lemma all_ends o b : o < n -> exists p v x, nth_error V p = Some v /\ In (mkHalf o b) (cring v) /\ pt t0 (mkHalf o b) = Some p /\ nth_error (t_points t0) p = Some x.
Proof.
  intros L. pose proof (pm_rings PM) as [A1 A2 A3 A4 A5]. assert (I : In (mkHalf o b) (concat R0)) by (apply A3; exact L). apply in_concat in I. destruct I as (r & I1 & I2).
  apply In_nth_error in I1. destruct I1 as [p P]. rewrite nth_error_map in P. destruct (nth_error V p) as [v|] eqn:E; [|discriminate]. injection P as <-.
  assert (P : nth_error R0 p = Some (cring v)) by (rewrite nth_error_map, E; reflexivity). exists p, v.
  destruct (nth_error (t_points t0) p) as [x|] eqn:X; [|exfalso; apply nth_error_None in X; rewrite <- A1, map_length in X; assert (p < length V) by (apply nth_error_Some; congruence); lia].
  exists x. repeat split; try assumption. eapply A4; eassumption.
Qed.
Lemma ends_ex o b : o < n -> exists p x, pt t0 (mkHalf o b) = Some p /\ nth_error (t_points t0) p = Some x /\ ends_at t0 (mkHalf o b) x.
Proof. intros L. destruct (all_ends o b L) as (p & v & x & A & B & C & D). exists p, x. repeat split; try assumption. unfold ends_at. exists p. auto. Qed.
Lemma ring_at t p v : nth_error V p = Some v -> nth_error (nowt t) p = Some (filter (aliveb t) (cring v)).
Proof. intros E. unfold now. rewrite !nth_error_map, E. reflexivity. Qed.
Lemma pt_at p v h : nth_error V p = Some v -> In h (cring v) -> pt t0 h = Some p /\ h_idx h < n.
Proof.
  intros E I. pose proof (pm_rings PM) as [A1 A2 A3 A4 A5]. assert (P : nth_error R0 p = Some (cring v)) by (rewrite nth_error_map, E; reflexivity). split; [eapply A4; eassumption|].
  apply A3. apply in_concat. exists (cring v). split; [|exact I]. eapply nth_error_In; exact P.
Qed.
Lemma rings_nodup t live R p r : rings t live R -> nth_error R p = Some r -> NoDup r.
Proof.
  intros [_ ND _ _ _] E. apply nth_error_split in E. destruct E as (l1 & l2 & -> & _). rewrite concat_app in ND. cbn in ND. apply TopoProofs.nodup_app in ND. destruct ND as (_ & ND & _). apply TopoProofs.nodup_app in ND. apply ND.
Qed.
Lemma cyclic_succ {A} (r : list A) u : In u r -> exists v, In (u, v) (cyclic r).
Proof.
  intros I. apply in_split in I. destruct I as (l & m & ->). destruct m as [|v m].
  - destruct l as [|v l]; [exists u; left; reflexivity|]. exists v. cbn [app]. apply cyclic_wrap.
  - exists v. apply cyclic_two.
Qed.
Lemma rings_cw t live R h : rings t live R -> live h -> exists p r k, nth_error R p = Some r /\ In (h, k) (cyclic r) /\ cw t h = Some k /\ pt t h = Some p.
Proof.
  intros RI L. pose proof RI as [A1 A2 A3 A4 A5]. apply A3 in L. apply in_concat in L. destruct L as (r & I1 & I2). apply In_nth_error in I1. destruct I1 as [p P].
  destruct (cyclic_succ r h I2) as [k K]. exists p, r, k. split; [exact P|]. split; [exact K|]. split; [|eapply A4; eassumption]. specialize (A5 p r P). rewrite Forall_forall in A5. apply (A5 _ K).
Qed.
Lemma first_not_second o : o < n -> pt t0 (first_half o) <> pt t0 (second_half o).
Proof.
  intros L E. destruct (ends_ex o true L) as (p & x & P & X & E1), (ends_ex o false L) as (q & y & Q & Y & E2). change (mkHalf o true) with (first_half o) in *. change (mkHalf o false) with (second_half o) in *.
  assert (p = q) by congruence. subst q. assert (x = y) by congruence. subst y. pose proof (pm_lt PM o x x E1 E2) as K. unfold klt in K. lia.
Qed.

(** *** One merge *)
Lemma merge_pair t o m wo wm q r : sound t -> nth_error (t_deleted t) o = Some false -> nth_error (t_deleted t) m = Some false -> o <> m -> o < n ->
  nth_error (t_wind t) o = Some wo -> nth_error (t_wind t) m = Some wm -> cw t (first_half o) = Some (first_half m) ->
  nth_error (nowt t) q = Some r -> In (second_half m, second_half o) (cyclic r) ->
  wn_cw wo = wn_ccw wm /\
  exists t', merge_into ops o m t = Ok t' /\ sound t' /\
    (forall k, k <> m -> nth_error (t_wind t') k = nth_error (t_wind t) k) /\ nth_error (t_wind t') m = Some (mkWp (wn_ccw wo) (wn_cw wm)) /\
    ((wn_ccw wo = wn_cw wm /\ (forall k, nth_error (t_deleted t') k = if (k =? o) || (k =? m) then Some true else nth_error (t_deleted t) k)) \/
     (wn_ccw wo <> wn_cw wm /\ (forall k, nth_error (t_deleted t') k = if k =? o then Some true else nth_error (t_deleted t) k))).
Proof.
  intros [FR RI AG] D1 D2 NE Lo W1 W2 CW Q SEC. pose proof RI as [A1 A2 A3 A4 A5].
  destruct (rings_cw t _ _ (first_half o) RI D1) as (p & rp & k & P & K & CK & PP). assert (k = first_half m) by congruence. subst k.
  assert (EQ1 : wn_cw wo = wn_ccw wm).
  { rewrite Forall_forall in AG. specialize (AG rp (nth_error_In _ _ P)). rewrite Forall_forall in AG. destruct (AG _ K) as (x & X1 & X2). unfold winding_cw, winding_ccw in *. cbn in *. rewrite W1 in X1. rewrite W2 in X2. cbn in *. congruence. }
  split; [exact EQ1|].
  assert (LN : length (t_nbrs t) = length (t_deleted t)) by (rewrite (fr_nbrs _ _ FR), (fr_del _ _ FR), (pm_nbrs PM), (pm_del PM), repeat_length; reflexivity).
  destruct (merge_into_spec ops close R0 t o m wo wm RI LN D1 D2 NE W1 W2) as (t' & E & F' & RI' & WN & WM & DL). exists t'. split; [exact E|].
  assert (MG : forall r', In r' (nowt t) -> Forall (agree t') (cyclic (without_seg o r'))).
  { intros r' I. assert (ND : NoDup r') by (apply In_nth_error in I; destruct I as [i I]; exact (rings_nodup _ _ _ _ _ RI I)).
    assert (UN : forall h p1 r1 p2 r2, nth_error (nowt t) p1 = Some r1 -> nth_error (nowt t) p2 = Some r2 -> In h r1 -> In h r2 -> r1 = r2).
    { intros h p1 r1 p2 r2 E1 E2 I1 I2. assert (pt t h = Some p1) by (eapply A4; eassumption). assert (pt t h = Some p2) by (eapply A4; eassumption). congruence. }
    apply In_nth_error in I. destruct I as [i I].
    eapply agree_merge; [exact ND| |exact NE|exact W1|exact W2|exact WM|exact WN| | |].
    - rewrite Forall_forall in AG. apply AG. eapply nth_error_In; exact I.
    - destruct (cyclic_mem _ _ _ K) as [K1 K2]. intros [H|H]; [rewrite (UN _ _ _ _ _ I P H K1)|rewrite (UN _ _ _ _ _ I P H K2)]; exact K.
    - destruct (cyclic_mem _ _ _ SEC) as [K1 K2]. intros [H|H]; [rewrite (UN _ _ _ _ _ I Q H K2)|rewrite (UN _ _ _ _ _ I Q H K1)]; exact SEC.
    - intros H1 H2. pose proof (A4 _ _ _ I H1) as X1. pose proof (A4 _ _ _ I H2) as X2. rewrite (frame_pt t _ FR) in X1. rewrite (frame_pt t _ FR) in X2. apply (first_not_second o Lo). congruence. }
  assert (ND' : forall r', In r' (nowt t) -> NoDup (without_seg o r')).
  { intros r' I. apply In_nth_error in I. destruct I as [i I]. unfold without_seg. apply without_nodup, without_nodup. exact (rings_nodup _ _ _ _ _ RI I). }
  assert (IN : forall r', In r' (nowt t') -> exists r1, In (filter (aliveb t) r1) (nowt t) /\ r' = filter (aliveb t') r1).
  { intros r' I. unfold now in *. apply in_map_iff in I. destruct I as (r1 & <- & I). exists r1. split; [apply in_map_iff; exists r1; auto|reflexivity]. }
  destruct (w_eqb ops (wn_ccw wo) (wn_cw wm)) eqn:EB; destruct DL as [DL1 DL2].
  - apply EQ in EB. split; [|split; [exact WN|split; [exact WM|left; split; [exact EB|exact DL1]]]].
    constructor; [eapply frame_trans; eassumption|exact RI'|]. apply Forall_forall. intros r' I. destruct (IN r' I) as (r1 & I1 & ->). rewrite DL2. eapply agree_drop_seg; [apply ND'; exact I1|apply MG; exact I1|]. rewrite WM, EB. reflexivity.
  - assert (NB : wn_ccw wo <> wn_cw wm) by (intros X; apply EQ in X; congruence). split; [|split; [exact WN|split; [exact WM|right; split; [exact NB|exact DL1]]]].
    constructor; [eapply frame_trans; eassumption|exact RI'|]. apply Forall_forall. intros r' I. destruct (IN r' I) as (r1 & I1 & ->). rewrite DL2. apply MG; exact I1.
Qed.

(** *** Groups *)
Lemma merged_same t t' g : (forall k, In k g -> nth_error (t_deleted t') k = nth_error (t_deleted t) k) -> (forall k, In k g -> nth_error (t_wind t') k = nth_error (t_wind t) k) -> merged t0 t g -> merged t0 t' g.
Proof.
  intros HD HW (o & r & w & u & -> & A & B & C & D). exists o, r, w, u. split; [reflexivity|]. split; [exact A|]. split; [exact B|]. unfold removed, remains in *. split; [intros i I; rewrite HD by (right; exact I); apply C, I|].
  rewrite HD, HW by (left; reflexivity). exact D.
Qed.
Lemma across_app l m : forall w u, across t0 w (l ++ m) u <-> exists v, across t0 w l v /\ across t0 v m u.
Proof.
  induction l as [|o l IH]; intros w u; cbn; [split; [intros H; exists w; auto|intros (v & -> & H); exact H]|]. split.
  - intros (p & H1 & H2 & H3). apply IH in H3. destruct H3 as (v & H3 & H4). exists v. split; [exists p; auto|exact H4].
  - intros (v & (p & H1 & H2 & H3) & H4). exists p. split; [exact H1|]. split; [exact H2|]. apply IH. exists v. auto.
Qed.
Lemma across_wchain w l u : across t0 w l u <-> wchain (t_wind t0) w l u.
Proof. revert w. induction l as [|o l IH]; intros w; cbn; [tauto|]. split; intros (p & A & B & C); exists p; (split; [exact A|]); (split; [exact B|]); apply IH; exact C. Qed.
Lemma merged_grow t t' m r o wo wm : merged t0 t (m :: r) -> remains t m -> ~ In o (m :: r) -> NoDup (m :: r) -> same_ends t0 m o ->
  nth_error (t_wind t0) o = Some wo -> nth_error (t_wind t) m = Some wm -> wn_cw wo = wn_ccw wm ->
  (forall k, k <> m -> nth_error (t_wind t') k = nth_error (t_wind t) k) -> nth_error (t_wind t') m = Some (mkWp (wn_ccw wo) (wn_cw wm)) ->
  ((wn_ccw wo = wn_cw wm /\ (forall k, nth_error (t_deleted t') k = if (k =? o) || (k =? m) then Some true else nth_error (t_deleted t) k)) \/
   (wn_ccw wo <> wn_cw wm /\ (forall k, nth_error (t_deleted t') k = if k =? o then Some true else nth_error (t_deleted t) k))) ->
  merged t0 t' (m :: r ++ [o]).
Proof.
  intros (x & r' & w & u & E & A & B & C & D) RM NI ND SE W1 W2 EW WN WM DL. injection E as <- <-. destruct D as [[_ D]|(D1 & D2 & D3)]; [unfold removed, remains in *; congruence|].
  assert (wm = mkWp u w) by congruence. subst wm. cbn [wn_cw wn_ccw] in *. inversion ND as [|? ? ND1 ND2]; subst. assert (om : o <> m) by (intros ->; apply NI; left; reflexivity).
  assert (DEAD : forall i, In i (r ++ [o]) -> removed t' i).
  { intros i I. unfold removed in *. apply in_app_iff in I. destruct DL as [[_ DL]|[_ DL]]; rewrite DL; destruct (Nat.eqb_spec i o) as [->|No]; cbn [orb]; try reflexivity; destruct I as [I|[->|[]]]; try contradiction; try (apply C; exact I).
    destruct (i =? m); [reflexivity|apply C, I]. }
  exists m, (r ++ [o]), w, (wn_ccw wo). split; [reflexivity|]. split; [|split; [|split; [exact DEAD|]]].
  - change (m :: r ++ [o]) with ((m :: r) ++ [o]). apply across_app. exists (wn_cw wo). split; [exact A|]. cbn. exists wo. auto.
  - intros i [->|I]; [apply B; left; reflexivity|]. apply in_app_iff in I. destruct I as [I|[->|[]]]; [apply B; right; exact I|exact SE].
  - unfold removed, remains in *. destruct DL as [[E1 DL]|[E1 DL]]; [left|right].
    + split; [congruence|]. rewrite DL, Nat.eqb_refl, orb_true_r. reflexivity.
    + split; [congruence|]. rewrite DL, (proj2 (Nat.eqb_neq m o)) by congruence. split; [exact D2|exact WM].
Qed.
Lemma merged_single t o wo : nth_error (t_deleted t) o = Some false -> nth_error (t_wind t) o = nth_error (t_wind t0) o -> nth_error (t_wind t0) o = Some wo -> merged t0 t [o].
Proof.
  intros D E E0. exists o, [], (wn_cw wo), (wn_ccw wo). split; [reflexivity|]. split; [cbn; exists wo; auto|]. split; [intros i [->|[]]; split; reflexivity|]. split; [intros i []|]. right.
  split; [apply (pm_diff PM o wo E0)|]. split; [exact D|]. rewrite E, E0. destruct wo; reflexivity.
Qed.
Lemma grouped_skip t o G : future t o -> o < n -> grouped t o G -> grouped t (S o) (G ++ [[o]]).
Proof.
  intros F L [A B]. split; [rewrite concat_app, A; cbn [concat app]; rewrite seq_S; reflexivity|]. apply Forall_app. split; [exact B|]. constructor; [|constructor].
  destruct (F o) as [F1 F2]; [lia|]. destruct (nth_error (t_wind t0) o) as [wo|] eqn:E; [|apply nth_error_None in E; lia]. eapply merged_single; [exact F1|congruence|exact E].
Qed.
Lemma future_S t o : future t o -> future t (S o).
Proof. intros F k L. apply F. lia. Qed.

(** The merge of [o] into the head of the last group. *)
Lemma grouped_merge t o G m r q rq : sound t -> future t o -> o < n -> grouped t o (G ++ [m :: r]) -> remains t m -> cw t (first_half o) = Some (first_half m) -> same_ends t0 m o ->
  nth_error (nowt t) q = Some rq -> In (second_half m, second_half o) (cyclic rq) ->
  exists t', merge_into ops o m t = Ok t' /\ sound t' /\ future t' (S o) /\ grouped t' (S o) (G ++ [m :: r ++ [o]]) /\ (forall k, k <> o -> k <> m -> nth_error (t_deleted t') k = nth_error (t_deleted t) k) /\ removed t' o.
Proof.
  intros SO FU L [GC GM] RM CW SE Q SEC. destruct (FU o) as [F1 F2]; [lia|]. destruct (nth_error (t_wind t0) o) as [wo|] eqn:Wo; [|apply nth_error_None in Wo; lia].
  assert (IM : In m (seq 0 o)) by (rewrite <- GC, concat_app; apply in_or_app; right; cbn; left; reflexivity). apply in_seq in IM.
  assert (Lm : m < length (t_wind t)) by (rewrite (fr_wind _ _ (so_frame _ SO)); lia). destruct (nth_error (t_wind t) m) as [wm|] eqn:Wm; [|apply nth_error_None in Wm; lia].
  destruct (merge_pair t o m wo wm q rq) as (EW & t' & E & SO' & WN & WM & DL); try assumption; [lia|].
  exists t'. split; [exact E|]. split; [exact SO'|].
  assert (DK : forall k, k <> o -> k <> m -> nth_error (t_deleted t') k = nth_error (t_deleted t) k).
  { intros k N1 N2. destruct DL as [[_ DL]|[_ DL]]; rewrite DL; rewrite (proj2 (Nat.eqb_neq k o)) by exact N1; rewrite ?(proj2 (Nat.eqb_neq k m)) by exact N2; reflexivity. }
  assert (ND : NoDup (concat (G ++ [m :: r]))) by (rewrite GC; apply seq_NoDup). rewrite concat_app in ND. cbn [concat] in ND. rewrite app_nil_r in ND. pose proof (proj1 (TopoProofs.nodup_app _ _) ND) as (ND1 & ND2 & ND3).
  assert (INS : forall k, In k (concat G ++ m :: r) -> k < o).
  { intros k I. assert (In k (seq 0 o)) by (rewrite <- GC, concat_app; cbn [concat]; rewrite app_nil_r; exact I). apply in_seq in H. lia. }
  apply Forall_app in GM. destruct GM as [GM1 GM2]. inversion GM2 as [|? ? GM3 _]; subst.
  split; [|split; [|split; [exact DK|]]].
  - intros k Hk. destruct (FU k) as [H1 H2]; [lia|]. rewrite DK, WN by lia. auto.
  - split.
    + rewrite concat_app in *. cbn [concat] in *. rewrite app_nil_r in *. change (m :: r ++ [o]) with ((m :: r) ++ [o]). rewrite app_assoc, GC, seq_S. reflexivity.
    + apply Forall_app. split.
      * rewrite Forall_forall in *. intros g Ig. apply (merged_same t t' g); [| |apply GM1, Ig]; intros k Ik; assert (IC : In k (concat G)) by (apply in_concat; exists g; auto);
          [apply DK|apply WN]; try (intros ->; apply (ND3 m IC); left; reflexivity); intros ->; pose proof (INS o (in_or_app _ _ _ (or_introl IC))); lia.
      * constructor; [|constructor]. eapply merged_grow; try eassumption. intros I. pose proof (INS o (in_or_app _ _ _ (or_intror I))). lia.
  - unfold removed. destruct DL as [[_ DL]|[_ DL]]; rewrite DL, Nat.eqb_refl; reflexivity.
Qed.

(** *** The order of the output segments *)
Lemma laid_at N oin V' M p v : laid N oin V' M -> nth_error V' p = Some v ->
  exists B, N <= B /\ co_down v = seq B (length (co_down v)) /\ co_out v = seq (B + length (co_down v)) (length (co_out v)) /\
    (forall v', nth_error V' (S p) = Some v' -> co_in v' = co_out v) /\ (nth_error V' (S p) = None -> co_out v = []).
Proof.
  revert N oin p. induction V' as [|v0 V' IH]; intros N oin p; [destruct p; discriminate|]. cbn [laid]. intros (A & B & C & D) E. destruct p as [|p].
  - cbn in E. injection E as <-. exists N. split; [lia|]. split; [exact B|]. split; [exact C|]. destruct V' as [|v1 V']; cbn in *; (split; [|]).
    + discriminate. + intros _. apply D. + intros v' X. injection X as <-. apply D. + discriminate.
  - destruct (IH _ _ p D E) as (B' & X1 & X2). exists B'. split; [lia|exact X2].
Qed.
Lemma in_cring h v : In h (cring v) <-> (exists o, In o (co_out v) /\ h = first_half o) \/ (exists o, In o (co_down v) /\ h = first_half o) \/ (exists o, (In o (co_in v) \/ In o (co_up v)) /\ h = second_half o).
Proof.
  unfold cring, ring_of. rewrite !in_app_iff, <- !in_rev, !in_map_iff. split.
  - intros [(o & <- & I)|[(o & <- & I)|[(o & <- & I)|(o & <- & I)]]]; [left; eauto|right; left; eauto|right; right; exists o; auto|right; right; exists o; auto].
  - intros [(o & I & ->)|[(o & I & ->)|(o & [I|I] & ->)]]; eauto 6.
Qed.
Lemma down_not_out p v p' v' o : nth_error V p = Some v -> nth_error V p' = Some v' -> In o (co_down v) -> In o (co_out v') -> False.
Proof.
  intros E E' I I'. destruct (pt_at p v (first_half o) E) as [P _]; [apply in_cring; right; left; eauto|]. destruct (pt_at p' v' (first_half o) E') as [P' _]; [apply in_cring; left; eauto|].
  assert (p = p') by congruence. subst p'. assert (v = v') by congruence. subst v'. destruct (laid_at _ _ _ _ _ _ (pm_laid PM) E) as (B & _ & X1 & X2 & _). rewrite X1 in I. rewrite X2 in I'. apply in_seq in I, I'. lia.
Qed.
Lemma at_p p v o b x : nth_error V p = Some v -> In (mkHalf o b) (cring v) -> nth_error (t_points t0) p = Some x -> ends_at t0 (mkHalf o b) x.
Proof. intros E I X. exists p. split; [apply (pt_at p v _ E I)|exact X]. Qed.
Lemma ends_fun h x y : ends_at t0 h x -> ends_at t0 h y -> x = y.
Proof. intros (p & A & B) (q & C & D). congruence. Qed.
Lemma klt_asym x y : klt x y -> klt y x -> False.
Proof. unfold klt. lia. Qed.

Lemma step_eval t o h x y : sound t -> o < n -> nth_error (t_deleted t) o = Some false -> cw t (first_half o) = Some h -> h_idx h < n ->
  ends_at t0 (first_half o) x -> ends_at t0 (second_half o) y ->
  exists w s1 s2, nth_error (t_west t0) o = Some w /\ nth_error (t_orig t0) o = Some s1 /\ nth_error (t_orig t0) (h_idx h) = Some s2 /\
  merge_one ops close t o =
    if opt_eqb (pt t0 (second_half o)) (pt t0 (other_half h)) && negb (fne (py x) (py y) && (negb (opt_eqb w (Some (h_idx h))) || negb (close s1 s2 (py x) (py y))))
    then if h_first h then merge_into ops o (h_idx h) t else Err EAssert
    else Ok t.
Proof.
  intros SO L D C Lh (p & P & X) (q & Q & Y). pose proof (so_frame _ SO) as FR.
  destruct (nth_error (t_west t0) o) as [w|] eqn:E1; [|apply nth_error_None in E1; rewrite (pm_lwest PM) in E1; lia].
  destruct (nth_error (t_orig t0) o) as [s1|] eqn:E2; [|apply nth_error_None in E2; rewrite (pm_lorig PM) in E2; lia].
  destruct (nth_error (t_orig t0) (h_idx h)) as [s2|] eqn:E3; [|apply nth_error_None in E3; rewrite (pm_lorig PM) in E3; lia].
  exists w, s1, s2. repeat (split; [reflexivity|]). rewrite Q. rewrite <- (frame_pt t (other_half h) FR). apply (merge_eval ops close t o h p q x y w s1 s2); try assumption.
  - rewrite (frame_pt t _ FR). exact P.
  - rewrite (frame_pt t _ FR). exact Q.
  - rewrite (fr_points _ _ FR). exact X.
  - rewrite (fr_points _ _ FR). exact Y.
  - destruct (ends_ex (h_idx h) (negb (h_first h)) Lh) as (r & z & R & _). unfold pt, other_half in *. rewrite (fr_pidx _ _ FR). destruct (hv_get (t_pidx t0) (mkHalf (h_idx h) (negb (h_first h)))); [discriminate|discriminate R].
  - rewrite (fr_west _ _ FR). exact E1.
  - rewrite (fr_orig _ _ FR). exact E2.
  - rewrite (fr_orig _ _ FR). exact E3.
Qed.
Lemma opt_eqb_spec x y : opt_eqb x y = true <-> x = y.
Proof. destruct x, y; cbn; rewrite ?Nat.eqb_eq; split; intros H; try discriminate; try reflexivity; congruence. Qed.
Lemma alive_in t h : aliveb t h = true -> frame t0 t -> h_idx h < n.
Proof. intros H F. apply alive_present in H. unfold present in H. assert (h_idx h < length (t_deleted t)) by (apply nth_error_Some; congruence). rewrite (fr_del _ _ F), (pm_del PM), repeat_length in H0. exact H0. Qed.

(** A segment that goes down. *)
Lemma last_group t o G k : grouped t o G -> o = S k -> remains t k -> exists G', G = G' ++ [[k]].
Proof.
  intros [A B] -> RM. rewrite seq_S in A. destruct (exists_last (l := G)) as (G' & g & ->).
  { intros ->. cbn in A. destruct (seq 0 k); discriminate. }
  exists G'. f_equal. f_equal. apply Forall_app in B. destruct B as [_ B]. inversion B as [|? ? M _]; subst. destruct M as (m & r & w & u & -> & _ & _ & DR & _).
  rewrite concat_app in A. cbn [concat] in A. rewrite app_nil_r in A. destruct r as [|r0 r] using rev_ind; [apply app_inj_tail in A; destruct A as [_ A]; cbn in A; congruence|].
  rewrite app_comm_cons, app_assoc in A. apply app_inj_tail in A. destruct A as [_ A]. cbn in A. subst r0. exfalso. specialize (DR k). unfold removed, remains in *. rewrite DR in RM; [discriminate|]. apply in_or_app. right. left. reflexivity.
Qed.
Lemma down_step t o p v G : nth_error V p = Some v -> In o (co_down v) -> sound t -> future t o -> grouped t o G -> thin t o -> tight t o ->
  exists t' G', merge_one ops close t o = Ok t' /\ sound t' /\ future t' (S o) /\ grouped t' (S o) G' /\ thin t' (S o) /\ tight t' (S o).
Proof.
  intros E I SO FU GR TH TI. pose proof (so_frame _ SO) as FR. pose proof (so_rings _ SO) as RI.
  assert (IF : In (first_half o) (cring v)) by (apply in_cring; right; left; eauto). destruct (pt_at p v _ E IF) as [PO L]. cbn in L. destruct (FU o) as [D Wo]; [lia|].
  destruct (rings_cw t _ _ (first_half o) RI D) as (p' & r & h & P & K & CH & PP). rewrite (frame_pt t _ FR) in PP. assert (p' = p) by congruence. subst p'. rewrite (ring_at t p v E) in P. injection P as <-.
  destruct (cyclic_mem _ _ _ K) as [_ IH]. apply filter_In in IH. destruct IH as [IH AH]. destruct (pt_at p v h E IH) as [PH Lh].
  destruct (ends_ex o true L) as (p1 & x & P1 & X1 & EX), (ends_ex o false L) as (q & y & Q & Y & EY). change (mkHalf o true) with (first_half o) in *. change (mkHalf o false) with (second_half o) in *.
  destruct (step_eval t o h x y SO L D CH Lh EX EY) as (w & s1 & s2 & E1 & E2 & E3 & ->).
  assert (SL : fne (py x) (py y) = true) by (eapply (pm_slant PM); [eapply nth_error_In; exact E|exact I|exact EX|exact EY]). rewrite SL. cbn [andb].
  assert (TW : forall k, o = S k -> twins v k -> remains t k -> h = first_half k /\ w = Some k /\ pt t0 (second_half o) = pt t0 (other_half h) /\ close s1 s2 (py x) (py y) = true).
  { intros k -> (Ik & _ & PS & x' & y' & i & j & X' & Y' & Ei & Ej & CL) RK. assert (Eh : h = first_half k).
    { assert (ND : NoDup (filter (aliveb t) (cring v))) by (eapply rings_nodup; [exact RI|apply ring_at, E]).
      apply (cyclic_next _ (first_half (S k)) h (first_half k) ND K). apply cyclic_filter; [|apply alive_present; exact D|apply alive_present; exact RK].
      destruct (laid_at _ _ _ _ _ _ (pm_laid PM) E) as (B & _ & B1 & _). pose proof I as I'. pose proof Ik as Ik'. rewrite B1 in I', Ik'. apply in_seq in I', Ik'.
      assert (QQ : exists l1 l2, co_down v = l1 ++ k :: S k :: l2).
      { rewrite B1. exists (seq B (k - B)), (seq (S (S k)) (B + length (co_down v) - S (S k))). replace (length (co_down v)) with ((k - B) + (2 + (B + length (co_down v) - S (S k)))) at 1 by lia. rewrite (seq_app (k - B)). replace (B + (k - B)) with k by lia. reflexivity. }
      destruct QQ as (l1 & l2 & QQ). unfold cring, ring_of. rewrite QQ, map_app, rev_app_distr. cbn [map rev]. rewrite <- !app_assoc. cbn [app]. rewrite app_assoc. apply cyclic_two. }
    assert (EX2 : x = x'). { destruct EX as (a1 & A1 & A2), X' as (a2 & A3 & A4). destruct (pt_at p v (first_half k) E) as [PK _]; [apply in_cring; right; left; eauto|]. assert (a1 = a2) by congruence. congruence. }
    assert (EY2 : y = y'). { destruct EY as (a1 & A1 & A2), Y' as (a2 & A3 & A4). assert (a1 = a2) by congruence. congruence. }
    split; [exact Eh|]. subst h x' y'. cbn [first_half h_idx] in E3. split; [|split].
    - pose proof (pm_next PM v k (nth_error_In _ _ E) Ik I) as NX. congruence.
    - symmetry. exact PS.
    - assert (s1 = j) by congruence. assert (s2 = i) by congruence. subst. exact CL. }
  assert (SKIP : ~ (pt t0 (second_half o) = pt t0 (other_half h) /\ w = Some (h_idx h) /\ close s1 s2 (py x) (py y) = true) -> exists t' G', Ok t = Ok t' /\ sound t' /\ future t' (S o) /\ grouped t' (S o) G' /\ thin t' (S o) /\ tight t' (S o)).
  { intros NOT. exists t, (G ++ [[o]]). split; [reflexivity|]. split; [exact SO|]. split; [apply future_S, FU|]. split; [apply grouped_skip; assumption|]. split.
    - intros v' i j Iv Ii Ij Li Lj. apply In_nth_error in Iv. destruct Iv as [p' Ev].
      assert (i <> o) by (intros ->; exact (down_not_out p v p' v' o E Ev I Ii)). assert (j <> o) by (intros ->; exact (down_not_out p v p' v' o E Ev I Ij)). apply (TH v' i j); try assumption; try lia. eapply nth_error_In; exact Ev.
    - intros v' k Iv T2 Lk R1 R2. destruct (Nat.eq_dec (S k) o) as [X|X]; [|exact (TI v' k Iv T2 ltac:(lia) R1 R2)]. subst o. apply NOT.
      assert (v' = v). { apply In_nth_error in Iv. destruct Iv as [p' Ev]. destruct (pt_at p' v' (first_half (S k)) Ev) as [P' _]; [apply in_cring; right; left; exists (S k); split; [apply T2|reflexivity]|]. assert (p' = p) by congruence. congruence. }
      subst v'. destruct (TW k eq_refl T2 R1) as (-> & -> & T3 & T4). auto. }
  destruct (opt_eqb (pt t0 (second_half o)) (pt t0 (other_half h))) eqn:EE; [|apply SKIP; intros (X & _); apply opt_eqb_spec in X; congruence].
  destruct (opt_eqb w (Some (h_idx h))) eqn:EW; [|apply SKIP; intros (_ & X & _); apply opt_eqb_spec in X; congruence]. destruct (close s1 s2 (py x) (py y)) eqn:EC; [|apply SKIP; intros (_ & _ & X); congruence]. cbn [negb orb andb]. clear SKIP TW.
  apply opt_eqb_spec in EE, EW. subst w. apply (pm_west PM) in E1 as Lw.
  assert (HF : exists k, h = first_half k /\ In k (co_down v)).
  { apply in_cring in IH. destruct IH as [(k & Ik & ->)|[(k & Ik & ->)|(k & _ & ->)]]; [|eauto|].
    - exfalso. cbn in Lw. destruct (laid_at _ _ _ _ _ _ (pm_laid PM) E) as (B & _ & B1 & B2 & _). rewrite B1 in I. rewrite B2 in Ik. apply in_seq in I, Ik. lia.
    - exfalso. apply (klt_asym x y); [apply (pm_lt PM o); assumption|]. apply (pm_lt PM k); [exists q; split; [cbn in EE; rewrite <- Q; symmetry; exact EE|exact Y]|exists p; split; [exact PH|congruence]]. }
  destruct HF as (k & -> & Ik). cbn [h_first h_idx first_half] in *. change (other_half (first_half k)) with (second_half k) in EE.
  assert (Ek : o = S k).
  { destruct (laid_at _ _ _ _ _ _ (pm_laid PM) E) as (B & _ & B1 & _). destruct (Nat.eq_dec o (S k)) as [X|X]; [exact X|exfalso]. pose proof I as I'. pose proof Ik as Ik'. rewrite B1 in I', Ik'. apply in_seq in I', Ik'.
    assert (Ip : In (o - 1) (co_down v)) by (rewrite B1; apply in_seq; lia). pose proof (pm_next PM v (o - 1) (nth_error_In _ _ E) Ip) as NX. replace (S (o - 1)) with o in NX by lia. specialize (NX I). rewrite E1 in NX. injection NX as NX. lia. }
  apply alive_present in AH. change (remains t k) in AH. destruct (last_group t o G k GR Ek AH) as (G' & ->).
  assert (SEC : exists q rq, nth_error (nowt t) q = Some rq /\ In (second_half k, second_half o) (cyclic rq)).
  { destruct (all_ends k false Lh) as (q' & v' & y' & V1 & V2 & V3 & V4). change (mkHalf k false) with (second_half k) in *. exists q', (filter (aliveb t) (cring v')). split; [apply ring_at, V1|].
    assert (y' = y) by congruence. subst y'. apply cyclic_filter; [|apply alive_present; exact AH|apply alive_present; exact D].
    subst o. eapply (pm_safe PM v k x y s2 s1); try eassumption; [eapply nth_error_In; exact E|congruence| |exists q'; auto|rewrite nth_error_map, V1; reflexivity].
    destruct EX as (p2 & Z1 & Z2). exists p2. split; [congruence|exact Z2]. }
  destruct SEC as (q' & rq & QR & SEC). destruct (grouped_merge t o G' k [] q' rq) as (t' & ME & SO' & FU' & GR' & DK & RO); try assumption.
  { split; [congruence|congruence]. }
  exists t', (G' ++ [k :: [] ++ [o]]). split; [exact ME|]. split; [exact SO'|]. split; [exact FU'|]. split; [exact GR'|]. split.
  2:{ intros v' m Iv T2 Lm R1 R2. assert (BACK : forall i, i <> o -> remains t' i -> remains t i). { intros i Ni Ri. destruct (Nat.eq_dec i k) as [->|Nk]; [exact AH|]. unfold remains in *. rewrite DK in Ri by assumption. exact Ri. }
      destruct (Nat.eq_dec (S m) o) as [X|X]; [unfold removed, remains in *; rewrite <- X in RO; congruence|]. apply (TI v' m Iv T2); [lia|apply BACK; [lia|exact R1]|apply BACK; [exact X|exact R2]]. }
  intros v' i j Iv Ii Ij Li Lj Ri Rj. pose proof Iv as Iv'. apply In_nth_error in Iv'. destruct Iv' as [p2 Ev].
  assert (i <> o) by (intros ->; exact (down_not_out p v p2 v' o E Ev I Ii)). assert (j <> o) by (intros ->; exact (down_not_out p v p2 v' o E Ev I Ij)). assert (i <> k) by (intros ->; exact (down_not_out p v p2 v' k E Ev Ik Ii)). assert (j <> k) by (intros ->; exact (down_not_out p v p2 v' k E Ev Ik Ij)).
  unfold remains in *. rewrite DK in Ri, Rj by assumption. apply (TH v' i j); try assumption; lia.
Qed.

(** *** The horizontals that leave a point *)
Definition others (v : corner) : list half := rev (map first_half (co_down v)) ++ map second_half (co_in v) ++ map second_half (co_up v).
Lemma cring_others v : cring v = rev (map first_half (co_out v)) ++ others v. Proof. reflexivity. Qed.
Lemma filter_none {A} (f : A -> bool) l : Forall (fun x => f x = false) l -> filter f l = [].
Proof. induction 1 as [|x l H _ IH]; cbn; [reflexivity|]. rewrite H. exact IH. Qed.
Lemma filter_every {A} (f : A -> bool) l : Forall (fun x => f x = true) l -> filter f l = l.
Proof. induction 1 as [|x l H _ IH]; cbn; [reflexivity|]. rewrite H, IH. reflexivity. Qed.
Lemma filter_one {A} (f : A -> bool) l m : NoDup l -> In m l -> f m = true -> (forall x, In x l -> f x = true -> x = m) -> filter f l = [m].
Proof.
  intros ND I F U. induction l as [|x l IH]; [contradiction|]. inversion ND as [|? ? N1 N2]; subst. cbn [filter]. destruct I as [->|I].
  - rewrite F. f_equal. apply filter_none. apply Forall_forall. intros x Ix. destruct (f x) eqn:E; [|reflexivity]. exfalso. apply N1. rewrite <- (U x (or_intror Ix) E). exact Ix.
  - destruct (f x) eqn:E; [exfalso; apply N1; rewrite (U x (or_introl eq_refl) E); exact I|]. apply IH; [exact N2|exact I|]. intros z Iz. apply U. right. exact Iz.
Qed.
Lemma alive_remains t o b : aliveb t (mkHalf o b) = true <-> remains t o.
Proof. rewrite alive_present. reflexivity. Qed.
Lemma dead_removed t o b : removed t o -> aliveb t (mkHalf o b) = false.
Proof. unfold removed, aliveb. cbn. intros ->. reflexivity. Qed.

Section Block.
Variables (p : nat) (v v' : corner) (B k : nat) (x y : point).
Hypothesis Ev : nth_error V p = Some v.
Hypothesis Ev' : nth_error V (S p) = Some v'.
Hypothesis Eout : co_out v = seq B k.
Hypothesis Ein : co_in v' = seq B k.
Hypothesis EX : nth_error (t_points t0) p = Some x.
Hypothesis EY : nth_error (t_points t0) (S p) = Some y.
Lemma bl_in i : B <= i < B + k -> In (first_half i) (cring v) /\ In (second_half i) (cring v') /\ pt t0 (first_half i) = Some p /\ pt t0 (second_half i) = Some (S p) /\ i < n.
Proof.
  intros L. assert (I1 : In (first_half i) (cring v)) by (apply in_cring; left; exists i; rewrite Eout; split; [apply in_seq; lia|reflexivity]).
  assert (I2 : In (second_half i) (cring v')) by (apply in_cring; right; right; exists i; rewrite Ein; split; [left; apply in_seq; lia|reflexivity]).
  destruct (pt_at p v _ Ev I1), (pt_at (S p) v' _ Ev' I2). auto.
Qed.
Lemma bl_ends i : B <= i < B + k -> ends_at t0 (first_half i) x /\ ends_at t0 (second_half i) y.
Proof. intros L. destruct (bl_in i L) as (_ & _ & P & Q & _). split; [exists p|exists (S p)]; auto. Qed.
Lemma bl_same i j : B <= i < B + k -> B <= j < B + k -> same_ends t0 i j.
Proof. intros Li Lj. destruct (bl_in i Li) as (_ & _ & P & Q & _), (bl_in j Lj) as (_ & _ & P' & Q' & _). split; congruence. Qed.
Lemma bl_flat i : B <= i < B + k -> fne (py x) (py y) = false.
Proof. intros L. destruct (bl_ends i L) as [E1 E2]. eapply (pm_flat PM v i); [eapply nth_error_In; exact Ev|rewrite Eout; apply in_seq; lia|exact E1|exact E2]. Qed.
Lemma others_out h i : In h (others v) -> B <= i < B + k -> h_idx h <> i.
Proof.
  intros I L <-. destruct (bl_in _ L) as (I1 & _ & P & Q & _). assert (Ih : In h (cring v)) by (rewrite cring_others; apply in_or_app; right; exact I). destruct (half_cases h) as [E|E].
  - rewrite E in I. unfold others in I. rewrite !in_app_iff, <- in_rev, !in_map_iff in I. destruct I as [(o & E1 & I)|[(o & E1 & I)|(o & E1 & I)]]; [|discriminate E1|discriminate E1].
    injection E1 as ->. apply (down_not_out p v p v (h_idx h) Ev Ev I). rewrite Eout. apply in_seq. lia.
  - rewrite E in Ih. destruct (pt_at p v _ Ev Ih) as [P2 _]. cbn in P2. change (mkHalf (h_idx h) false) with (second_half (h_idx h)) in P2. assert (X : p = S p) by congruence. lia.
Qed.
(** No other half-segment at the point goes to the other end. *)
Lemma others_end h i : In h (others v) -> B <= i < B + k -> pt t0 (other_half h) <> Some (S p).
Proof.
  intros I L Q. assert (Ih : In h (cring v)) by (rewrite cring_others; apply in_or_app; right; exact I). destruct (pt_at p v _ Ev Ih) as [P _].
  unfold others in I. rewrite !in_app_iff, <- in_rev, !in_map_iff in I. assert (IS : (exists o, h = first_half o /\ In o (co_down v)) \/ exists o, h = second_half o) by (destruct I as [(o & <- & I)|[(o & <- & _)|(o & <- & _)]]; eauto). clear I.
  destruct IS as [(o & -> & I)|(o & ->)]; cbn in Q.
  - assert (F : fne (py x) (py y) = true) by (eapply (pm_slant PM v o); [eapply nth_error_In; exact Ev|exact I|exists p; auto|exists (S p); auto]). rewrite (bl_flat i L) in F. discriminate.
  - apply (klt_asym x y); [apply (pm_lt PM i); apply (bl_ends i L)|]. apply (pm_lt PM o); [exists (S p); auto|exists p; auto].
Qed.

(** Some other half-segment ends at the point. *)
Definition busy t : Prop := exists h, In h (others v) /\ aliveb t h = true.
Inductive out_state t (o : nat) : Prop :=
| os_none G : (forall i, B <= i < o -> removed t i) -> grouped t o G -> out_state t o
| os_some m G r : B <= m < o -> remains t m -> (forall i, B <= i < o -> i <> m -> removed t i) -> grouped t o (G ++ [m :: r]) -> out_state t o.

Lemma seq_at o : B <= o < B + k -> seq B k = seq B (o - B) ++ o :: seq (S o) (k - (o - B) - 1).
Proof. intros L. replace k with ((o - B) + S (k - (o - B) - 1)) at 1 by lia. rewrite seq_app. cbn [seq]. replace (B + (o - B)) with o by lia. reflexivity. Qed.
Lemma ring_p t o : B <= o < B + k -> remains t o -> exists P, filter (aliveb t) (cring v) = P ++ first_half o :: filter (aliveb t) (rev (map first_half (seq B (o - B)))) ++ filter (aliveb t) (others v).
Proof.
  intros L RM. rewrite cring_others, Eout. rewrite (seq_at o L), !map_app, !rev_app_distr, !filter_app. cbn [map rev]. rewrite !filter_app. cbn [filter]. assert (A : aliveb t (first_half o) = true) by (apply alive_remains; exact RM). rewrite A. exists (filter (aliveb t) (rev (map first_half (seq (S o) (k - (o - B) - 1))))). rewrite <- !app_assoc. reflexivity.
Qed.
Lemma ring_q t o : B <= o < B + k -> remains t o -> exists P Q, filter (aliveb t) (cring v') = P ++ filter (aliveb t) (map second_half (seq B (o - B))) ++ second_half o :: Q.
Proof.
  intros L RM. unfold cring, ring_of. rewrite Ein. rewrite (seq_at o L), !map_app, !filter_app. cbn [map filter]. assert (A : aliveb t (second_half o) = true) by (apply alive_remains; exact RM). rewrite A. rewrite <- !app_assoc. rewrite (app_assoc (filter (aliveb t) (rev _)) (filter (aliveb t) (rev _))). eexists. eexists. reflexivity.
Qed.

Lemma out_step t o : B <= o < B + k -> sound t -> future t o -> busy t -> out_state t o ->
  exists t', merge_one ops close t o = Ok t' /\ sound t' /\ future t' (S o) /\ busy t' /\ out_state t' (S o) /\ (forall i, i < B -> nth_error (t_deleted t') i = nth_error (t_deleted t) i).
Proof.
  intros L SO FU BU OS. pose proof (so_frame _ SO) as FR. pose proof (so_rings _ SO) as RI. destruct (bl_in o L) as (I1 & I2 & P1 & P2 & Lo). destruct (FU o) as [D _]; [lia|]. destruct (bl_ends o L) as [X Y].
  destruct (ring_p t o L D) as (P & RP). pose proof (ri_linked _ _ _ RI p _ (ring_at t p v Ev)) as LK. rewrite RP in LK.
  assert (NEXT : forall h Q, filter (aliveb t) (rev (map first_half (seq B (o - B)))) ++ filter (aliveb t) (others v) = h :: Q -> cw t (first_half o) = Some h).
  { intros h Q E. rewrite E in LK. rewrite Forall_forall in LK. destruct (LK (first_half o, h)) as [C _]; [apply cyclic_two|exact C]. }
  destruct OS as [G DEAD GR|m G r Lm RM DEAD GR].
  - assert (E0 : filter (aliveb t) (rev (map first_half (seq B (o - B)))) = []).
    { apply filter_none, Forall_forall. intros h Ih. rewrite <- in_rev in Ih. apply in_map_iff in Ih. destruct Ih as (i & <- & Ii). apply in_seq in Ii. apply dead_removed, DEAD. lia. }
    rewrite E0 in NEXT. cbn [app] in NEXT. destruct (filter (aliveb t) (others v)) as [|h Q] eqn:EO.
    { exfalso. destruct BU as (h & Ih & Ah). assert (In h (filter (aliveb t) (others v))) by (apply filter_In; auto). rewrite EO in H. exact H. }
    assert (Ih : In h (filter (aliveb t) (others v))) by (rewrite EO; left; reflexivity). apply filter_In in Ih. destruct Ih as [Ih Ah].
    destruct (step_eval t o h x y SO Lo D (NEXT h Q eq_refl) (alive_in t h Ah FR) X Y) as (w & s1 & s2 & _ & _ & _ & ->). rewrite P2.
    destruct (opt_eqb (Some (S p)) (pt t0 (other_half h))) eqn:EE; [exfalso; apply opt_eqb_spec in EE; apply (others_end h o Ih L); congruence|]. cbn [andb].
    exists t. split; [reflexivity|]. split; [exact SO|]. split; [apply future_S, FU|]. split; [exact BU|]. split; [|reflexivity].
    apply (os_some t (S o) o G []); [lia|exact D| |apply grouped_skip; assumption]. intros i Li N. apply DEAD. lia.
  - assert (Lmb : B <= m < B + k) by lia. destruct (bl_in m Lmb) as (J1 & J2 & Q1 & Q2 & Lmn).
    assert (ND : forall f : nat -> half, (forall a b, f a = f b -> a = b) -> NoDup (map f (seq B (o - B)))) by (intros f IJ; apply FinFun.Injective_map_NoDup; [exact IJ|apply seq_NoDup]).
    assert (E0 : filter (aliveb t) (rev (map first_half (seq B (o - B)))) = [first_half m]).
    { apply filter_one; [apply NoDup_rev, ND; intros a b E; injection E; auto|rewrite <- in_rev; apply in_map, in_seq; lia|apply alive_remains; exact RM|].
      intros h Ih Ah. rewrite <- in_rev in Ih. apply in_map_iff in Ih. destruct Ih as (i & <- & Ii). apply in_seq in Ii. destruct (Nat.eq_dec i m) as [->|N]; [reflexivity|exfalso]. pose proof (dead_removed t i true ltac:(apply DEAD; lia)) as Bh; exact (eq_true_false_abs _ Ah Bh). }
    rewrite E0 in NEXT. cbn [app] in NEXT. specialize (NEXT (first_half m) _ eq_refl).
    destruct (step_eval t o (first_half m) x y SO Lo D NEXT Lmn X Y) as (w & s1 & s2 & _ & _ & _ & ->). rewrite (bl_flat o L). cbn [andb negb h_idx h_first first_half].
    change (other_half (first_half m)) with (second_half m). rewrite P2, Q2, (proj2 (opt_eqb_spec _ _) eq_refl). cbn [andb].
    destruct (ring_q t o L D) as (A & C & RQ).
    assert (E1 : filter (aliveb t) (map second_half (seq B (o - B))) = [second_half m]).
    { apply filter_one; [apply ND; intros a b E; injection E; auto|apply in_map, in_seq; lia|apply alive_remains; exact RM|].
      intros h Ih Ah. apply in_map_iff in Ih. destruct Ih as (i & <- & Ii). apply in_seq in Ii. destruct (Nat.eq_dec i m) as [->|N]; [reflexivity|exfalso]. pose proof (dead_removed t i false ltac:(apply DEAD; lia)) as Bh; exact (eq_true_false_abs _ Ah Bh). }
    rewrite E1 in RQ. cbn [app] in RQ.
    destruct (grouped_merge t o G m r (S p) (filter (aliveb t) (cring v'))) as (t' & ME & SO' & FU' & GR' & DK & RO); try assumption.
    { apply bl_same; lia. } { apply ring_at, Ev'. } { rewrite RQ. apply cyclic_two. }
    exists t'. split; [exact ME|]. split; [exact SO'|]. split; [exact FU'|]. split; [|split].
    + destruct BU as (h & Ih & Ah). exists h. split; [exact Ih|]. unfold aliveb in *. rewrite DK; [exact Ah|apply (others_out h o Ih L)|apply (others_out h m Ih Lmb)].
    + assert (DEAD' : forall i, B <= i < S o -> i <> m -> removed t' i) by (intros i Li N; destruct (Nat.eq_dec i o) as [->|No]; [exact RO|]; unfold removed; rewrite DK by assumption; apply DEAD; [lia|exact N]).
      destruct (nth_error (t_deleted t') m) as [[|]|] eqn:EM.
      * apply (os_none t' (S o) (G ++ [m :: r ++ [o]])); [|exact GR']. intros i Li. destruct (Nat.eq_dec i m) as [->|N]; [exact EM|apply DEAD'; assumption].
      * apply (os_some t' (S o) m G (r ++ [o])); [lia|exact EM|exact DEAD'|exact GR'].
      * exfalso. apply nth_error_None in EM. rewrite (fr_del _ _ (so_frame _ SO')), (pm_del PM), repeat_length in EM. lia.
    + intros i Li. apply DK; lia.
Qed.
Lemma out_loop : forall c o t, o + c = B + k -> B <= o -> sound t -> future t o -> busy t -> out_state t o ->
  exists t', merge_loop ops close c o t = Ok t' /\ sound t' /\ future t' (B + k) /\ out_state t' (B + k) /\ (forall i, i < B -> nth_error (t_deleted t') i = nth_error (t_deleted t) i).
Proof.
  induction c as [|c IH]; intros o t E L SO FU BU OS; cbn [merge_loop].
  - assert (o = B + k) by lia. subst o. exists t. auto.
  - destruct (out_step t o) as (t1 & -> & S1 & S2 & S3 & S4 & S5); try assumption; [lia|]. cbn [rbind]. destruct (IH (S o) t1) as (t' & -> & T1 & T2 & T3 & T4); try assumption; try lia.
    exists t'. split; [reflexivity|]. split; [exact T1|]. split; [exact T2|]. split; [exact T3|]. intros i Li. rewrite T4, S5 by exact Li. reflexivity.
Qed.

(** Nothing else ends at the point: the horizontals are all removed in the end. *)
Definition idle t : Prop := forall h, In h (others v) -> aliveb t h = false.
Lemma bl_chain i : B <= i -> S i < B + k -> exists a b, nth_error (t_wind t0) i = Some a /\ nth_error (t_wind t0) (S i) = Some b /\ wn_ccw a = wn_cw b.
Proof.
  intros L1 L2. destruct (bl_in i) as (_ & _ & _ & _ & Li); [lia|]. destruct (bl_in (S i)) as (_ & _ & _ & _ & Ls); [lia|].
  destruct (nth_error (t_wind t0) i) as [a|] eqn:Ea; [|apply nth_error_None in Ea; lia]. destruct (nth_error (t_wind t0) (S i)) as [b|] eqn:Eb; [|apply nth_error_None in Eb; lia].
  exists a, b. split; [reflexivity|]. split; [reflexivity|]. pose proof (pm_agree PM) as AG. rewrite Forall_forall in AG. specialize (AG (cring v)). rewrite Forall_forall in AG.
  destruct (AG ltac:(apply in_map; eapply nth_error_In; exact Ev) (first_half (S i), first_half i)) as (z & Z1 & Z2).
  - rewrite cring_others, Eout, (seq_at i) by lia. replace (k - (i - B) - 1) with (S (k - (i - B) - 2)) by lia. rewrite map_app, rev_app_distr. cbn [seq map rev]. rewrite <- !app_assoc. cbn [app]. apply cyclic_two.
  - unfold winding_cw, winding_ccw in *. cbn in *. rewrite Ea in Z2. rewrite Eb in Z1. cbn in *. congruence.
Qed.
Record wrap t1 t o m : Prop := {
  wr_frame : frame t0 t;
  wr_rings : rings t (present t) (nowt t);
  wr_le : o + m <= B + k;
  wr_one : m <> 1;
  wr_del : forall i, B <= i < B + k -> nth_error (t_deleted t) i = Some (negb ((o <=? i) && (i <? o + m)));
  wr_wind : forall i, o <= i -> S i < o + m -> nth_error (t_wind t) i = nth_error (t_wind t0) i;
  wr_last : 0 < m -> exists a b, nth_error (t_wind t0) o = Some a /\ nth_error (t_wind t0) (o + m - 1) = Some b /\ nth_error (t_wind t) (o + m - 1) = Some (mkWp (wn_cw a) (wn_cw b));
  wr_out : forall i, i < B \/ B + k <= i -> nth_error (t_deleted t) i = nth_error (t_deleted t1) i /\ nth_error (t_wind t) i = nth_error (t_wind t1) i }.
Lemma wrap_ring t1 t o m : B <= o -> idle t1 -> wrap t1 t o m -> filter (aliveb t) (cring v) = rev (map first_half (seq o m)).
Proof.
  intros L ID WR. destruct WR as [FR RI LE ONE DL WN LA OU]. rewrite cring_others, filter_app, Eout.
  assert (E : filter (aliveb t) (others v) = []).
  { apply filter_none, Forall_forall. intros h Ih. rewrite <- (ID h Ih). unfold aliveb. destruct (OU (h_idx h)) as [-> _]; [|reflexivity].
    destruct (Nat.ltb_spec (h_idx h) B); [auto|]. destruct (Nat.leb_spec (B + k) (h_idx h)); [auto|]. exfalso. apply (others_out h (h_idx h) Ih); [lia|reflexivity]. }
  rewrite E, app_nil_r. replace k with ((o - B) + (m + (k - (o - B) - m))) by lia. rewrite (seq_app (o - B)), (seq_app m). replace (B + (o - B)) with o by lia.
  rewrite !map_app, !rev_app_distr, !filter_app.
  assert (D : forall s c, (forall i, s <= i < s + c -> B <= i < B + k /\ (i < o \/ o + m <= i)) -> filter (aliveb t) (rev (map first_half (seq s c))) = []).
  { intros s c H. apply filter_none, Forall_forall. intros h Ih. rewrite <- in_rev in Ih. apply in_map_iff in Ih. destruct Ih as (i & <- & Ii). apply in_seq in Ii. destruct (H i Ii) as [H1 H2]. apply dead_removed. unfold removed. rewrite (DL i H1). f_equal. apply negb_true_iff. apply andb_false_iff. destruct H2; [left; apply Nat.leb_gt; lia|right; apply Nat.ltb_ge; lia]. }
  rewrite (D B), (D (o + m)); [|intros i Li; lia|intros i Li; lia]. rewrite app_nil_r. cbn [app]. apply filter_every, Forall_forall. intros h Ih. rewrite <- in_rev in Ih. apply in_map_iff in Ih. destruct Ih as (i & <- & Ii). apply in_seq in Ii. apply alive_remains. unfold remains. rewrite DL by lia. f_equal. apply negb_false_iff. rewrite (proj2 (Nat.leb_le o i)), (proj2 (Nat.ltb_lt i (o + m))) by lia. reflexivity.
Qed.
Lemma wrap_eval t o h : frame t0 t -> B <= o < B + k -> nth_error (t_deleted t) o = Some false -> cw t (first_half o) = Some (first_half h) -> B <= h < B + k -> merge_one ops close t o = merge_into ops o h t.
Proof.
  intros FR Lo D C Lh. destruct (bl_in o Lo) as (_ & _ & P1 & P2 & Lon). destruct (bl_in h Lh) as (_ & _ & Q1 & Q2 & Lhn). destruct (bl_ends o Lo) as [X Y].
  destruct (nth_error (t_west t0) o) as [w|] eqn:E1; [|apply nth_error_None in E1; rewrite (pm_lwest PM) in E1; lia].
  destruct (nth_error (t_orig t0) o) as [s1|] eqn:E2; [|apply nth_error_None in E2; rewrite (pm_lorig PM) in E2; lia].
  destruct (nth_error (t_orig t0) h) as [s2|] eqn:E3; [|apply nth_error_None in E3; rewrite (pm_lorig PM) in E3; lia].
  rewrite (merge_eval ops close t o (first_half h) p (S p) x y w s1 s2); try assumption.
  - rewrite (bl_flat o Lo). cbn [andb negb h_first h_idx first_half]. change (other_half (first_half h)) with (second_half h). rewrite (frame_pt t _ FR), Q2, (proj2 (opt_eqb_spec _ _) eq_refl). reflexivity.
  - rewrite (frame_pt t _ FR). exact P1.
  - rewrite (frame_pt t _ FR). exact P2.
  - rewrite (fr_points _ _ FR). exact EX.
  - rewrite (fr_points _ _ FR). exact EY.
  - change (other_half (first_half h)) with (second_half h). rewrite (fr_pidx _ _ FR). intros N. unfold pt in Q2. rewrite N in Q2. discriminate.
  - rewrite (fr_west _ _ FR). exact E1.
  - rewrite (fr_orig _ _ FR). exact E2.
  - cbn. rewrite (fr_orig _ _ FR). exact E3.
Qed.
Lemma wrap_step t1 t o m : B <= o < B + k -> idle t1 -> wrap t1 t o m -> exists t' m', merge_one ops close t o = Ok t' /\ wrap t1 t' (S o) m'.
Proof.
  intros L ID WR. pose proof (wrap_ring t1 t o m ltac:(lia) ID WR) as RP. pose proof WR as [FR RI LE ONE DL WN LA OU]. pose proof (DL o L) as Do. destruct m as [|[|m]]; [|contradiction|].
  - exists t, 0. split.
    + unfold merge_one. rewrite Do. rewrite (proj2 (Nat.ltb_ge o (o + 0))) by lia. rewrite andb_false_r. reflexivity.
    + constructor; try assumption; try lia. intros i Li. rewrite (DL i Li). f_equal. f_equal. destruct (i <? o + 0) eqn:E1; [apply Nat.ltb_lt in E1|]; destruct (i <? S o + 0) eqn:E2; [| |apply Nat.ltb_lt in E2|]; destruct (o <=? i) eqn:E3; try apply Nat.leb_le in E3; destruct (S o <=? i) eqn:E4; try apply Nat.leb_le in E4; try reflexivity; lia.
  - set (l := o + S (S m) - 1) in *. assert (Ll : l = S (o + m)) by (unfold l; lia). rewrite (proj2 (Nat.leb_le o o)), (proj2 (Nat.ltb_lt o (o + S (S m)))) in Do by lia. cbn [andb negb] in Do.
    assert (C : cw t (first_half o) = Some (first_half l)).
    { pose proof (ri_linked _ _ _ RI p _ (ring_at t p v Ev)) as LK. rewrite RP in LK. change (seq o (S (S m))) with (o :: seq (S o) (S m)) in LK. cbn [map rev] in LK. rewrite (seq_S m (S o)) in LK. rewrite map_app, rev_app_distr in LK. cbn [map rev app] in LK. rewrite Forall_forall in LK. replace (S o + m) with l in LK by lia.
      destruct (LK (first_half o, first_half l)) as [C _]; [apply cyclic_wrap|exact C]. }
    rewrite (wrap_eval t o l FR L Do C) by lia.
    assert (Dl : nth_error (t_deleted t) l = Some false) by (rewrite DL by lia; rewrite (proj2 (Nat.leb_le o l)), (proj2 (Nat.ltb_lt l (o + S (S m)))) by lia; reflexivity).
    assert (LN : length (t_nbrs t) = length (t_deleted t)) by (rewrite (fr_nbrs _ _ FR), (fr_del _ _ FR), (pm_nbrs PM), (pm_del PM), repeat_length; reflexivity).
    destruct (LA ltac:(lia)) as (wo & wl & W1 & W2 & W3). assert (Wo : nth_error (t_wind t) o = Some wo) by (rewrite WN by lia; exact W1).
    destruct (merge_into_spec ops close R0 t o l wo (mkWp (wn_cw wo) (wn_cw wl)) RI LN Do Dl ltac:(lia) Wo W3) as (t' & E & F' & RI' & WN' & WM & DL'). cbn [wn_cw wn_ccw] in *. exists t'.
    destruct (bl_chain o ltac:(lia) ltac:(lia)) as (a & b & A1 & A2 & A3). assert (a = wo) by congruence. subst a.
    destruct (w_eqb ops (wn_ccw wo) (wn_cw wl)) eqn:EB.
    + apply EQ in EB. destruct DL' as [DL' _]. assert (M1 : m <> 1).
      { intros ->. destruct (bl_chain (S o) ltac:(lia) ltac:(lia)) as (a & c & B1 & B2 & B3). assert (a = b) by congruence. subst a. assert (l = S (S o)) by lia. assert (c = wl) by congruence. subst c. apply (pm_diff PM (S o) b A2). congruence. }
      exists m. split; [exact E|]. constructor; try assumption; try lia; [eapply frame_trans; eassumption| | | |].
      * intros i Li. rewrite DL', (DL i Li). destruct (Nat.eqb_spec i o) as [->|N1]; cbn [orb]; [rewrite (proj2 (Nat.leb_gt (S o) o)) by lia; reflexivity|].
        destruct (Nat.eqb_spec i l) as [->|N2]; [rewrite (proj2 (Nat.ltb_ge l (S o + m))) by lia; rewrite andb_false_r; reflexivity|]. f_equal. f_equal.
        destruct (Nat.leb_spec o i), (Nat.leb_spec (S o) i), (Nat.ltb_spec i (o + S (S m))), (Nat.ltb_spec i (S o + m)); try reflexivity; lia.
      * intros i L1 L2. rewrite WN' by lia. apply WN; lia.
      * intros M0. replace (S o + m - 1) with (o + m) by lia. destruct (bl_chain (o + m) ltac:(lia) ltac:(lia)) as (c & d & B1 & B2 & B3). assert (d = wl) by congruence. subst d. exists b, c. split; [exact A2|]. split; [exact B1|]. rewrite WN' by lia. rewrite WN, B1 by lia. f_equal. destruct c as [c1 c2]. cbn in *. congruence.
      * intros i Li. destruct (OU i Li) as [<- <-]. rewrite WN' by lia. rewrite DL', (proj2 (Nat.eqb_neq i o)), (proj2 (Nat.eqb_neq i l)) by lia. auto.
    + assert (NB : wn_ccw wo <> wn_cw wl) by (intros X; apply EQ in X; congruence). destruct DL' as [DL' _]. assert (M0 : m <> 0) by (intros ->; replace (o + 0) with o in Ll by lia; apply NB; assert (b = wl) by congruence; subst b; exact A3).
      exists (S m). split; [exact E|]. constructor; try assumption; try lia; [eapply frame_trans; eassumption| | | |].
      * intros i Li. rewrite DL', (DL i Li). destruct (Nat.eqb_spec i o) as [->|N1]; [rewrite (proj2 (Nat.leb_gt (S o) o)) by lia; reflexivity|]. f_equal. f_equal.
        destruct (Nat.leb_spec o i), (Nat.leb_spec (S o) i), (Nat.ltb_spec i (o + S (S m))), (Nat.ltb_spec i (S o + S m)); try reflexivity; lia.
      * intros i L1 L2. rewrite WN' by lia. apply WN; lia.
      * intros _. replace (S o + S m - 1) with l by lia. exists b, wl. split; [exact A2|]. split; [exact W2|]. rewrite WM, A3. reflexivity.
      * intros i Li. destruct (OU i Li) as [<- <-]. rewrite WN' by lia. rewrite DL', (proj2 (Nat.eqb_neq i o)) by lia. auto.
Qed.
Lemma wrap_loop t1 : idle t1 -> forall c o t m, o + c = B + k -> B <= o -> wrap t1 t o m -> exists t', merge_loop ops close c o t = Ok t' /\ wrap t1 t' (B + k) 0.
Proof.
  intros ID. induction c as [|c IH]; intros o t m E L WR; cbn [merge_loop].
  - assert (o = B + k) by lia. subst o. pose proof (wr_le _ _ _ _ WR). assert (m = 0) by lia. subst m. exists t. auto.
  - destruct (wrap_step t1 t o m) as (t2 & m2 & -> & W2); try assumption; [lia|]. cbn [rbind]. apply (IH (S o) t2 m2); try assumption; lia.
Qed.
Lemma wrap_start t : 0 < k -> sound t -> future t B -> idle t -> wrap t t B k.
Proof.
  intros K0 SO FU ID. pose proof (so_frame _ SO) as FR. pose proof (so_rings _ SO) as RI.
  assert (AL : filter (aliveb t) (cring v) = rev (map first_half (seq B k))).
  { rewrite cring_others, filter_app, (filter_none _ (others v)), app_nil_r by (apply Forall_forall; exact ID). rewrite Eout. apply filter_every, Forall_forall. intros h Ih. rewrite <- in_rev in Ih. apply in_map_iff in Ih. destruct Ih as (i & <- & Ii). apply in_seq in Ii. destruct (bl_in i ltac:(lia)) as (_ & _ & _ & _ & Li). apply alive_remains. apply FU. lia. }
  assert (PR : In (first_half B, first_half (B + k - 1)) (cyclic (filter (aliveb t) (cring v)))).
  { rewrite AL. destruct k as [|[|c]]; [lia| |].
    - cbn. replace (B + 1 - 1) with B by lia. left. reflexivity.
    - change (seq B (S (S c))) with (B :: seq (S B) (S c)). cbn [map rev]. rewrite (seq_S c (S B)). rewrite map_app, rev_app_distr. cbn [map rev app]. replace (B + S (S c) - 1) with (S B + c) by lia. apply cyclic_wrap. }
  pose proof (so_agree _ SO) as AG. rewrite Forall_forall in AG. specialize (AG _ (nth_error_In _ _ (ring_at t p v Ev))). rewrite Forall_forall in AG. destruct (AG _ PR) as (z & Z1 & Z2). unfold winding_cw, winding_ccw in *. cbn in Z1, Z2.
  destruct (bl_in B ltac:(lia)) as (_ & _ & _ & _ & LB). destruct (bl_in (B + k - 1) ltac:(lia)) as (_ & _ & _ & _ & LL). destruct (FU B) as [_ F1]; [lia|]. destruct (FU (B + k - 1)) as [_ F2]; [lia|]. rewrite F1 in Z1. rewrite F2 in Z2.
  destruct (nth_error (t_wind t0) B) as [a|] eqn:EA; [|discriminate]. destruct (nth_error (t_wind t0) (B + k - 1)) as [b|] eqn:EB; [|discriminate]. cbn in Z1, Z2. injection Z1 as <-. injection Z2 as EZ.
  constructor; try assumption; try lia.
  - intros K1. rewrite K1 in EB. replace (B + 1 - 1) with B in EB by lia. assert (a = b) by congruence. subst b. apply (pm_diff PM B a EA). congruence.
  - intros i Li. destruct (bl_in i Li) as (_ & _ & _ & _ & Ln). destruct (FU i) as [-> _]; [lia|]. rewrite (proj2 (Nat.leb_le B i)), (proj2 (Nat.ltb_lt i (B + k))) by lia. reflexivity.
  - intros i L1 L2. apply FU. destruct (bl_in i ltac:(lia)) as (_ & _ & _ & _ & Ln). lia.
  - intros _. exists a, b. split; [exact EA|]. split; [exact EB|]. rewrite F2. f_equal. destruct b as [b1 b2]. cbn in *. congruence.
  - auto.
Qed.
Lemma bl_across c : forall o a, nth_error (t_wind t0) o = Some a -> B <= o -> o + S c <= B + k -> exists b, nth_error (t_wind t0) (o + c) = Some b /\ across t0 (wn_cw a) (seq o (S c)) (wn_ccw b).
Proof.
  induction c as [|c IH]; intros o a A L1 L2.
  - exists a. replace (o + 0) with o by lia. split; [exact A|]. cbn. exists a. auto.
  - destruct (bl_chain o L1 ltac:(lia)) as (a' & b' & X1 & X2 & X3). assert (a' = a) by congruence. subst a'. destruct (IH (S o) b' X2 ltac:(lia) ltac:(lia)) as (b & Y1 & Y2). exists b. replace (o + S c) with (S o + c) by lia. split; [exact Y1|]. change (seq o (S (S c))) with (o :: seq (S o) (S c)). exists a. split; [exact A|]. split; [reflexivity|]. rewrite X3. exact Y2.
Qed.
Lemma agree_local t t' r : (forall h, In h r -> nth_error (t_wind t') (h_idx h) = nth_error (t_wind t) (h_idx h)) -> Forall (agree t) (cyclic r) -> Forall (agree t') (cyclic r).
Proof.
  intros H F. rewrite Forall_forall in *. intros [h g] I. destruct (cyclic_mem _ _ _ I) as [I1 I2]. destruct (F _ I) as (z & Z1 & Z2). exists z. unfold winding_cw, winding_ccw in *. cbn [fst snd] in *. rewrite !H by assumption. auto.
Qed.
Lemma wrap_block t G : 0 < k -> sound t -> future t B -> idle t -> grouped t B G ->
  exists t', merge_loop ops close k B t = Ok t' /\ sound t' /\ future t' (B + k) /\ grouped t' (B + k) (G ++ [seq B k]) /\ (forall i, B <= i < B + k -> removed t' i) /\ (forall i, i < B -> nth_error (t_deleted t') i = nth_error (t_deleted t) i).
Proof.
  intros K0 SO FU ID [GC GM]. pose proof (wrap_start t K0 SO FU ID) as W0. destruct (wr_last _ _ _ _ W0 K0) as (a & b & A1 & A2 & A3). destruct (wrap_loop t ID k B t k ltac:(lia) ltac:(lia) W0) as (t' & E & WR). exists t'. split; [exact E|].
  pose proof (wrap_ring t t' (B + k) 0 ltac:(lia) ID WR) as RP. cbn in RP. pose proof WR as [FR RI _ _ DL _ _ OU].
  assert (RM : forall i, B <= i < B + k -> removed t' i) by (intros i Li; unfold removed; rewrite (DL i Li), (proj2 (Nat.leb_gt (B + k) i)) by lia; reflexivity).
  assert (ACR : across t0 (wn_cw a) (seq B k) (wn_cw a) /\ across t0 (wn_cw a) (seq B k) (wn_ccw b)).
  { destruct (bl_across (k - 1) B a A1 ltac:(lia) ltac:(lia)) as (b' & X1 & X2). replace (S (k - 1)) with k in X2 by lia. replace (B + (k - 1)) with (B + k - 1) in X1 by lia. assert (b' = b) by congruence. subst b'.
    destruct (FU (B + k - 1)) as [_ F2]; [destruct (bl_in (B + k - 1) ltac:(lia)) as (_ & _ & _ & _ & Ln); lia|]. rewrite F2, A2 in A3. injection A3 as A3. pose proof (f_equal (@wn_ccw W) A3) as EZ. cbn [wn_ccw] in EZ. split; [rewrite <- EZ at 2; exact X2|exact X2]. }
  destruct ACR as [ACR _].
  assert (SAME : forall h, (h_idx h < B \/ B + k <= h_idx h) -> aliveb t' h = aliveb t h) by (intros h Hh; unfold aliveb; destruct (OU _ Hh) as [-> _]; reflexivity).
  split; [|split; [|split; [|split; [exact RM|]]]].
  - constructor; [exact FR|exact RI|]. apply Forall_forall. intros r Ir. unfold now in Ir. rewrite map_map in Ir. apply in_map_iff in Ir. destruct Ir as (u & <- & Iu). apply In_nth_error in Iu. destruct Iu as [i Ei].
    assert (OUT : forall h, In h (filter (aliveb t') (cring u)) -> h_idx h < B \/ B + k <= h_idx h).
    { intros h Ih. apply filter_In in Ih. destruct Ih as [_ Ah]. destruct (Nat.ltb_spec (h_idx h) B); [auto|]. destruct (Nat.leb_spec (B + k) (h_idx h)); [auto|exfalso]. unfold aliveb in Ah. rewrite (RM (h_idx h) ltac:(lia)) in Ah. discriminate. }
    apply (agree_local t); [intros h Ih; apply OU, OUT, Ih|].
    pose proof (so_agree _ SO) as AG. rewrite Forall_forall in AG. specialize (AG _ (nth_error_In _ _ (ring_at t i u Ei))).
    destruct (Nat.eq_dec i p) as [->|Ni]; [assert (u = v) by congruence; subst u; rewrite RP; constructor|]. destruct (Nat.eq_dec i (S p)) as [->|Ni'].
    + assert (u = v') by congruence. subst u. unfold cring, ring_of in AG, OUT |- *. rewrite Ein in AG, OUT |- *. rewrite !filter_app in AG, OUT |- *.
      assert (ND : NoDup (cring v')).
      { eapply (rings_nodup t0 _ _ (S p)); [exact (pm_rings PM)|]. rewrite nth_error_map, Ev'. reflexivity. }
      assert (X : forall l, (forall h, In h l -> h_idx h < B \/ B + k <= h_idx h) -> filter (aliveb t') l = filter (aliveb t) l) by (intros l Hl; apply filter_ext_in; intros h Ih; apply SAME, Hl, Ih).
      unfold cring, ring_of in ND. rewrite Ein in ND. apply TopoProofs.nodup_app in ND. destruct ND as (N1 & ND & N2). apply TopoProofs.nodup_app in ND. destruct ND as (N3 & ND & N4). apply TopoProofs.nodup_app in ND. destruct ND as (N5 & N6 & N7).
      assert (OUTF : forall c, (forall o, In o c -> In (first_half o) (cring v')) -> forall h, In h (rev (map first_half c)) -> h_idx h < B \/ B + k <= h_idx h).
      { intros c Hc h Ih. rewrite <- in_rev in Ih. apply in_map_iff in Ih. destruct Ih as (o & <- & Io). cbn. destruct (Nat.ltb_spec o B); [auto|]. destruct (Nat.leb_spec (B + k) o); [auto|exfalso]. destruct (pt_at (S p) v' _ Ev' (Hc o Io)) as [PO _]. destruct (bl_in o ltac:(lia)) as (_ & _ & PO' & _). assert (X' : S p = p) by congruence. lia. }
      rewrite (X (rev (map first_half (co_out v')))), (X (rev (map first_half (co_down v')))), (X (map second_half (co_up v'))).
      * rewrite (filter_none _ (map second_half (seq B k))) by (apply Forall_forall; intros h Ih; apply in_map_iff in Ih; destruct Ih as (o & <- & Io); apply in_seq in Io; apply dead_removed, RM; lia). cbn [app].
        rewrite (filter_every _ (map second_half (seq B k))) in AG.
        -- rewrite app_assoc in AG |- *. apply (agree_block t _ (map second_half (seq B k)) _ (wn_cw a)) in AG; [exact AG| |].
           ++ intros h Ih N. assert (Ah : aliveb t h = true).
              { rewrite !in_app_iff, !filter_In in Ih. destruct Ih as [[[_ A]|[_ A]]|[A|[_ A]]]; try exact A. apply in_map_iff in A. destruct A as (o & <- & Io). apply in_seq in Io. apply alive_remains. apply FU. destruct (bl_in o ltac:(lia)) as (_ & _ & _ & _ & Ln). lia. }
              pose proof (alive_in t h Ah (so_frame _ SO)) as Lh. unfold winding_ccw in N. destruct (nth_error (t_wind t) (h_idx h)) eqn:EN; [discriminate|]. apply nth_error_None in EN. rewrite (fr_wind _ _ (so_frame _ SO)) in EN. lia.
           ++ apply (hchain_seconds (t_wind t) t); [reflexivity|]. apply across_wchain in ACR.
              assert (WC : forall l w u, wchain (t_wind t0) w l u -> (forall o, In o l -> nth_error (t_wind t) o = nth_error (t_wind t0) o) -> wchain (t_wind t) w l u).
              { induction l as [|o l IH]; intros w u H Hl; [exact H|]. destruct H as (c & C1 & C2 & C3). exists c. split; [rewrite Hl by (left; reflexivity); exact C1|]. split; [exact C2|]. apply IH; [exact C3|]. intros o' Io'. apply Hl. right. exact Io'. }
              apply WC; [exact ACR|]. intros o Io. apply in_seq in Io. apply FU. destruct (bl_in o ltac:(lia)) as (_ & _ & _ & _ & Ln). lia.
        -- apply Forall_forall. intros h Ih. apply in_map_iff in Ih. destruct Ih as (o & <- & Io). apply in_seq in Io. apply alive_remains. apply FU. destruct (bl_in o ltac:(lia)) as (_ & _ & _ & _ & Ln). lia.
      * intros h Ih. apply in_map_iff in Ih. destruct Ih as (o & <- & Io). cbn. destruct (Nat.ltb_spec o B); [auto|]. destruct (Nat.leb_spec (B + k) o); [auto|exfalso]. apply (N7 (second_half o)); apply in_map; [apply in_seq; lia|exact Io].
      * apply OUTF. intros o Io. apply in_cring. right. left. eauto.
      * apply OUTF. intros o Io. apply in_cring. left. eauto.
    + rewrite (filter_ext_in (aliveb t') (aliveb t)); [exact AG|]. intros h Ih. apply SAME. destruct (Nat.ltb_spec (h_idx h) B); [auto|]. destruct (Nat.leb_spec (B + k) (h_idx h)); [auto|exfalso].
      destruct (bl_in (h_idx h) ltac:(lia)) as (_ & _ & P1 & P2 & _). destruct (pt_at i u h Ei Ih) as [P3 _]. destruct (half_cases h) as [EH|EH]; rewrite EH in P3; cbn in P3; [apply Ni|apply Ni']; congruence.
  - intros i Li. destruct (OU i ltac:(lia)) as [-> ->]. apply FU. lia.
  - split.
    + rewrite concat_app, GC. cbn [concat]. rewrite app_nil_r, (seq_app B k 0). reflexivity.
    + apply Forall_app. split.
      * rewrite Forall_forall in *. intros g Ig. assert (LT : forall i, In i g -> i < B) by (intros i Ii; assert (IC : In i (seq 0 B)) by (rewrite <- GC; apply in_concat; exists g; auto); apply in_seq in IC; lia).
        apply (merged_same t t' g); [| |apply GM, Ig]; intros i Ii; specialize (LT i Ii); destruct (OU i ltac:(lia)) as [D1 D2]; assumption.
      * constructor; [|constructor]. assert (Ek : seq B k = B :: seq (S B) (k - 1)) by (clear - K0; destruct k as [|c]; [lia|]; cbn [seq]; f_equal; f_equal; lia). exists B, (seq (S B) (k - 1)), (wn_cw a), (wn_cw a). split; [exact Ek|]. split; [exact ACR|]. split; [|split].
        -- intros i Ii. apply in_seq in Ii. apply bl_same; lia.
        -- intros i Ii. apply in_seq in Ii. apply RM. lia.
        -- left. split; [reflexivity|]. apply RM. lia.
  - intros i Li. apply OU. lia.
Qed.
End Block.

(** *** The whole loop *)
Lemma merge_loop_app c d : forall o t, merge_loop ops close (c + d) o t = do! t := merge_loop ops close c o t in merge_loop ops close d (o + c) t.
Proof.
  induction c as [|c IH]; intros o t; cbn [merge_loop Nat.add rbind]; [replace (o + 0) with o by lia; reflexivity|]. destruct (merge_one ops close t o) as [t1|e]; cbn [rbind]; [|reflexivity]. rewrite IH. replace (o + S c) with (S o + c) by lia. reflexivity.
Qed.
Record inv t o : Prop := { in_sound : sound t; in_future : future t o; in_groups : exists G, grouped t o G; in_thin : thin t o; in_tight : tight t o }.
Lemma down_loop p v : nth_error V p = Some v -> forall c o t, (forall i, o <= i < o + c -> In i (co_down v)) -> inv t o -> exists t', merge_loop ops close c o t = Ok t' /\ inv t' (o + c).
Proof.
  intros E. induction c as [|c IH]; intros o t I [SO FU [G GR] TH TI]; cbn [merge_loop].
  - exists t. replace (o + 0) with o by lia. split; [reflexivity|]. constructor; eauto.
  - destruct (down_step t o p v G) as (t1 & G1 & -> & S1 & S2 & S3 & S4 & S5); try assumption; [apply I; lia|]. cbn [rbind]. destruct (IH (S o) t1) as (t' & -> & X); [intros i Li; apply I; lia|constructor; eauto|].
    exists t'. split; [reflexivity|]. replace (o + S c) with (S o + c) by lia. exact X.
Qed.
Lemma busy_dec v t : {busy v t} + {idle v t}.
Proof.
  destruct (existsb (aliveb t) (others v)) eqn:E; [left|right].
  - apply existsb_exists in E. exact E.
  - intros h Ih. destruct (aliveb t h) eqn:A; [|reflexivity]. assert (X : existsb (aliveb t) (others v) = true) by (apply existsb_exists; eauto). congruence.
Qed.
Lemma out_block p v B k t : nth_error V p = Some v -> co_out v = seq B k -> inv t B -> exists t', merge_loop ops close k B t = Ok t' /\ inv t' (B + k).
Proof.
  intros E Eo [SO FU [G GR] TH TI]. destruct k as [|c].
  { exists t. replace (B + 0) with B by lia. split; [reflexivity|]. constructor; eauto. }
  set (k := S c) in *. destruct (laid_at _ _ _ _ _ _ (pm_laid PM) E) as (_ & _ & _ & _ & NX & LS). destruct (nth_error V (S p)) as [v'|] eqn:E'; [|rewrite (LS eq_refl) in Eo; discriminate Eo]. specialize (NX v' eq_refl). rewrite Eo in NX.
  assert (PX : forall q u, nth_error V q = Some u -> exists x, nth_error (t_points t0) q = Some x).
  { intros q u Eq. destruct (nth_error (t_points t0) q) as [x|] eqn:X; [eauto|exfalso]. apply nth_error_None in X. rewrite <- (ri_points _ _ _ (pm_rings PM)), map_length in X. assert (q < length V) by (apply nth_error_Some; congruence). lia. }
  destruct (PX p v E) as [x X], (PX (S p) v' E') as [y Y].
  assert (OUTS : forall u i, In u V -> In i (co_out u) -> B <= i < B + k -> u = v).
  { intros u i Iu Ii Li. apply In_nth_error in Iu. destruct Iu as [q Eq]. destruct (pt_at q u (first_half i) Eq) as [P1 _]; [apply in_cring; left; eauto|]. destruct (pt_at p v (first_half i) E) as [P2 _]; [apply in_cring; left; exists i; rewrite Eo; split; [apply in_seq; lia|reflexivity]|]. assert (p = q) by congruence. congruence. }
  assert (TIGHT : forall t', (forall i, i < B -> nth_error (t_deleted t') i = nth_error (t_deleted t) i) -> tight t' (B + k)).
  { intros t' DE v2 m Iv T2 Lm R1 R2. assert (LB : S m < B). { destruct (Nat.lt_ge_cases (S m) B) as [X0|X0]; [exact X0|exfalso]. apply In_nth_error in Iv. destruct Iv as [q Eq]. apply (down_not_out q v2 p v (S m) Eq E); [apply T2|rewrite Eo; apply in_seq; lia]. }
    unfold remains in *. rewrite DE in R1, R2 by lia. exact (TI v2 m Iv T2 LB R1 R2). }
  destruct (busy_dec v t) as [BU|ID].
  - destruct (out_loop p v v' B k x y) with (c := k) (o := B) (t := t) as (t' & -> & S1 & S2 & S3 & S4); try assumption; try lia.
    { apply (os_none B t B G); [intros i Li; lia|exact GR]. }
    exists t'. split; [reflexivity|]. constructor; [exact S1|exact S2|destruct S3; eauto| |apply TIGHT; intros i Li; apply S4; lia].
    intros u i j Iu Ii Ij Li Lj Ri Rj. destruct (Nat.ltb_spec i B) as [Bi|Bi], (Nat.ltb_spec j B) as [Bj|Bj].
    + unfold remains in *. rewrite S4 in Ri, Rj by assumption. apply (TH u i j); assumption.
    + exfalso. rewrite (OUTS u j Iu Ij ltac:(lia)) in Ii. rewrite Eo in Ii. apply in_seq in Ii. lia.
    + exfalso. rewrite (OUTS u i Iu Ii ltac:(lia)) in Ij. rewrite Eo in Ij. apply in_seq in Ij. lia.
    + destruct S3 as [G' DEAD _|m G' r Lm _ DEAD _]; unfold removed, remains in *.
      * rewrite DEAD in Ri by lia. discriminate.
      * destruct (Nat.eq_dec i m) as [->|Ni]; [|rewrite DEAD in Ri by (exact Ni || lia); discriminate]. destruct (Nat.eq_dec j m) as [->|Nj]; [reflexivity|rewrite DEAD in Rj by (exact Nj || lia); discriminate].
  - destruct (wrap_block p v v' B k x y) with (t := t) (G := G) as (t' & -> & S1 & S2 & S3 & S4 & S5); try assumption; [unfold k; lia|].
    exists t'. split; [reflexivity|]. constructor; [exact S1|exact S2|eauto| |apply TIGHT; intros i Li; apply S5; lia].
    intros u i j Iu Ii Ij Li Lj Ri Rj. destruct (Nat.ltb_spec i B) as [Bi|Bi]; [|unfold removed, remains in *; rewrite S4 in Ri by lia; discriminate]. destruct (Nat.ltb_spec j B) as [Bj|Bj]; [|unfold removed, remains in *; rewrite S4 in Rj by lia; discriminate].
    unfold remains in *. rewrite S5 in Ri, Rj by assumption. apply (TH u i j); assumption.
Qed.
Lemma vertex_loop : forall V2 V1 N oin t, V = V1 ++ V2 -> laid N oin V2 n -> inv t N -> exists t', merge_loop ops close (n - N) N t = Ok t' /\ inv t' n.
Proof.
  induction V2 as [|v V2 IH]; intros V1 N oin t EV LA IN.
  - cbn in LA. destruct LA as [_ <-]. rewrite Nat.sub_diag. exists t. auto.
  - assert (E : nth_error V (length V1) = Some v) by (rewrite EV, nth_error_app2, Nat.sub_diag by lia; reflexivity). cbn [laid] in LA. destruct LA as (_ & LD & LO & LA).
    assert (LE : forall V' N' oin' M, laid N' oin' V' M -> N' <= M) by (induction V' as [|u V' IHV]; intros N' oin' M; cbn [laid]; [intros [_ ->]; lia|intros (_ & _ & _ & H); apply IHV in H; lia]).
    pose proof (LE _ _ _ _ LA). set (kd := length (co_down v)) in *. set (ko := length (co_out v)) in *. replace (n - N) with (kd + (ko + (n - (N + kd + ko)))) by lia. rewrite merge_loop_app.
    destruct (down_loop (length V1) v E kd N t) as (t1 & -> & I1); [intros i Li; rewrite LD; apply in_seq; lia|exact IN|]. cbn [rbind]. rewrite merge_loop_app.
    destruct (out_block (length V1) v (N + kd) ko t1 E LO I1) as (t2 & -> & I2). cbn [rbind]. replace (N + kd + ko) with (N + kd + ko) by lia.
    apply (IH (V1 ++ [v]) (N + kd + ko) (co_out v) t2); [rewrite <- app_assoc; exact EV|exact LA|exact I2].
Qed.
Lemma inv_start : inv t0 0.
Proof.
  assert (AL : forall h, In h (concat R0) -> aliveb t0 h = true).
  { intros h I. apply (ri_all _ _ _ (pm_rings PM)) in I. apply alive_present. unfold present. rewrite (pm_del PM). apply nth_error_repeat. exact I. }
  assert (EN : nowt t0 = R0).
  { unfold now. rewrite <- (map_id R0) at 2. apply map_ext_in. intros r Ir. apply filter_every, Forall_forall. intros h Ih. apply AL. apply in_concat. eauto. }
  constructor.
  - constructor; [apply frame_refl| |rewrite EN; exact (pm_agree PM)]. rewrite EN. eapply rings_live; [|exact (pm_rings PM)]. intros h. unfold present. rewrite (pm_del PM). split; [intros L; apply nth_error_repeat; exact L|].
    intros X. assert (h_idx h < length (repeat false n)) by (apply nth_error_Some; congruence). rewrite repeat_length in H. exact H.
  - intros k L. split; [rewrite (pm_del PM); apply nth_error_repeat; lia|reflexivity].
  - exists []. split; [reflexivity|constructor].
  - intros v i j _ _ _ L. lia.
  - intros v k _ _ L. lia.
Qed.
Theorem merge_all : exists t', merge_coincident ops close t0 = Ok t' /\ inv t' n.
Proof. destruct (vertex_loop V [] 0 [] t0 eq_refl (pm_laid PM) inv_start) as (t' & E & I). exists t'. rewrite Nat.sub_0_r in E. split; [exact E|exact I]. Qed.
End Loop.
