(** Merging coincident segments: one merge. *)
From Coq Require Import List Bool ZArith Arith Lia Permutation Sorted.
From Verif Require Import F64 F64Arith TreeVecModel GeomModel SegmentsModel SegmentsSpec SegmentsProofs SweepModel RangeModel TopoModel TopoSpec TopoProofs TopoProofs2 TopoProofs4 TopoProofs7 TopoProofs9 TopoProofs10 WindSpec WindProofs MergeSpec MergeProofs.
Import ListNotations.

(** The output segments at a point. *)
Record corner : Type := mkCo { co_in : list nat; co_up : list nat; co_down : list nat; co_out : list nat }.
Definition cring (v : corner) : list half := ring_of (co_in v) (co_up v) (co_down v) (co_out v).
(** Output segments are numbered in the order in which they begin; horizontals end at the next point. *)
Fixpoint laid (N : nat) (oin : list nat) (V : list corner) (M : nat) : Prop :=
  match V with
  | [] => oin = [] /\ M = N
  | v :: V => co_in v = oin /\ co_down v = seq N (length (co_down v)) /\ co_out v = seq (N + length (co_down v)) (length (co_out v)) /\
      laid (N + length (co_down v) + length (co_out v)) (co_out v) V M
  end.

Section Frame.
Context {W T : Type}.
Variable ops : wops W T.
Variable close : nat -> nat -> f64 -> f64 -> bool.
Implicit Types t : topo W.

Definition aliveb t (h : half) : bool := match nth_error (t_deleted t) (h_idx h) with Some d => negb d | None => false end.
Lemma alive_present t h : aliveb t h = true <-> present t h.
Proof. unfold aliveb, present. destruct (nth_error (t_deleted t) (h_idx h)) as [[|]|]; cbn; split; intros H; try discriminate; reflexivity. Qed.
Record frame t t' : Prop := {
  fr_points : t_points t' = t_points t; fr_pidx : t_pidx t' = t_pidx t; fr_west : t_west t' = t_west t; fr_orig : t_orig t' = t_orig t; fr_pos : t_pos t' = t_pos t;
  fr_nbrs : length (t_nbrs t') = length (t_nbrs t); fr_wind : length (t_wind t') = length (t_wind t); fr_del : length (t_deleted t') = length (t_deleted t) }.
Lemma frame_refl t : frame t t. Proof. constructor; reflexivity. Qed.
Lemma frame_trans t t' t'' : frame t t' -> frame t' t'' -> frame t t''. Proof. intros [] []. constructor; congruence. Qed.

(** The end of [merge_one]. *)
Definition merge_into (o m : nat) t : res (topo W) :=
  do! t := delete t o in
  do! wi := orerr EIndex (nth_error (t_wind t) o) in
  do! wn := orerr EIndex (nth_error (t_wind t) m) in
  let wn := mkWp (wn_ccw wi) (wn_cw wn) in
  do! v := orerr EIndex (upd (t_wind t) m wn) in
  let t := with_wind t v in
  if w_eqb ops (wn_ccw wn) (wn_cw wn) then delete t m else Ok t.

Lemma merge_eval t o h p q x y w s1 s2 : nth_error (t_deleted t) o = Some false -> cw t (first_half o) = Some h ->
  pt t (first_half o) = Some p -> pt t (second_half o) = Some q -> nth_error (t_points t) p = Some x -> nth_error (t_points t) q = Some y ->
  hv_get (t_pidx t) (other_half h) <> None ->
  nth_error (t_west t) o = Some w -> nth_error (t_orig t) o = Some s1 -> nth_error (t_orig t) (h_idx h) = Some s2 ->
  merge_one ops close t o =
    if opt_eqb (Some q) (pt t (other_half h)) && negb (fne (py x) (py y) && (negb (opt_eqb w (Some (h_idx h))) || negb (close s1 s2 (py x) (py y))))
    then if h_first h then merge_into o (h_idx h) t else Err EAssert
    else Ok t.
Proof.
  intros D C P Q X Y V E1 E2 E3. unfold merge_one. rewrite D. cbn [orerr rbind]. unfold cw in C. destruct (hv_get (t_nbrs t) (first_half o)) as [nb|]; [|discriminate]. cbn [option_map] in C. injection C as C. cbn [orerr rbind].
  unfold pt in P, Q. destruct (hv_get (t_pidx t) (first_half o)) as [p'|] eqn:GP; [|discriminate]. destruct (hv_get (t_pidx t) (second_half o)) as [q'|] eqn:GQ; [|discriminate]. subst p' q'. cbn [orerr rbind]. rewrite C.
  unfold pt. destruct (hv_get (t_pidx t) (other_half h)) as [r|] eqn:GR; [|contradiction]. cbn [orerr rbind]. destruct (opt_eqb (Some q) r); [|reflexivity]. cbn [andb].
  unfold point_of. rewrite GP, GQ. cbn [orerr rbind]. rewrite X, Y. cbn [orerr rbind]. rewrite E1, E2, E3. cbn [orerr rbind]. destruct (fne (py x) (py y)); cbn [andb negb].
  - destruct (opt_eqb w (Some (h_idx h))); cbn [negb orb]; [|reflexivity]. destruct (close s1 s2 (py x) (py y)); cbn [negb]; [|reflexivity]. destruct (h_first h); reflexivity.
  - destruct (h_first h); reflexivity.
Qed.

Variable R0 : list (list half).
Definition now t : list (list half) := map (filter (aliveb t)) R0.
Lemma without_alive t t' o : upd (t_deleted t) o true = Some (t_deleted t') -> forall r, without_seg o (filter (aliveb t) r) = filter (aliveb t') r.
Proof.
  intros U r. destruct (upd_spec _ _ _ _ U) as (_ & LN & NT). unfold without_seg, without. rewrite !RangeProofs4.filter_filter. apply filter_ext. intros [k b]. unfold aliveb. cbn [h_idx]. rewrite NT.
  destruct (Nat.eqb_spec k o) as [->|N].
  - unfold half_eqb, first_half, second_half; cbn. rewrite Nat.eqb_refl. destruct b; cbn; rewrite ?andb_false_r; reflexivity.
  - unfold half_eqb, first_half, second_half. cbn. rewrite ?(proj2 (Nat.eqb_neq o k)), ?(proj2 (Nat.eqb_neq k o)) by congruence. cbn. rewrite ?andb_true_r. reflexivity.
Qed.

Lemma delete_now t o : rings t (present t) (now t) -> length (t_nbrs t) = length (t_deleted t) -> nth_error (t_deleted t) o = Some false ->
  exists t', delete t o = Ok t' /\ frame t t' /\ t_wind t' = t_wind t /\ upd (t_deleted t) o true = Some (t_deleted t') /\ rings t' (present t') (now t').
Proof.
  intros RI LN D. destruct (delete_spec t (present t) (now t) o RI) as (t' & E & DF & RI').
  { intros k Hk. rewrite LN. apply nth_error_Some. unfold present in Hk. congruence. } { apply nth_error_Some. congruence. } { exact D. } { exact D. }
  exists t'. split; [exact E|]. pose proof DF as [D1 D2 D3 D4 D5 D6 D7 D8 D9 D10 D11]. destruct (upd_spec _ _ _ _ D11) as (_ & L2 & NT). split; [constructor; congruence|]. split; [exact D2|]. split; [exact D11|].
  unfold now in *. rewrite map_map in RI'. rewrite (map_ext _ _ (without_alive t t' o D11)) in RI'. eapply rings_live; [|exact RI'].
  intros h. unfold present. rewrite NT. destruct (Nat.eqb_spec (h_idx h) o) as [->|N].
  - split; [intros [_ H]; contradiction|discriminate].
  - tauto.
Qed.

Lemma rings_wind t v live R : rings t live R -> rings (with_wind t v) live R.
Proof. intros []. constructor; assumption. Qed.
Lemma merge_into_spec t o m wo wm : rings t (present t) (now t) -> length (t_nbrs t) = length (t_deleted t) -> nth_error (t_deleted t) o = Some false -> nth_error (t_deleted t) m = Some false -> o <> m ->
  nth_error (t_wind t) o = Some wo -> nth_error (t_wind t) m = Some wm ->
  exists t', merge_into o m t = Ok t' /\ frame t t' /\ rings t' (present t') (now t') /\
    (forall k, k <> m -> nth_error (t_wind t') k = nth_error (t_wind t) k) /\ nth_error (t_wind t') m = Some (mkWp (wn_ccw wo) (wn_cw wm)) /\
    (if w_eqb ops (wn_ccw wo) (wn_cw wm)
     then (forall k, nth_error (t_deleted t') k = if (k =? o) || (k =? m) then Some true else nth_error (t_deleted t) k) /\ (forall r, filter (aliveb t') r = without_seg m (without_seg o (filter (aliveb t) r)))
     else (forall k, nth_error (t_deleted t') k = if k =? o then Some true else nth_error (t_deleted t) k) /\ (forall r, filter (aliveb t') r = without_seg o (filter (aliveb t) r))).
Proof.
  intros RI LN D1 D2 NE W1 W2. unfold merge_into. destruct (delete_now t o RI LN D1) as (t1 & -> & F1 & EW1 & U1 & RI1). cbn [rbind]. rewrite EW1, W1, W2. cbn [orerr rbind wn_ccw wn_cw].
  assert (Lm : m < length (t_wind t)) by (apply nth_error_Some; congruence). destruct (upd_in_range (t_wind t) m (mkWp (wn_ccw wo) (wn_cw wm)) Lm) as [v U2]. rewrite U2. cbn [orerr rbind].
  destruct (upd_spec _ _ _ _ U1) as (_ & L1 & N1). destruct (upd_spec _ _ _ _ U2) as (_ & L2 & N2). set (t2 := with_wind t1 v).
  assert (F2 : frame t t2) by (eapply frame_trans; [exact F1|]; constructor; try reflexivity; cbn; rewrite EW1; exact L2).
  assert (WN : (forall k, k <> m -> nth_error v k = nth_error (t_wind t) k) /\ nth_error v m = Some (mkWp (wn_ccw wo) (wn_cw wm))).
  { split; [intros k N|]; rewrite N2, ?Nat.eqb_refl; [rewrite (proj2 (Nat.eqb_neq k m)) by congruence; reflexivity|reflexivity]. }
  assert (DN1 : forall k, nth_error (t_deleted t1) k = if k =? o then Some true else nth_error (t_deleted t) k) by (exact N1).
  destruct (w_eqb ops (wn_ccw wo) (wn_cw wm)).
  - assert (D3 : nth_error (t_deleted t2) m = Some false) by (change (t_deleted t2) with (t_deleted t1); rewrite DN1, (proj2 (Nat.eqb_neq m o)) by congruence; exact D2).
    destruct (delete_now t2 m) as (t3 & -> & F3 & EW3 & U3 & RI3); [apply rings_wind, RI1|change (t_deleted t2) with (t_deleted t1); change (t_nbrs t2) with (t_nbrs t1); rewrite (fr_nbrs _ _ F1), L1; exact LN|exact D3|].
    exists t3. split; [reflexivity|]. split; [eapply frame_trans; eassumption|]. split; [exact RI3|]. rewrite EW3. split; [apply WN|]. split; [apply WN|].
    destruct (upd_spec _ _ _ _ U3) as (_ & L3 & N3). split.
    + intros k. rewrite N3. change (t_deleted t2) with (t_deleted t1). rewrite DN1. destruct (k =? o), (k =? m); reflexivity.
    + intros r. rewrite (without_alive t t1 o U1), <- (without_alive t2 t3 m U3). reflexivity.
  - exists t2. split; [reflexivity|]. split; [exact F2|]. split; [apply rings_wind, RI1|]. split; [apply WN|]. split; [apply WN|]. split; [exact DN1|].
    intros r. rewrite (without_alive t t1 o U1). reflexivity.
Qed.
End Frame.
