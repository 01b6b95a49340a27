(** Proofs about the rings of a topology. *)
From Coq Require Import List Bool ZArith Arith Lia Permutation Sorted.
From Verif Require Import F64 F64Arith TreeVecModel GeomModel SegmentsModel SegmentsSpec SegmentsProofs CurveOrderModel SweepModel SweepSpec RangeModel RangeSpec TopoModel TopoSpec.
Import ListNotations.

Lemma upd_spec {A} (l : list A) i x l' : upd l i x = Some l' ->
  i < length l /\ length l' = length l /\ forall j, nth_error l' j = if j =? i then Some x else nth_error l j.
Proof.
  revert i l'. induction l as [|y l IH]; intros [|i] l' H; cbn [upd] in H; try discriminate.
  - injection H as <-. split; [cbn; lia|]. split; [reflexivity|]. intros [|j]; reflexivity.
  - destruct (upd l i x) as [m|] eqn:U; [|discriminate]. injection H as <-. destruct (IH _ _ U) as (A1 & A2 & A3).
    split; [cbn; lia|]. split; [cbn; lia|]. intros [|j]; [reflexivity|]. cbn [nth_error Nat.eqb]. apply A3.
Qed.
Lemma half_eqb_spec h k : half_eqb h k = true <-> h = k.
Proof.
  destruct h as [i b], k as [j c]. unfold half_eqb. cbn. rewrite andb_true_iff, Nat.eqb_eq, Bool.eqb_true_iff. split; [intros [-> ->]; reflexivity|injection 1; auto].
Qed.
Lemma half_dec (h k : half) : {h = k} + {h <> k}.
Proof. destruct (half_eqb h k) eqn:E; [left|right]; [apply half_eqb_spec, E|]. intros ->. rewrite (proj2 (half_eqb_spec k k) eq_refl) in E. discriminate. Qed.
Lemma half_eqb_refl h : half_eqb h h = true.
Proof. apply half_eqb_spec. reflexivity. Qed.
Lemma half_eqb_neq h k : h <> k -> half_eqb h k = false.
Proof. destruct (half_eqb h k) eqn:E; [|reflexivity]. apply half_eqb_spec in E. contradiction. Qed.

Lemma hv_set_spec {A} (v : list (A * A)) h x : h_idx h < length v -> exists v', hv_set v h x = Some v' /\ length v' = length v /\
  forall k, hv_get v' k = if half_eqb h k then Some x else hv_get v k.
Proof.
  intros L. unfold hv_set. destruct (nth_error v (h_idx h)) as [p|] eqn:E; [|apply nth_error_None in E; lia].
  destruct (upd_in_range v (h_idx h) (if h_first h then (x, snd p) else (fst p, x)) L) as [v' U]. exists v'. split; [exact U|].
  destruct (upd_spec _ _ _ _ U) as (A1 & A2 & A3). split; [exact A2|]. intros [j b]. unfold hv_get, half_eqb. cbn [h_idx h_first]. rewrite A3.
  rewrite (Nat.eqb_sym (h_idx h) j). destruct (Nat.eqb_spec j (h_idx h)) as [->|N]; [|reflexivity].
  rewrite E. cbn [option_map andb]. destruct (h_first h), b; reflexivity.
Qed.
Lemma hv_get_lt {A} (v : list (A * A)) h : h_idx h < length v -> exists x, hv_get v h = Some x.
Proof.
  intros L. unfold hv_get. destruct (nth_error v (h_idx h)) eqn:E; [eexists; reflexivity|]. apply nth_error_None in E. lia.
Qed.
Lemma hv_get_some {A} (v : list (A * A)) h x : hv_get v h = Some x -> h_idx h < length v.
Proof. unfold hv_get. intros H. apply nth_error_Some. destruct (nth_error v (h_idx h)); [discriminate|discriminate H]. Qed.

Lemma nodup_app {A} (l m : list A) : NoDup (l ++ m) <-> NoDup l /\ NoDup m /\ forall x, In x l -> ~ In x m.
Proof.
  induction l as [|x l IH]; cbn [app].
  - split; [intros H; split; [constructor|]; split; [exact H|intros x []]|intros (_ & H & _); exact H].
  - split.
    + intros H. inversion H as [|? ? N H']; subst. apply IH in H'. destruct H' as (A1 & A2 & A3). split; [constructor; [intros X; apply N, in_or_app; left; exact X|exact A1]|].
      split; [exact A2|]. intros y [<-|Hy]; [intros X; apply N, in_or_app; right; exact X|apply A3, Hy].
    + intros (H1 & H2 & H3). inversion H1 as [|? ? N H1']; subst. constructor; [|apply IH; split; [exact H1'|split; [exact H2|intros y Hy; apply H3; right; exact Hy]]].
      intros X. apply in_app_iff in X. destruct X as [X|X]; [apply N, X|]. apply (H3 x (or_introl eq_refl) X).
Qed.
Section Rings.
Context {W : Type}.
Implicit Types t : topo W.

(** Everything but end points and neighbours is the same. *)
Record kept t t' : Prop := {
  k_open : t_open t' = t_open t; k_wind : t_wind t' = t_wind t; k_points : t_points t' = t_points t; k_del : t_deleted t' = t_deleted t;
  k_west : t_west t' = t_west t; k_east : t_east t' = t_east t; k_after : t_after t' = t_after t; k_orig : t_orig t' = t_orig t; k_pos : t_pos t' = t_pos t;
  k_lp : length (t_pidx t') = length (t_pidx t); k_ln : length (t_nbrs t') = length (t_nbrs t) }.
Lemma kept_refl t : kept t t. Proof. constructor; reflexivity. Qed.
Lemma kept_trans t t' t'' : kept t t' -> kept t' t'' -> kept t t''.
Proof. intros [] []. constructor; congruence. Qed.

Lemma set_cw_spec t h k : h_idx h < length (t_nbrs t) -> exists t', set_cw t h k = Ok t' /\ kept t t' /\ t_pidx t' = t_pidx t /\
  (forall j, cw t' j = if half_eqb h j then Some k else cw t j) /\ (forall j, ccw t' j = ccw t j).
Proof.
  intros L. unfold set_cw. destruct (hv_get_lt _ _ L) as [n E]. rewrite E. cbn [orerr rbind].
  destruct (hv_set_spec (t_nbrs t) h (mkNb k (nb_ccw n)) L) as (v & -> & LV & G). cbn [orerr rbind]. eexists. split; [reflexivity|].
  split; [constructor; try reflexivity; exact LV|]. split; [reflexivity|]. unfold cw, ccw. cbn [with_nbrs t_nbrs]. split; intros j; rewrite G; destruct (half_eqb h j) eqn:Q; try reflexivity.
  apply half_eqb_spec in Q. subst j. rewrite E. reflexivity.
Qed.
Lemma set_ccw_spec t h k : h_idx h < length (t_nbrs t) -> exists t', set_ccw t h k = Ok t' /\ kept t t' /\ t_pidx t' = t_pidx t /\
  (forall j, ccw t' j = if half_eqb h j then Some k else ccw t j) /\ (forall j, cw t' j = cw t j).
Proof.
  intros L. unfold set_ccw. destruct (hv_get_lt _ _ L) as [n E]. rewrite E. cbn [orerr rbind].
  destruct (hv_set_spec (t_nbrs t) h (mkNb (nb_cw n) k) L) as (v & -> & LV & G). cbn [orerr rbind]. eexists. split; [reflexivity|].
  split; [constructor; try reflexivity; exact LV|]. split; [reflexivity|]. unfold cw, ccw. cbn [with_nbrs t_nbrs]. split; intros j; rewrite G; destruct (half_eqb h j) eqn:Q; try reflexivity.
  apply half_eqb_spec in Q. subst j. rewrite E. reflexivity.
Qed.
Lemma set_point_spec t h p : h_idx h < length (t_pidx t) -> exists t', set_point t h p = Ok t' /\ kept t t' /\
  (forall j, pt t' j = if half_eqb h j then Some p else pt t j) /\ (forall j, ccw t' j = ccw t j) /\ (forall j, cw t' j = cw t j).
Proof.
  intros L. unfold set_point. destruct (hv_set_spec (t_pidx t) h (Some p) L) as (v & -> & LV & G). cbn [orerr rbind]. eexists. split; [reflexivity|].
  split; [constructor; try reflexivity; exact LV|]. split; [|split; reflexivity]. unfold pt. cbn [with_pidx t_pidx]. intros j. rewrite G. destruct (half_eqb h j); reflexivity.
Qed.
(** [linked] pairs that are not touched. *)
Lemma link_spec t h k : h_idx h < length (t_nbrs t) -> h_idx k < length (t_nbrs t) ->
  exists t', (do! t := set_cw t h k in set_ccw t k h) = Ok t' /\ kept t t' /\ t_pidx t' = t_pidx t /\
    (forall j, cw t' j = if half_eqb h j then Some k else cw t j) /\ (forall j, ccw t' j = if half_eqb k j then Some h else ccw t j).
Proof.
  intros L1 L2. destruct (set_cw_spec t h k L1) as (t1 & -> & K1 & P1 & C1 & D1). cbn [rbind].
  destruct (set_ccw_spec t1 k h) as (t2 & -> & K2 & P2 & C2 & D2). { rewrite (k_ln _ _ K1). exact L2. }
  exists t2. split; [reflexivity|]. split; [eapply kept_trans; eassumption|]. split; [congruence|].
  split; intros j; [rewrite D2, C1; reflexivity|rewrite C2, D1; reflexivity].
Qed.
Lemma link_spec' t h k : h_idx h < length (t_nbrs t) -> h_idx k < length (t_nbrs t) ->
  exists t', (do! t := set_ccw t k h in set_cw t h k) = Ok t' /\ kept t t' /\ t_pidx t' = t_pidx t /\
    (forall j, cw t' j = if half_eqb h j then Some k else cw t j) /\ (forall j, ccw t' j = if half_eqb k j then Some h else ccw t j).
Proof.
  intros L1 L2. destruct (set_ccw_spec t k h L2) as (t1 & -> & K1 & P1 & C1 & D1). cbn [rbind].
  destruct (set_cw_spec t1 h k) as (t2 & -> & K2 & P2 & C2 & D2). { rewrite (k_ln _ _ K1). exact L1. }
  exists t2. split; [reflexivity|]. split; [eapply kept_trans; eassumption|]. split; [congruence|].
  split; intros j; [rewrite C2, D1; reflexivity|rewrite D2, C1; reflexivity].
Qed.

(** Consecutive pairs. *)
Definition pairs {A} (r : list A) : list (A * A) := combine r (tl r).
Definition lastof {A} (r : list A) : option A := hd_error (rev r).
Lemma pairs_cons {A} (x y : A) l : pairs (x :: y :: l) = (x, y) :: pairs (y :: l). Proof. reflexivity. Qed.
Lemma pairs_app {A} (l : list A) x m : pairs (l ++ x :: m) = pairs (l ++ [x]) ++ pairs (x :: m).
Proof.
  induction l as [|z l IH]; [reflexivity|]. destruct l as [|w l]; [reflexivity|]. cbn [app] in *. rewrite !pairs_cons, IH. reflexivity.
Qed.
Lemma pairs_snoc {A} (l : list A) x y : pairs (l ++ [x; y]) = pairs (l ++ [x]) ++ [(x, y)].
Proof. rewrite pairs_app. reflexivity. Qed.
Lemma pairs_in {A} (r : list A) x y : In (x, y) (pairs r) -> In x r /\ In y r.
Proof.
  unfold pairs. intros H. split; [eapply in_combine_l, H|]. apply in_combine_r in H. destruct r; [destruct H|right; exact H].
Qed.
Lemma combine_trunc {A B} (l m : list A) (k : list B) : length k <= length l -> combine (l ++ m) k = combine l k.
Proof.
  revert k. induction l as [|x l IH]; intros [|y k] L; cbn in L; try lia; try reflexivity; [destruct m; reflexivity|]. cbn. rewrite IH by lia. reflexivity.
Qed.
Lemma cyclic_cons {A} (f : A) r : cyclic (f :: r) = pairs (f :: r ++ [f]).
Proof.
  unfold cyclic, pairs. cbn [tl firstn]. change (f :: r ++ [f]) with ((f :: r) ++ [f]). rewrite combine_trunc; [reflexivity|]. rewrite app_length. cbn. lia.
Qed.
Lemma cyclic_snoc {A} (f : A) r l : cyclic ((f :: r) ++ [l]) = pairs ((f :: r) ++ [l]) ++ [(l, f)].
Proof. cbn [app]. rewrite cyclic_cons. rewrite <- app_assoc. cbn [app]. rewrite app_comm_cons, pairs_snoc. reflexivity. Qed.
Lemma lastof_snoc {A} (r : list A) x : lastof (r ++ [x]) = Some x.
Proof. unfold lastof. rewrite rev_app_distr. reflexivity. Qed.
Lemma last_case {A} (r : list A) : r = [] \/ exists l x, r = l ++ [x].
Proof. destruct r as [|x r] using rev_ind; [left; reflexivity|right; eauto]. Qed.

Definition valid t (h : half) : Prop := h_idx h < length (t_nbrs t) /\ h_idx h < length (t_pidx t).
Lemma kept_valid t t' h : kept t t' -> valid t h -> valid t' h.
Proof. intros K [A B]. split; [rewrite (k_ln _ _ K)|rewrite (k_lp _ _ K)]; assumption. Qed.

(** Attaching clockwise. *)
Lemma add_cw_loop_spec segs p : forall r t, Forall (valid t) (r ++ segs) -> NoDup (r ++ segs) -> Forall (linked t) (pairs r) ->
  exists t', add_cw_loop segs p (hd_error r) (lastof r) t = Ok (hd_error (r ++ segs), lastof (r ++ segs), t') /\ kept t t' /\
    Forall (linked t') (pairs (r ++ segs)) /\
    (forall h, In h segs -> pt t' h = Some p) /\ (forall h, ~ In h segs -> pt t' h = pt t h) /\
    (forall h, ~ In h (r ++ segs) -> cw t' h = cw t h /\ ccw t' h = ccw t h).
Proof.
  induction segs as [|s segs IH]; intros r t V ND LK; cbn [add_cw_loop].
  - exists t. rewrite app_nil_r. split; [reflexivity|]. split; [apply kept_refl|]. split; [exact LK|]. split; [intros h []|]. split; auto.
  - assert (Vs : valid t s) by (rewrite Forall_forall in V; apply V, in_or_app; right; left; reflexivity).
    destruct (set_point_spec t s p (proj2 Vs)) as (t1 & -> & K1 & P1 & C1 & D1). cbn [rbind].
    assert (STEP : exists t2, match lastof r with Some l => do! t := set_cw t1 l s in set_ccw t s l | None => Ok t1 end = Ok t2 /\ kept t1 t2 /\ t_pidx t2 = t_pidx t1 /\
       Forall (linked t2) (pairs (r ++ [s])) /\ (forall h, ~ In h (r ++ [s]) -> cw t2 h = cw t1 h /\ ccw t2 h = ccw t1 h)).
    { destruct (last_case r) as [->|(r' & l & ->)].
      - exists t1. split; [reflexivity|]. split; [apply kept_refl|]. split; [reflexivity|]. split; [constructor|auto].
      - rewrite lastof_snoc. assert (Vl : valid t l) by (rewrite Forall_forall in V; apply V, in_or_app; left; apply in_or_app; right; left; reflexivity).
        destruct (link_spec t1 l s) as (t2 & E & K2 & P2 & C2 & D2).
        { rewrite (k_ln _ _ K1). apply Vl. } { rewrite (k_ln _ _ K1). apply Vs. }
        exists t2. split; [exact E|]. split; [exact K2|]. split; [exact P2|]. split.
        + rewrite <- app_assoc. cbn [app]. rewrite pairs_snoc. apply Forall_app. split.
          * apply Forall_forall. intros [h k] Hi. rewrite Forall_forall in LK. specialize (LK _ Hi). destruct LK as [L1 L2]. cbn [fst snd] in *.
            destruct (pairs_in _ _ _ Hi) as [I1 I2].
            assert (N1 : k <> s). { intros ->. apply NoDup_remove_2 in ND. apply ND, in_or_app. left. exact I2. }
            assert (N2 : h <> l). { intros ->. assert (ND' : NoDup (r' ++ [l])) by (apply nodup_app in ND; apply ND).
              clear - Hi ND'. induction r' as [|x r' IH]; [destruct Hi|]. cbn [app] in *. inversion ND'; subst.
              destruct r' as [|y r']; cbn [app] in *.
              - destruct Hi as [Hi|[]]. injection Hi as -> ->. apply H1. left. reflexivity.
              - rewrite pairs_cons in Hi. destruct Hi as [Hi|Hi]; [injection Hi as -> ->; apply H1; right; apply in_or_app; right; left; reflexivity|]. apply IH; assumption. }
            split; cbn [fst snd]; [rewrite C2, half_eqb_neq by (intros Q; apply N2; congruence)|rewrite D2, half_eqb_neq by (intros Q; apply N1; congruence)]; rewrite ?C1, ?D1; assumption.
          * constructor; [|constructor]. split; cbn [fst snd]; [rewrite C2|rewrite D2]; rewrite half_eqb_refl; reflexivity.
        + intros h N. rewrite C2, D2. rewrite !half_eqb_neq; [auto| |].
          * intros ->. apply N, in_or_app. right. left. reflexivity.
          * intros ->. apply N, in_or_app. left. apply in_or_app. right. left. reflexivity. }
    destruct STEP as (t2 & -> & K2 & P2 & LK2 & F2). cbn [rbind]. pose proof (kept_trans _ _ _ K1 K2) as K12.
    assert (HD : match hd_error r with None => Some s | Some f => Some f end = hd_error (r ++ [s])) by (destruct r; reflexivity). rewrite HD.
    rewrite <- (lastof_snoc r s). replace (r ++ s :: segs) with ((r ++ [s]) ++ segs) in * by (rewrite <- app_assoc; reflexivity).
    destruct (IH (r ++ [s]) t2) as (t3 & E & K3 & LK3 & P3 & Q3 & F3).
    { eapply Forall_impl; [|exact V]. intros h. apply kept_valid, K12. } { exact ND. } { exact LK2. }
    exists t3. split; [exact E|]. split; [eapply kept_trans; eassumption|]. split; [exact LK3|].
    assert (PT2 : forall h, pt t2 h = pt t1 h) by (intros h; unfold pt; rewrite P2; reflexivity).
    split; [|split].
    + intros h [<-|Hh]; [|apply P3, Hh]. rewrite Q3. { rewrite PT2, P1, half_eqb_refl. reflexivity. }
      rewrite <- app_assoc in ND. cbn [app] in ND. apply NoDup_remove_2 in ND. intros X. apply ND, in_or_app. right. exact X.
    + intros h N. rewrite Q3 by (intros X; apply N; right; exact X). rewrite PT2, P1, half_eqb_neq; [reflexivity|]. intros ->. apply N. left. reflexivity.
    + intros h N. destruct (F3 h N) as [A B]. rewrite A, B. destruct (F2 h) as [A2 B2]. { intros X. apply N, in_or_app. left. exact X. } rewrite A2, B2, C1, D1. auto.
Qed.
Lemma close_ring_spec r : forall t, Forall (valid t) r -> NoDup r -> Forall (linked t) (pairs r) ->
  exists t', close_ring t (hd_error r) (lastof r) = Ok t' /\ kept t t' /\ t_pidx t' = t_pidx t /\ Forall (linked t') (cyclic r) /\
    (forall h, ~ In h r -> cw t' h = cw t h /\ ccw t' h = ccw t h).
Proof.
  intros t V ND LK. destruct r as [|f r].
  - exists t. split; [reflexivity|]. split; [apply kept_refl|]. split; [reflexivity|]. split; [constructor|auto].
  - assert (LC : exists l r', f :: r = r' ++ [l]) by (destruct (last_case (f :: r)) as [Q|(r' & l & Q)]; [discriminate Q|eauto]).
    destruct LC as (l & r' & Q). rewrite Q. rewrite lastof_snoc. rewrite <- Q. cbn [hd_error close_ring].
    assert (If : In f (f :: r)) by (left; reflexivity). assert (Il : In l (f :: r)) by (rewrite Q; apply in_or_app; right; left; reflexivity).
    rewrite Forall_forall in V. destruct (link_spec t l f) as (t' & E & K & P & C & D). { apply V, Il. } { apply V, If. }
    exists t'. split; [exact E|]. split; [exact K|]. split; [exact P|]. split.
    + assert (CY : forall p, In p (cyclic (f :: r)) -> In p (pairs (f :: r)) \/ p = (l, f)).
      { intros p Hp. rewrite cyclic_cons, app_comm_cons, Q, <- app_assoc in Hp. cbn [app] in Hp. rewrite pairs_snoc, <- Q in Hp. apply in_app_iff in Hp. destruct Hp as [Hp|[Hp|[]]]; auto. }
      apply Forall_forall. intros p Hp. destruct (CY p Hp) as [Hq| ->]; [|split; cbn [fst snd]; [rewrite C|rewrite D]; rewrite half_eqb_refl; reflexivity].
      rewrite Forall_forall in LK. specialize (LK p Hq). destruct p as [h k]. destruct LK as [L1 L2]. cbn [fst snd] in *. clear CY Hp.
      assert (N1 : k <> f). { intros ->. clear - Hq ND. inversion ND; subst. destruct r as [|x r]; [destruct Hq|]. apply H1. rewrite pairs_cons in Hq. destruct Hq as [Hq|Hq]; [injection Hq as ? ->; left; reflexivity|]. apply (pairs_in _ _ _ Hq). }
      assert (N2 : h <> l). { intros ->. rewrite Q in Hq, ND. clear - Hq ND. induction r' as [|x r' IH]; [destruct Hq|]. cbn [app] in *. inversion ND; subst.
              destruct r' as [|y r']; cbn [app] in *.
              - destruct Hq as [Hi|[]]. injection Hi as -> ->. apply H1. left. reflexivity.
              - rewrite pairs_cons in Hq. destruct Hq as [Hi|Hi]; [injection Hi as -> ->; apply H1; right; apply in_or_app; right; left; reflexivity|]. apply IH; assumption. }
      split; cbn [fst snd]; [rewrite C, half_eqb_neq by congruence|rewrite D, half_eqb_neq by congruence]; assumption.
    + intros h N. rewrite C, D, !half_eqb_neq; [auto| |]; intros ->; apply N; assumption.
Qed.
(** What [add_cw] and [add_ccw] do to the ring [r] of point [p]. *)
Definition attached t (r r' segs : list half) (p : nat) t' : Prop :=
  kept t t' /\ Forall (linked t') (cyclic r') /\ (forall h, In h segs -> pt t' h = Some p) /\ (forall h, ~ In h segs -> pt t' h = pt t h) /\
  (forall h, ~ In h r' -> cw t' h = cw t h /\ ccw t' h = ccw t h).
Lemma pairs_cyclic {A} (P : A * A -> Prop) r : Forall P (cyclic r) -> Forall P (pairs r).
Proof.
  destruct r as [|f r]; [intros; constructor|]. rewrite cyclic_cons. destruct (last_case (f :: r)) as [Q|(r' & l & Q)]; [discriminate|].
  rewrite app_comm_cons, Q, <- app_assoc. cbn [app]. rewrite pairs_snoc, Forall_app. tauto.
Qed.
Lemma add_cw_spec r segs p t : Forall (valid t) (r ++ segs) -> NoDup (r ++ segs) -> Forall (linked t) (cyclic r) ->
  exists t', add_cw (hd_error r) (lastof r) segs p t = Ok (hd_error (r ++ segs), lastof (r ++ segs), t') /\ attached t r (r ++ segs) segs p t'.
Proof.
  intros V ND LK. destruct (add_cw_loop_spec segs p r t V ND (pairs_cyclic _ _ LK)) as (t1 & E1 & K1 & L1 & P1 & Q1 & F1).
  unfold add_cw. rewrite E1. cbn [rbind]. destruct (close_ring_spec (r ++ segs) t1) as (t2 & -> & K2 & PP & L2 & F2).
  { eapply Forall_impl; [|exact V]. intros h. apply kept_valid, K1. } { exact ND. } { exact L1. }
  cbn [rbind]. exists t2. split; [reflexivity|]. split; [eapply kept_trans; eassumption|]. split; [exact L2|].
  assert (PT : forall h, pt t2 h = pt t1 h) by (intros h; unfold pt; rewrite PP; reflexivity).
  split; [intros h Hh; rewrite PT; apply P1, Hh|]. split; [intros h Hh; rewrite PT; apply Q1, Hh|].
  intros h N. destruct (F2 h N) as [A B], (F1 h N) as [A' B']. rewrite A, B, A', B'. auto.
Qed.

(** Attaching counter-clockwise. *)
Lemma lastof_cons {A} (x : A) r : lastof (x :: r) = match lastof r with None => Some x | Some l => Some l end.
Proof. unfold lastof. cbn [rev]. destruct (rev r); reflexivity. Qed.
Lemma add_ccw_loop_spec segs p : forall r t, Forall (valid t) (rev segs ++ r) -> NoDup (rev segs ++ r) -> Forall (linked t) (pairs r) ->
  exists t', add_ccw_loop segs p (hd_error r) (lastof r) t = Ok (hd_error (rev segs ++ r), lastof (rev segs ++ r), t') /\ kept t t' /\
    Forall (linked t') (pairs (rev segs ++ r)) /\
    (forall h, In h segs -> pt t' h = Some p) /\ (forall h, ~ In h segs -> pt t' h = pt t h) /\
    (forall h, ~ In h (rev segs ++ r) -> cw t' h = cw t h /\ ccw t' h = ccw t h).
Proof.
  induction segs as [|s segs IH]; intros r t V ND LK; cbn [add_ccw_loop].
  - exists t. split; [reflexivity|]. split; [apply kept_refl|]. split; [exact LK|]. split; [intros h []|]. split; auto.
  - cbn [rev] in *. replace ((rev segs ++ [s]) ++ r) with (rev segs ++ s :: r) in * by (rewrite <- app_assoc; reflexivity).
    assert (Vs : valid t s) by (rewrite Forall_forall in V; apply V, in_or_app; right; left; reflexivity).
    destruct (set_point_spec t s p (proj2 Vs)) as (t1 & -> & K1 & P1 & C1 & D1). cbn [rbind].
    assert (NDr : NoDup (s :: r)) by (apply nodup_app in ND; apply ND).
    assert (STEP : exists t2, match hd_error r with Some f => do! t := set_ccw t1 f s in set_cw t s f | None => Ok t1 end = Ok t2 /\ kept t1 t2 /\ t_pidx t2 = t_pidx t1 /\
       Forall (linked t2) (pairs (s :: r)) /\ (forall h, ~ In h (s :: r) -> cw t2 h = cw t1 h /\ ccw t2 h = ccw t1 h)).
    { destruct r as [|f r].
      - exists t1. split; [reflexivity|]. split; [apply kept_refl|]. split; [reflexivity|]. split; [constructor|auto].
      - cbn [hd_error]. assert (Vf : valid t f) by (rewrite Forall_forall in V; apply V, in_or_app; right; right; left; reflexivity).
        destruct (link_spec' t1 s f) as (t2 & E & K2 & P2 & C2 & D2).
        { rewrite (k_ln _ _ K1). apply Vs. } { rewrite (k_ln _ _ K1). apply Vf. }
        exists t2. split; [exact E|]. split; [exact K2|]. split; [exact P2|]. split.
        + rewrite pairs_cons. constructor; [split; cbn [fst snd]; [rewrite C2|rewrite D2]; rewrite half_eqb_refl; reflexivity|].
          apply Forall_forall. intros [h k] Hi. rewrite Forall_forall in LK. specialize (LK _ Hi). destruct LK as [L1 L2]. cbn [fst snd] in *.
          destruct (pairs_in _ _ _ Hi) as [I1 I2]. inversion NDr as [|? ? N1 N2]; subst. inversion N2 as [|? ? N3 N4]; subst.
          assert (X1 : h <> s) by (intros ->; apply N1, I1).
          assert (X2 : k <> f). { intros ->. apply N3. clear - Hi N3. destruct r as [|x r]; [destruct Hi|]. rewrite pairs_cons in Hi. destruct Hi as [Hi|Hi]; [injection Hi as ? ->; left; reflexivity|]. apply (pairs_in _ _ _ Hi). }
          split; cbn [fst snd]; [rewrite C2, half_eqb_neq by congruence|rewrite D2, half_eqb_neq by congruence]; rewrite ?C1, ?D1; assumption.
        + intros h N. rewrite C2, D2. rewrite !half_eqb_neq; [auto| |]; intros ->; apply N; [right; left|left]; reflexivity. }
    destruct STEP as (t2 & -> & K2 & P2 & LK2 & F2). cbn [rbind]. pose proof (kept_trans _ _ _ K1 K2) as K12.
    rewrite <- (lastof_cons s r). change (Some s) with (hd_error (s :: r)).
    destruct (IH (s :: r) t2) as (t3 & E & K3 & LK3 & P3 & Q3 & F3).
    { eapply Forall_impl; [|exact V]. intros h. apply kept_valid, K12. } { exact ND. } { exact LK2. }
    exists t3. split; [exact E|]. split; [eapply kept_trans; eassumption|]. split; [exact LK3|].
    assert (PT2 : forall h, pt t2 h = pt t1 h) by (intros h; unfold pt; rewrite P2; reflexivity).
    split; [|split].
    + intros h [<-|Hh]; [|apply P3, Hh]. rewrite Q3. { rewrite PT2, P1, half_eqb_refl. reflexivity. }
      apply NoDup_remove_2 in ND. intros X. apply ND, in_or_app. left. apply in_rev in X. exact X.
    + intros h N. rewrite Q3 by (intros X; apply N; right; exact X). rewrite PT2, P1, half_eqb_neq; [reflexivity|]. intros ->. apply N. left. reflexivity.
    + intros h N. destruct (F3 h N) as [A B]. rewrite A, B. destruct (F2 h) as [A2 B2]. { intros X. apply N, in_or_app. right. exact X. } rewrite A2, B2, C1, D1. auto.
Qed.
Lemma add_ccw_spec r segs p t : Forall (valid t) (rev segs ++ r) -> NoDup (rev segs ++ r) -> Forall (linked t) (cyclic r) ->
  exists t', add_ccw (hd_error r) (lastof r) segs p t = Ok (hd_error (rev segs ++ r), lastof (rev segs ++ r), t') /\ attached t r (rev segs ++ r) segs p t'.
Proof.
  intros V ND LK. destruct (add_ccw_loop_spec segs p r t V ND (pairs_cyclic _ _ LK)) as (t1 & E1 & K1 & L1 & P1 & Q1 & F1).
  unfold add_ccw. rewrite E1. cbn [rbind]. destruct (close_ring_spec (rev segs ++ r) t1) as (t2 & -> & K2 & PP & L2 & F2).
  { eapply Forall_impl; [|exact V]. intros h. apply kept_valid, K1. } { exact ND. } { exact L1. }
  cbn [rbind]. exists t2. split; [reflexivity|]. split; [eapply kept_trans; eassumption|]. split; [exact L2|].
  assert (PT : forall h, pt t2 h = pt t1 h) by (intros h; unfold pt; rewrite PP; reflexivity).
  split; [intros h Hh; rewrite PT; apply P1, Hh|]. split; [intros h Hh; rewrite PT; apply Q1, Hh|].
  intros h N. destruct (F2 h N) as [A B], (F1 h N) as [A' B']. rewrite A, B, A', B'. auto.
Qed.
End Rings.
