(** Proofs about one position of a range: opening and closing output segments. *)
From Coq Require Import List Bool ZArith Arith Lia Permutation Sorted.
From Verif Require Import F64 F64Arith TreeVecModel GeomModel SegmentsModel SegmentsSpec SegmentsProofs CurveOrderModel SweepModel SweepSpec RangeModel RangeSpec TopoModel TopoSpec TopoProofs.
Import ListNotations.

Definition ol (o : option nat) : list nat := match o with Some x => [x] | None => [] end.
Definition memn (s : nat) (l : list nat) : bool := existsb (Nat.eqb s) l.
Lemma memn_spec s l : memn s l = true <-> In s l.
Proof. unfold memn. rewrite existsb_exists. split; [intros (x & Hx & E); apply Nat.eqb_eq in E; subst; exact Hx|intros H; exists s; split; [exact H|apply Nat.eqb_refl]]. Qed.
Lemma memn_false s l : memn s l = false <-> ~ In s l.
Proof. rewrite <- memn_spec. destruct (memn s l); split; congruence. Qed.
(** Association lists. *)
Fixpoint assoc (l : list (nat * nat)) (s : nat) : option nat :=
  match l with [] => None | (k, v) :: l => if k =? s then Some v else assoc l s end.
Lemma assoc_in l s v : assoc l s = Some v -> In (s, v) l.
Proof. induction l as [|[k w] l IH]; [discriminate|]. cbn [assoc]. destruct (Nat.eqb_spec k s) as [->|N]; [intros H; injection H as ->; left; reflexivity|intros H; right; apply IH, H]. Qed.
Lemma assoc_none l s : assoc l s = None <-> ~ In s (map fst l).
Proof.
  induction l as [|[k w] l IH]; [cbn; tauto|]. cbn [assoc map fst In]. destruct (Nat.eqb_spec k s) as [->|N]; [split; [discriminate|intros H; exfalso; apply H; left; reflexivity]|].
  rewrite IH. split; [intros H [X|X]; [apply N, X|apply H, X]|intros H X; apply H; right; exact X].
Qed.
Lemma assoc_nodup l s v : NoDup (map fst l) -> In (s, v) l -> assoc l s = Some v.
Proof.
  induction l as [|[k w] l IH]; [intros _ []|]. cbn [map fst assoc]. intros ND H. inversion ND as [|? ? N ND']; subst. destruct H as [H|H].
  - injection H as -> ->. rewrite Nat.eqb_refl. reflexivity.
  - destruct (Nat.eqb_spec k s) as [->|Q]; [|apply IH; assumption]. exfalso. apply N. apply in_map_iff. exists (s, v). auto.
Qed.
Lemma map_fst_combine {A B} (l : list A) (m : list B) : length m = length l -> map fst (combine l m) = l.
Proof. revert m. induction l as [|x l IH]; intros [|y m] L; try discriminate; [reflexivity|]. cbn. rewrite IH by (injection L; auto). reflexivity. Qed.
Lemma map_snd_combine {A B} (l : list A) (m : list B) : length m = length l -> map snd (combine l m) = m.
Proof. revert m. induction l as [|x l IH]; intros [|y m] L; try discriminate; [reflexivity|]. cbn. rewrite IH by (injection L; auto). reflexivity. Qed.

(** Indices of extended half-segment vectors. *)
Lemma hv_get_app {A} (v w : list (A * A)) h : h_idx h < length v -> hv_get (v ++ w) h = hv_get v h.
Proof. intros L. unfold hv_get. rewrite nth_error_app1 by exact L. reflexivity. Qed.

Section Point.
Context {W T : Type}.
Variable ops : wops W T.
Variable a : arena.
Variable tag : list T.
Implicit Types t : topo W.
Notation n := (arena_len a).

(** The output segment [o] is open. *)
Definition opened (hz old nw : nat -> option nat) (o : nat) : Prop := exists s, hz s = Some o \/ old s = Some o \/ nw s = Some o.
Record LI t (hz old nw : nat -> option nat) : Prop := {
  li_pidx : length (t_pidx t) = length (t_wind t);
  li_nbrs : length (t_nbrs t) = length (t_wind t);
  li_del : t_deleted t = repeat false (length (t_wind t));
  li_west : length (t_west t) = length (t_wind t);
  li_east : length (t_east t) = length (t_wind t);
  li_orig : length (t_orig t) = length (t_wind t);
  li_pos : length (t_pos t) = length (t_wind t);
  li_nopen : length (t_open t) = n;
  li_open : forall s, s < n -> nth_error (t_open t) s = Some (ol (hz s) ++ ol (old s) ++ ol (nw s));
  li_own : forall s o, hz s = Some o \/ old s = Some o \/ nw s = Some o -> s < n /\ nth_error (t_orig t) o = Some s;
  li_diff : forall s, NoDup (ol (hz s) ++ ol (old s) ++ ol (nw s)) }.
Definition placed_half t hz old nw (h : half) : Prop := h_idx h < length (t_wind t) /\ (h_first h = true \/ ~ opened hz old nw (h_idx h)).
Definition TI t R hz old nw : Prop := LI t hz old nw /\ rings t (placed_half t hz old nw) R.

Lemma LI_valid t hz old nw h : LI t hz old nw -> h_idx h < length (t_wind t) -> valid t h.
Proof. intros I L. split; [rewrite (li_nbrs _ _ _ _ I)|rewrite (li_pidx _ _ _ _ I)]; exact L. Qed.
Lemma LI_own_lt t hz old nw s o : LI t hz old nw -> hz s = Some o \/ old s = Some o \/ nw s = Some o -> o < length (t_wind t).
Proof. intros I H. destruct (li_own _ _ _ _ I s o H) as [_ E]. rewrite <- (li_orig _ _ _ _ I). apply nth_error_Some. congruence. Qed.
Lemma LI_kept t t' hz old nw : kept t t' -> LI t hz old nw -> LI t' hz old nw.
Proof.
  intros K []. destruct K. constructor; try congruence; try assumption.
  - intros s L. rewrite k_open. apply li_open0, L.
  - intros s o H. rewrite k_orig. apply li_own0, H.
Qed.
Lemma LI_ext t hz old nw hz' old' nw' : LI t hz old nw -> (forall s, hz' s = hz s) -> (forall s, old' s = old s) -> (forall s, nw' s = nw s) -> LI t hz' old' nw'.
Proof.
  intros [] H1 H2 H3. constructor; try assumption.
  - intros s L. rewrite H1, H2, H3. apply li_open0, L.
  - intros s o. rewrite H1, H2, H3. apply li_own0.
  - intros s. rewrite H1, H2, H3. apply li_diff0.
Qed.
Lemma opened_ext hz old nw hz' old' nw' o : (forall s, hz' s = hz s) -> (forall s, old' s = old s) -> (forall s, nw' s = nw s) -> opened hz' old' nw' o <-> opened hz old nw o.
Proof. intros H1 H2 H3. unfold opened. split; intros (s & Q); exists s; rewrite ?H1, ?H2, ?H3 in *; exact Q. Qed.

(** *** Rings *)
Lemma rings_live t (live live' : half -> Prop) R : (forall h, live h <-> live' h) -> rings t live R -> rings t live' R.
Proof. intros E []. constructor; try assumption. intros h. rewrite ri_all, E. reflexivity. Qed.
Lemma last_ring (R : list (list half)) r p r0 : nth_error (R ++ [r]) p = Some r0 -> (p < length R /\ nth_error R p = Some r0) \/ (p = length R /\ r0 = r).
Proof.
  intros H. destruct (Nat.lt_ge_cases p (length R)) as [L|L]; [rewrite nth_error_app1 in H by exact L; auto|].
  rewrite nth_error_app2 in H by exact L. destruct (p - length R) as [|k] eqn:E; [|destruct k; discriminate]. injection H as <-. right. split; [lia|reflexivity].
Qed.
Lemma nth_concat {A} (R : list (list A)) p r x : nth_error R p = Some r -> In x r -> In x (concat R).
Proof. intros H Hx. apply in_concat. exists r. split; [eapply nth_error_In, H|exact Hx]. Qed.
Lemma cyclic_in {A} (r : list A) x y : In (x, y) (cyclic r) -> In x r /\ In y r.
Proof.
  unfold cyclic. intros H. split; [eapply in_combine_l, H|]. apply in_combine_r in H. apply in_app_iff in H. destruct r as [|f r]; [destruct H as [[]|[]]|].
  destruct H as [H|[H|[]]]; [right; exact H|left; exact H].
Qed.
Lemma linked_frame t t' r : Forall (linked t) (cyclic r) -> (forall h, In h r -> cw t' h = cw t h /\ ccw t' h = ccw t h) -> Forall (linked t') (cyclic r).
Proof.
  intros H F. rewrite Forall_forall in *. intros [h k] Hp. destruct (cyclic_in _ _ _ Hp) as [I1 I2]. destruct (H _ Hp) as [A B]. cbn [fst snd] in *.
  split; cbn [fst snd]; [rewrite (proj1 (F h I1))|rewrite (proj2 (F k I2))]; assumption.
Qed.
Lemma rings_point t live R q : rings t live R -> rings (with_points t (t_points t ++ [q])) live (R ++ [[]]).
Proof.
  intros []. constructor.
  - cbn [with_points t_points]. rewrite !app_length. cbn. lia.
  - rewrite concat_app, app_nil_r. exact ri_nodup.
  - intros h. rewrite concat_app, app_nil_r. apply ri_all.
  - intros p r h H Hh. apply last_ring in H. destruct H as [[L H]|[_ ->]]; [apply (ri_at p r h H Hh)|destruct Hh].
  - intros p r H. apply last_ring in H. destruct H as [[L H]|[_ ->]]; [apply (ri_linked p r H)|constructor].
Qed.
Lemma rings_attach t t' (live live' : half -> Prop) R r r' segs : rings t live (R ++ [r]) -> attached t r r' segs (length R) t' ->
  Permutation r' (segs ++ r) -> NoDup segs -> (forall h, In h segs -> ~ live h) -> (forall h, live' h <-> In h segs \/ live h) ->
  rings t' live' (R ++ [r']).
Proof.
  intros [] (K & LK & P1 & P2 & F) PM ND NL LV.
  assert (NC : forall h, In h segs -> ~ In h (concat (R ++ [r]))) by (intros h Hh X; apply (NL h Hh), ri_all, X).
  rewrite concat_app in *. cbn [concat] in *. rewrite app_nil_r in *.
  assert (C2 : Permutation (concat (R ++ [r'])) (segs ++ (concat R ++ r))).
  { rewrite concat_app. cbn [concat]. rewrite app_nil_r, PM. rewrite !app_assoc. apply Permutation_app_tail, Permutation_app_comm. }
  constructor.
  - rewrite (k_points _ _ K). rewrite app_length in *. cbn [length] in *. exact ri_points.
  - rewrite C2. apply nodup_app. split; [exact ND|]. split; [exact ri_nodup|exact NC].
  - intros h. rewrite C2, in_app_iff, LV, ri_all. reflexivity.
  - intros p r0 h H Hh. apply last_ring in H. destruct H as [[L H]|[-> ->]].
    + assert (IR : In h (concat R)) by (eapply nth_concat; eassumption). rewrite P2. { apply (ri_at p r0); [rewrite nth_error_app1 by exact L; exact H|exact Hh]. }
      intros X. apply (NC h X), in_or_app. left. exact IR.
    + rewrite PM in Hh. apply in_app_iff in Hh. destruct Hh as [Hh|Hh]; [apply P1, Hh|]. rewrite P2.
      * apply (ri_at (length R) r); [rewrite nth_error_app2, Nat.sub_diag by lia; reflexivity|exact Hh].
      * intros X. apply (NC h X), in_or_app. right. exact Hh.
  - intros p r0 H. apply last_ring in H. destruct H as [[L H]|[-> ->]]; [|exact LK].
    apply linked_frame with (t := t); [apply (ri_linked p); rewrite nth_error_app1 by exact L; exact H|]. intros h Hh. apply F. rewrite PM, in_app_iff.
    assert (IR : In h (concat R)) by (eapply nth_concat; eassumption). apply nodup_app in ri_nodup. destruct ri_nodup as (_ & _ & D).
    intros [X|X]; [apply (NC h X), in_or_app; left; exact IR|apply (D h IR X)].
Qed.

(** *** Closing *)
Lemma second_halves_spec l : forall t (f : nat -> nat) (q : nat -> list nat), NoDup l -> (forall s, In s l -> nth_error (t_open t) s = Some (f s :: q s)) ->
  exists op, second_halves l t = Ok (map (fun s => second_half (f s)) l, with_open t op) /\ length op = length (t_open t) /\
    forall s, nth_error op s = if memn s l then Some (q s) else nth_error (t_open t) s.
Proof.
  induction l as [|s l IH]; intros t f q ND H; cbn [second_halves].
  - exists (t_open t). split; [destruct t; reflexivity|]. split; reflexivity.
  - rewrite (H s) by (left; reflexivity). cbn [orerr rbind]. inversion ND as [|? ? N ND']; subst.
    assert (L : s < length (t_open t)) by (apply nth_error_Some; rewrite (H s) by (left; reflexivity); discriminate).
    destruct (upd_in_range (t_open t) s (q s) L) as [op U]. rewrite U. cbn [orerr rbind]. destruct (upd_spec _ _ _ _ U) as (_ & U2 & U3).
    destruct (IH (with_open t op) f q ND') as (op' & -> & L' & G). { intros s' Hs'. cbn [with_open t_open]. rewrite U3. destruct (Nat.eqb_spec s' s) as [->|Q]; [contradiction|]. apply H. right. exact Hs'. }
    cbn [rbind]. exists op'. split; [reflexivity|]. split; [cbn [with_open t_open] in L'; congruence|]. intros s'. rewrite G. cbn [with_open t_open memn existsb].
    destruct (Nat.eqb_spec s' s) as [->|Q]; cbn [orb].
    + assert (M : memn s l = false) by (apply memn_false, N). rewrite M, U3, Nat.eqb_refl. reflexivity.
    + fold (memn s' l). destruct (memn s' l); [reflexivity|]. rewrite U3. destruct (Nat.eqb_spec s' s); [contradiction|reflexivity].
Qed.
Definition drop_f (f : nat -> option nat) (l : list nat) (s : nat) : option nat := if memn s l then None else f s.
Lemma drop_some f l s o : drop_f f l s = Some o <-> ~ In s l /\ f s = Some o.
Proof. unfold drop_f. destruct (memn s l) eqn:M; [apply memn_spec in M; split; [discriminate|intros [N _]; contradiction]|apply memn_false in M; tauto]. Qed.

Lemma LI_open t hz old nw op hz' old' nw' : LI t hz old nw -> length op = length (t_open t) ->
  (forall s, s < n -> nth_error op s = Some (ol (hz' s) ++ ol (old' s) ++ ol (nw' s))) ->
  (forall s o, hz' s = Some o \/ old' s = Some o \/ nw' s = Some o -> hz s = Some o \/ old s = Some o \/ nw s = Some o) ->
  (forall s, NoDup (ol (hz' s) ++ ol (old' s) ++ ol (nw' s))) -> LI (with_open t op) hz' old' nw'.
Proof.
  intros [] L O S D. constructor; try assumption; cbn [with_open t_open t_orig] in *; [congruence|]. intros s o H. apply li_own0, S, H.
Qed.
Lemma rings_open t live R op : rings t live R -> rings (with_open t op) live R.
Proof. intros []. constructor; assumption. Qed.

Definition opens hz old nw (s : nat) : list nat := ol (hz s) ++ ol (old s) ++ ol (nw s).
Lemma in_ol o x : In x (ol o) <-> o = Some x.
Proof. destruct o as [y|]; cbn; [split; [intros [->|[]]; reflexivity|intros H; injection H as ->; left; reflexivity]|split; [intros []|discriminate]]. Qed.
Lemma in_opens hz old nw s o : In o (opens hz old nw s) <-> hz s = Some o \/ old s = Some o \/ nw s = Some o.
Proof. unfold opens. rewrite !in_app_iff, !in_ol. reflexivity. Qed.
Lemma opened_dec t hz old nw o : LI t hz old nw -> opened hz old nw o \/ ~ opened hz old nw o.
Proof.
  intros I. destruct (nth_error (t_orig t) o) as [s|] eqn:E.
  - destruct (in_dec Nat.eq_dec o (opens hz old nw s)) as [H|H]; [left; exists s; apply in_opens, H|]. right. intros (s' & Q). pose proof (li_own _ _ _ _ I _ _ Q) as [_ E']. rewrite E in E'. injection E' as <-. apply H, in_opens, Q.
  - right. intros (s' & Q). pose proof (li_own _ _ _ _ I _ _ Q) as [_ E']. congruence.
Qed.

(** Closing some segments: each of [l] loses the front of its queue. *)
Lemma close_some t R r hz old nw hz' old' nw' l f hs : TI t (R ++ [r]) hz old nw -> NoDup l ->
  (forall s, In s l -> s < n /\ opens hz old nw s = f s :: opens hz' old' nw' s) ->
  (forall s, ~ In s l -> opens hz' old' nw' s = opens hz old nw s) -> hs = map (fun s => second_half (f s)) l ->
  exists t1 t2, second_halves l t = Ok (hs, t1) /\
    add_cw (hd_error r) (lastof r) hs (length R) t1 = Ok (hd_error (r ++ hs), lastof (r ++ hs), t2) /\
    TI t2 (R ++ [r ++ hs]) hz' old' nw' /\ kept (with_open t (t_open t2)) t2.
Proof.
  intros [I RI] ND HL HN EH. assert (LN : length (t_open t) = n) by apply I.
  assert (OP : forall s, s < n -> nth_error (t_open t) s = Some (opens hz old nw s)) by apply I.
  destruct (second_halves_spec l t f (opens hz' old' nw') ND) as (op & E1 & L1 & G1).
  { intros s Hs. destruct (HL s Hs) as [Ls Q]. rewrite OP by exact Ls. rewrite Q. reflexivity. }
  rewrite <- EH in E1. set (t1 := with_open t op) in *.
  assert (SUB : forall s o, In o (opens hz' old' nw' s) -> In o (opens hz old nw s)).
  { intros s o H. destruct (in_dec Nat.eq_dec s l) as [Hs|Hs]; [rewrite (proj2 (HL s Hs)); right; exact H|rewrite <- (HN s Hs); exact H]. }
  assert (NDO : forall s, NoDup (opens hz old nw s)) by apply I.
  assert (I1 : LI t1 hz' old' nw').
  { apply (LI_open t hz old nw); [exact I|exact L1| | |].
    - intros s Ls. rewrite G1. destruct (memn s l) eqn:M; [reflexivity|]. apply memn_false in M. rewrite OP by exact Ls. f_equal. symmetry. apply HN, M.
    - intros s o H. apply in_opens, SUB, in_opens, H.
    - intros s. fold (opens hz' old' nw' s). destruct (in_dec Nat.eq_dec s l) as [Hs|Hs]; [|rewrite (HN s Hs); apply NDO].
      specialize (NDO s). rewrite (proj2 (HL s Hs)) in NDO. inversion NDO; assumption. }
  pose proof (rings_open t _ _ op RI) as R1. fold t1 in R1.
  assert (FO : forall s, In s l -> In (f s) (opens hz old nw s)) by (intros s Hs; rewrite (proj2 (HL s Hs)); left; reflexivity).
  assert (FN : forall s s', In s l -> ~ In (f s) (opens hz' old' nw' s')).
  { intros s s' Hs X. pose proof (SUB _ _ X) as X2. apply in_opens in X2. destruct (li_own _ _ _ _ I _ _ X2) as [_ E2].
    pose proof (FO s Hs) as X3. apply in_opens in X3. destruct (li_own _ _ _ _ I _ _ X3) as [_ E3]. assert (s' = s) by congruence. subst s'.
    specialize (NDO s). rewrite (proj2 (HL s Hs)) in NDO. inversion NDO; contradiction. }
  assert (LT : forall s, In s l -> f s < length (t_wind t)) by (intros s Hs; eapply LI_own_lt; [exact I|apply in_opens, FO, Hs]).
  assert (INJ : forall s s', In s l -> In s' l -> f s = f s' -> s = s').
  { intros s s' H1 H2 E. pose proof (FO s H1) as X1. pose proof (FO s' H2) as X2. apply in_opens in X1, X2. destruct (li_own _ _ _ _ I _ _ X1), (li_own _ _ _ _ I _ _ X2). congruence. }
  assert (NDH : NoDup hs).
  { subst hs. clear - ND INJ. induction l as [|s l IH]; [constructor|]. inversion ND as [|? ? N ND']; subst. cbn [map]. constructor.
    - intros X. apply in_map_iff in X. destruct X as (s' & E & Hs'). injection E as E. apply N. rewrite (INJ s s'); [exact Hs'|left; reflexivity|right; exact Hs'|congruence].
    - apply IH; [exact ND'|]. intros u v Hu Hv. apply INJ; right; assumption. }
  assert (NL : forall h, In h hs -> ~ placed_half t hz old nw h).
  { intros h Hh [_ [X|X]]; subst hs; apply in_map_iff in Hh; destruct Hh as (s & <- & Hs); [discriminate X|]. apply X. exists s. apply in_opens, FO, Hs. }
  destruct (add_cw_spec r hs (length R) t1) as (t2 & E2 & AT).
  { apply Forall_app. split; apply Forall_forall; intros h Hh; eapply LI_valid with (1 := I1); cbn [t1 with_open t_wind].
    - assert (X : In h (concat (R ++ [r]))) by (apply (nth_concat _ (length R) r); [rewrite nth_error_app2, Nat.sub_diag by lia; reflexivity|exact Hh]). apply (ri_all _ _ _ RI) in X. apply X.
    - subst hs. apply in_map_iff in Hh. destruct Hh as (s & <- & Hs). cbn. apply LT, Hs. }
  { apply nodup_app. split; [|split; [exact NDH|]].
    - pose proof (ri_nodup _ _ _ RI) as X. rewrite concat_app in X. apply nodup_app in X. cbn [concat] in X. rewrite app_nil_r in X. apply X.
    - intros h Hr Hh. apply (NL h Hh). apply (ri_all _ _ _ RI). apply (nth_concat _ (length R) r); [rewrite nth_error_app2, Nat.sub_diag by lia; reflexivity|exact Hr]. }
  { apply (ri_linked _ _ _ R1 (length R)). rewrite nth_error_app2, Nat.sub_diag by lia. reflexivity. }
  exists t1, t2. split; [exact E1|]. split; [exact E2|]. pose proof (proj1 AT) as K. split; [|rewrite (k_open _ _ K); exact K].
  split; [eapply LI_kept; eassumption|].
  eapply rings_attach; [exact R1|exact AT|apply Permutation_app_comm|exact NDH|exact NL|].
  intros h. unfold placed_half. rewrite (k_wind _ _ K). cbn [t1 with_open t_wind].
  assert (OO : forall o, opened hz' old' nw' o <-> opened hz old nw o /\ forall s, In s l -> o <> f s).
  { intros o. split.
    - intros (s & Q). apply in_opens in Q. split; [exists s; apply in_opens, SUB, Q|]. intros s' Hs' ->. apply (FN s' s Hs' Q).
    - intros ((s & Q) & N). exists s. apply in_opens. apply in_opens in Q. destruct (in_dec Nat.eq_dec s l) as [Hs|Hs]; [|rewrite (HN s Hs); exact Q].
      rewrite (proj2 (HL s Hs)) in Q. destruct Q as [Q|Q]; [exfalso; apply (N s Hs); congruence|exact Q]. }
  subst hs. split.
  - intros (L & [X|X]); [right; split; [exact L|left; exact X]|]. destruct (h_first h) eqn:HF; [right; split; [exact L|left; reflexivity]|].
    destruct (opened_dec t hz old nw (h_idx h) I) as [O|O]; [|right; split; [exact L|right; exact O]]. left.
    destruct O as (s & Q). apply in_opens in Q. destruct (in_dec Nat.eq_dec s l) as [Hs|Hs].
    + apply in_map_iff. exists s. split; [|exact Hs]. rewrite (proj2 (HL s Hs)) in Q. destruct Q as [Q|Q].
      * destruct h as [i b]. cbn in *. subst. reflexivity.
      * exfalso. apply X. exists s. apply in_opens, Q.
    + exfalso. apply X. exists s. apply in_opens. rewrite (HN s Hs). exact Q.
  - intros [Hh|(L & X)].
    + apply in_map_iff in Hh. destruct Hh as (s & <- & Hs). cbn. split; [apply LT, Hs|]. right. rewrite OO. intros [_ N]. apply (N s Hs). reflexivity.
    + split; [exact L|]. destruct X as [X|X]; [left; exact X|right]. rewrite OO. tauto.
Qed.
End Point.
