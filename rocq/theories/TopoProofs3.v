(** Proofs about one position of a range: opening output segments. *)
From Coq Require Import List Bool ZArith Arith Lia Permutation Sorted.
From Verif Require Import F64 F64Arith TreeVecModel GeomModel SegmentsModel SegmentsSpec SegmentsProofs CurveOrderModel SweepModel SweepSpec RangeModel RangeSpec TopoModel TopoSpec TopoProofs TopoProofs2.
Import ListNotations.

Section Alloc.
Context {W T : Type}.
Variable ops : wops W T.
Variable a : arena.
Variable tag : list T.
Implicit Types t : topo W.
Notation n := (arena_len a).
Notation gain := (gain ops a tag).

Fixpoint wlist (w : W) (gs : list W) : list (wpair W) :=
  match gs with [] => [] | g :: gs => mkWp (w_add ops w g) w :: wlist (w_add ops w g) gs end.
Fixpoint wend (w : W) (gs : list W) : W := match gs with [] => w | g :: gs => wend (w_add ops w g) gs end.
Fixpoint wests (west : option nat) (k m : nat) : list (option nat) := match m with 0 => [] | S m => west :: wests (Some k) (S k) m end.
Fixpoint lastw (west : option nat) (k m : nat) : option nat := match m with 0 => west | S m => lastw (Some k) (S k) m end.
Lemma wlist_length w gs : length (wlist w gs) = length gs.
Proof. revert w. induction gs as [|g gs IH]; intros w; [reflexivity|]. cbn. rewrite IH. reflexivity. Qed.
Lemma wests_length w k m : length (wests w k m) = m.
Proof. revert w k. induction m as [|m IH]; intros w k; [reflexivity|]. cbn. rewrite IH. reflexivity. Qed.

Definition fresh (o : nat) : nbrs := mkNb (first_half o) (first_half o).
(** [t'] is [t] with the segments [l] opened at point [p]. *)
Record alloc t t' (l : list nat) (ws : list (wpair W)) (we : list (option nat)) (po : list bool) (hor : bool) (p : nat) : Prop := {
  al_wind : t_wind t' = t_wind t ++ ws;
  al_pidx : t_pidx t' = t_pidx t ++ repeat (Some p, None) (length l);
  al_nbrs : t_nbrs t' = t_nbrs t ++ map (fun o => (fresh o, fresh o)) (seq (length (t_wind t)) (length l));
  al_del : t_deleted t' = t_deleted t ++ repeat false (length l);
  al_west : t_west t' = t_west t ++ we;
  al_east : t_east t' = t_east t ++ repeat None (length l);
  al_orig : t_orig t' = t_orig t ++ l;
  al_pos : t_pos t' = t_pos t ++ po;
  al_points : t_points t' = t_points t;
  al_after : t_after t' = t_after t;
  al_nopen : length (t_open t') = length (t_open t);
  al_open : forall s, nth_error (t_open t') s = match assoc (combine l (seq (length (t_wind t)) (length l))) s with
     | Some o => option_map (fun q => if hor then o :: q else q ++ [o]) (nth_error (t_open t) s)
     | None => nth_error (t_open t) s end;
  al_ws : length ws = length l }.

Lemma alloc_nil t hor p : alloc t t [] [] [] [] hor p.
Proof. constructor; cbn; rewrite ?app_nil_r; reflexivity. Qed.
Lemma alloc_cons t t1 t2 s l w ws we wes b po hor p : ~ In s l -> alloc t t1 [s] [w] [we] [b] hor p -> alloc t1 t2 l ws wes po hor p ->
  alloc t t2 (s :: l) (w :: ws) (we :: wes) (b :: po) hor p.
Proof.
  intros N [] []. assert (LW : length (t_wind t1) = S (length (t_wind t))) by (rewrite al_wind0, app_length; cbn; lia). rewrite LW in *.
  cbn [length repeat seq map combine] in *. constructor; try congruence.
  - rewrite al_wind1, al_wind0, <- app_assoc. reflexivity.
  - rewrite al_pidx1, al_pidx0, <- app_assoc. reflexivity.
  - rewrite al_nbrs1, al_nbrs0, <- app_assoc. reflexivity.
  - rewrite al_del1, al_del0, <- app_assoc. reflexivity.
  - rewrite al_west1, al_west0, <- app_assoc. reflexivity.
  - rewrite al_east1, al_east0, <- app_assoc. reflexivity.
  - rewrite al_orig1, al_orig0, <- app_assoc. reflexivity.
  - rewrite al_pos1, al_pos0, <- app_assoc. reflexivity.
  - intros s'. rewrite al_open1, al_open0. cbn [length seq combine assoc]. destruct (Nat.eqb_spec s s') as [<-|Q]; [|reflexivity].
    assert (X : assoc (combine l (seq (S (length (t_wind t))) (length l))) s = None).
    { apply assoc_none. rewrite map_fst_combine by apply seq_length. exact N. } rewrite X. reflexivity.
  - cbn. congruence.
Qed.
Lemma new_half_seg_spec t s p w hor b we : s < length (t_open t) -> length (t_west t) = length (t_wind t) ->
  exists t1 t2, new_half_seg t s p w hor b = Ok (length (t_wind t), t1) /\ set_west t1 (length (t_wind t)) we = Ok t2 /\ alloc t t2 [s] [w] [we] [b] hor p.
Proof.
  intros L LW. unfold new_half_seg. destruct (nth_error (t_open t) s) as [q|] eqn:E; [|apply nth_error_None in E; lia]. cbn [orerr rbind].
  destruct (upd_in_range (t_open t) s (if hor then length (t_wind t) :: q else q ++ [length (t_wind t)]) L) as [op U]. rewrite U. cbn [orerr rbind].
  assert (UL : upd (t_west t ++ [None]) (length (t_wind t)) we = Some (t_west t ++ [we])) by (rewrite <- LW; apply SegmentsProofs.upd_last).
  eexists. eexists. split; [reflexivity|]. split; [unfold set_west; cbn [t_west]; rewrite UL; reflexivity|].
  destruct (upd_spec _ _ _ _ U) as (_ & U2 & U3). constructor; cbn; try reflexivity; [exact U2|].
  intros s'. rewrite U3, (Nat.eqb_sym s s'). destruct (Nat.eqb_spec s' s) as [->|Q]; [rewrite E; reflexivity|reflexivity].
Qed.

Definition known t s : Prop := s < length (t_open t) /\ s < length tag /\ s < length (orientation a).
Lemma gain_eq s g o same : nth_error tag s = Some g -> nth_error (orientation a) s = Some o -> gain s same = w_single ops g (Bool.eqb same o).
Proof. intros H1 H2. unfold TopoSpec.gain. rewrite H1, H2. reflexivity. Qed.
Lemma downs_loop_spec l p : forall w west ld t, NoDup l -> Forall (known t) l -> length (t_west t) = length (t_wind t) ->
  exists t', downs_loop ops a tag l p w west ld t =
      Ok (map first_half (seq (length (t_wind t)) (length l)), wend w (map (fun s => gain s true) l),
          lastw west (length (t_wind t)) (length l), lastw ld (length (t_wind t)) (length l), t') /\
    alloc t t' l (wlist w (map (fun s => gain s true) l)) (wests west (length (t_wind t)) (length l)) (map (orient a) l) false p.
Proof.
  induction l as [|s l IH]; intros w west ld t ND KN LW; cbn [downs_loop].
  - exists t. split; [reflexivity|]. apply alloc_nil.
  - inversion ND as [|? ? N ND']; subst. inversion KN as [|? ? (K1 & K2 & K3) KN']; subst.
    unfold seg_pos, seg_tag. destruct (nth_error (orientation a) s) as [o|] eqn:E1; [|apply nth_error_None in E1; lia].
    destruct (nth_error tag s) as [g|] eqn:E2; [|apply nth_error_None in E2; lia]. cbn [orerr rbind].
    assert (G : w_single ops g o = gain s true) by (rewrite (gain_eq _ _ _ _ E2 E1); destruct o; reflexivity). rewrite G.
    destruct (new_half_seg_spec t s p (mkWp (w_add ops w (gain s true)) w) false o west K1 LW) as (t1 & t2 & -> & H2 & A). cbn [rbind]. rewrite H2. cbn [rbind].
    assert (LW2 : length (t_wind t2) = S (length (t_wind t))) by (rewrite (al_wind _ _ _ _ _ _ _ _ A), app_length; cbn; lia).
    destruct (IH (w_add ops w (gain s true)) (Some (length (t_wind t))) (Some (length (t_wind t))) t2 ND') as (t3 & -> & A3).
    { eapply Forall_impl; [|exact KN']. intros s' (X1 & X2 & X3). split; [rewrite (al_nopen _ _ _ _ _ _ _ _ A); exact X1|auto]. }
    { rewrite (al_west _ _ _ _ _ _ _ _ A), LW2, app_length. cbn. lia. }
    rewrite LW2 in *. cbn [rbind map length seq wend lastw wlist wests]. exists t3. split; [reflexivity|].
    replace (orient a s) with o by (unfold orient; rewrite E1; reflexivity). eapply alloc_cons; eassumption.
Qed.
Lemma houts_loop_spec l p west : forall w t, NoDup (map fst l) -> Forall (known t) (map fst l) -> length (t_west t) = length (t_wind t) ->
  exists t', houts_loop ops a tag l p w west t = Ok (map first_half (seq (length (t_wind t)) (length l)), t') /\
    alloc t t' (map fst l) (wlist w (map (fun q => gain (fst q) (snd q)) l)) (repeat west (length l)) (map (fun q => Bool.eqb (snd q) (orient a (fst q))) l) true p.
Proof.
  induction l as [|[s same] l IH]; intros w t ND KN LW; cbn [houts_loop].
  - exists t. split; [reflexivity|]. apply alloc_nil.
  - cbn [map fst snd] in *. inversion ND as [|? ? N ND']; subst. inversion KN as [|? ? (K1 & K2 & K3) KN']; subst.
    unfold seg_pos, seg_tag. destruct (nth_error (orientation a) s) as [o|] eqn:E1; [|apply nth_error_None in E1; lia].
    destruct (nth_error tag s) as [g|] eqn:E2; [|apply nth_error_None in E2; lia]. cbn [orerr rbind].
    rewrite <- (gain_eq _ _ _ same E2 E1).
    destruct (new_half_seg_spec t s p (mkWp (w_add ops w (gain s same)) w) true (Bool.eqb same o) west K1 LW) as (t1 & t2 & -> & H2 & A). cbn [rbind]. rewrite H2. cbn [rbind].
    assert (LW2 : length (t_wind t2) = S (length (t_wind t))) by (rewrite (al_wind _ _ _ _ _ _ _ _ A), app_length; cbn; lia).
    destruct (IH (w_add ops w (gain s same)) t2 ND') as (t3 & -> & A3).
    { eapply Forall_impl; [|exact KN']. intros s' (X1 & X2 & X3). split; [rewrite (al_nopen _ _ _ _ _ _ _ _ A); exact X1|auto]. }
    { rewrite (al_west _ _ _ _ _ _ _ _ A), LW2, app_length. cbn. lia. }
    rewrite LW2 in *. cbn [rbind map length seq wlist repeat]. exists t3. split; [reflexivity|].
    replace (orient a s) with o by (unfold orient; rewrite E1; reflexivity). eapply alloc_cons; eassumption.
Qed.

Lemma combine_seq (l : list nat) s : forall N k, nth_error l k = Some s -> In (s, N + k) (combine l (seq N (length l))).
Proof.
  induction l as [|x l IH]; intros N [|k] E; try discriminate; cbn in *; [injection E as ->; left; f_equal; lia|]. right. replace (N + S k) with (S N + k) by lia. apply IH, E.
Qed.
(** Opened segments are attached. *)
Definition add_f (f : nat -> option nat) (l : list (nat * nat)) (s : nat) : option nat := match assoc l s with Some o => Some o | None => f s end.
Lemma nth_error_app_lt {A} (l m : list A) i : i < length l -> nth_error (l ++ m) i = nth_error l i.
Proof. apply nth_error_app1. Qed.

Lemma open_some t t' R r hz old nw hz' old' nw' l ws we po (hor : bool) p hs : TI a t (R ++ [r]) hz old nw -> alloc t t' l ws we po hor p -> NoDup l ->
  length we = length l -> length po = length l -> Forall (fun s => s < n) l ->
  (forall s, opens hz' old' nw' s = match assoc (combine l (seq (length (t_wind t)) (length l))) s with
     | Some o => if hor then o :: opens hz old nw s else opens hz old nw s ++ [o] | None => opens hz old nw s end) ->
  hs = map first_half (seq (length (t_wind t)) (length l)) -> p = length R ->
  exists t2, add_ccw (hd_error r) (lastof r) hs p t' = Ok (hd_error (rev hs ++ r), lastof (rev hs ++ r), t2) /\
    TI a t2 (R ++ [rev hs ++ r]) hz' old' nw' /\ kept t' t2.
Proof.
  intros [I RI] AL ND LWE LPO LL OP EH EP. destruct AL. pose proof I as J. destruct J.
  set (N := length (t_wind t)) in *.
  assert (LW' : length (t_wind t') = N + length l) by (rewrite al_wind0, app_length, al_ws0; reflexivity).
  assert (CH : forall s o, In o (opens hz' old' nw' s) <-> In o (opens hz old nw s) \/ In (s, o) (combine l (seq N (length l)))).
  { intros s o. rewrite OP. destruct (assoc _ s) as [v|] eqn:E.
    - pose proof (assoc_in _ _ _ E) as X.
      assert (U : In (s, o) (combine l (seq N (length l))) <-> o = v).
      { split; [|intros ->; exact X]. intros Y. apply assoc_nodup in Y; [congruence|]. rewrite map_fst_combine by apply seq_length. exact ND. }
      rewrite U. destruct hor; [cbn; split; intros [Q|Q]; auto|]. rewrite in_app_iff. cbn. split; [intros [Q|[Q|[]]]; auto|intros [Q|Q]; auto].
    - split; [auto|]. intros [Q|Q]; [exact Q|]. exfalso. apply assoc_none in E. apply E. apply in_map_iff. exists (s, o). auto. }
  assert (NEW : forall s o, In (s, o) (combine l (seq N (length l))) -> In s l /\ N <= o < N + length l /\ nth_error l (o - N) = Some s).
  { intros s o H. apply In_nth_error in H. destruct H as [k H].
    assert (X : nth_error l k = Some s /\ nth_error (seq N (length l)) k = Some o).
    { clear - H. revert H. generalize (seq N (length l)). revert k. induction l as [|x l IH]; intros [|k] [|y m] H; try discriminate; cbn in *; [injection H as -> ->; auto|]. apply IH, H. }
    destruct X as [X1 X2]. assert (Lk : k < length l) by (apply nth_error_Some; congruence).
    assert (o = N + k). { rewrite nth_error_nth' with (d := 0) in X2 by (rewrite seq_length; exact Lk). rewrite seq_nth in X2 by exact Lk. congruence. }
    subst o. split; [eapply nth_error_In, X1|]. split; [lia|]. replace (N + k - N) with k by lia. exact X1. }
  assert (I' : LI a t' hz' old' nw').
  { constructor.
    - rewrite al_pidx0, LW', app_length, repeat_length. lia.
    - rewrite al_nbrs0, LW', app_length, map_length, seq_length. lia.
    - rewrite al_del0, LW', li_del, repeat_app. reflexivity.
    - rewrite al_west0, LW', app_length. lia.
    - rewrite al_east0, LW', app_length, repeat_length. lia.
    - rewrite al_orig0, LW', app_length. lia.
    - rewrite al_pos0, LW', app_length. lia.
    - congruence.
    - intros s Ls. rewrite al_open0, (li_open s Ls). fold (opens hz old nw s). fold (opens hz' old' nw' s). rewrite OP. destruct (assoc _ s); reflexivity.
    - intros s o H. apply in_opens, CH in H. destruct H as [H|H].
      + apply in_opens, li_own in H. destruct H as [H1 H2]. split; [exact H1|]. rewrite al_orig0, nth_error_app1; [exact H2|]. apply nth_error_Some. congruence.
      + destruct (NEW s o H) as (H1 & H2 & H3). rewrite Forall_forall in LL. split; [apply LL, H1|]. rewrite al_orig0, nth_error_app2 by lia. rewrite li_orig. exact H3.
    - intros s. fold (opens hz' old' nw' s). rewrite OP. pose proof (li_diff s) as D. fold (opens hz old nw s) in D. destruct (assoc _ s) as [o|] eqn:E; [|exact D].
      assert (FR : ~ In o (opens hz old nw s)).
      { intros X. apply in_opens in X. apply (LI_own_lt _ _ _ _ _ _ _ I) in X. destruct (NEW s o (assoc_in _ _ _ E)) as (_ & H2 & _). lia. }
      destruct hor; [constructor; assumption|]. apply nodup_app. split; [exact D|]. split; [constructor; [intros []|constructor]|]. intros x Hx [<-|[]]. contradiction. }
  assert (R' : rings t' (placed_half t hz old nw) (R ++ [r])).
  { assert (BND : forall p r0 h, nth_error (R ++ [r]) p = Some r0 -> In h r0 -> h_idx h < N).
    { intros q r0 h H Hh. assert (X : In h (concat (R ++ [r]))) by (eapply nth_concat; eassumption). apply (ri_all _ _ _ RI) in X. apply X. }
    destruct RI. constructor; try assumption; [congruence| |].
    - intros q r0 h H Hh. rewrite <- (ri_at q r0 h H Hh). unfold pt. rewrite al_pidx0, hv_get_app; [reflexivity|]. rewrite li_pidx. eapply BND; eassumption.
    - intros q r0 H. eapply linked_frame; [apply (ri_linked q), H|]. intros h Hh. unfold cw, ccw. rewrite al_nbrs0, hv_get_app; [auto|]. rewrite li_nbrs. eapply BND; eassumption. }
  assert (NDH : NoDup hs). { subst hs. apply FinFun.Injective_map_NoDup; [intros x y Q; injection Q; auto|apply seq_NoDup]. }
  assert (NL : forall h, In h hs -> ~ placed_half t hz old nw h).
  { intros h Hh [X _]. subst hs. apply in_map_iff in Hh. destruct Hh as (o & <- & Ho). apply in_seq in Ho. cbn in X. unfold N in *. lia. }
  assert (VH : forall h, In h (rev hs ++ r) -> h_idx h < length (t_wind t')).
  { intros h Hh. apply in_app_iff in Hh. rewrite LW'. destruct Hh as [Hh|Hh].
    - apply in_rev in Hh. subst hs. apply in_map_iff in Hh. destruct Hh as (o & <- & Ho). apply in_seq in Ho. cbn. lia.
    - assert (X : In h (concat (R ++ [r]))) by (apply (nth_concat _ (length R) r); [rewrite nth_error_app2, Nat.sub_diag by lia; reflexivity|exact Hh]). apply (ri_all _ _ _ RI) in X. destruct X as [X _]. unfold N. lia. }
  destruct (add_ccw_spec r hs p t') as (t2 & E2 & AT).
  { apply Forall_forall. intros h Hh. eapply LI_valid with (1 := I'), VH, Hh. }
  { apply nodup_app. split; [apply NoDup_rev, NDH|]. split.
    - pose proof (ri_nodup _ _ _ RI) as X. rewrite concat_app in X. apply nodup_app in X. cbn [concat] in X. rewrite app_nil_r in X. apply X.
    - intros h Hr Hh. apply in_rev in Hr. apply (NL h Hr). apply (ri_all _ _ _ RI). apply (nth_concat _ (length R) r); [rewrite nth_error_app2, Nat.sub_diag by lia; reflexivity|exact Hh]. }
  { apply (ri_linked _ _ _ R' (length R)). rewrite nth_error_app2, Nat.sub_diag by lia. reflexivity. }
  exists t2. split; [exact E2|]. pose proof (proj1 AT) as K. split; [|exact K]. split; [eapply LI_kept; eassumption|]. subst p.
  eapply rings_attach; [exact R'|exact AT|apply Permutation_app_tail; symmetry; apply Permutation_rev|exact NDH|exact NL|].
  intros h. unfold placed_half. rewrite (k_wind _ _ K), LW'.
  assert (OLD : forall o, o < N -> (opened hz' old' nw' o <-> opened hz old nw o)).
  { intros o Lo. split; intros (s & Q); exists s; apply in_opens; apply in_opens in Q; apply CH in Q || (apply CH; left; exact Q).
    destruct Q as [Q|Q]; [exact Q|]. destruct (NEW s o Q) as (_ & X & _). lia. }
  assert (ALLN : forall k, k < length l -> opened hz' old' nw' (N + k)).
  { intros k Lk. destruct (nth_error l k) as [s|] eqn:E; [|apply nth_error_None in E; lia]. exists s. apply in_opens, CH. right.
    apply combine_seq, E. }
  subst hs. split.
  - intros (L & X). destruct (Nat.lt_ge_cases (h_idx h) N) as [Q|Q].
    + right. split; [exact Q|]. rewrite <- (OLD _ Q). exact X.
    + left. destruct X as [X|X]; [|exfalso; apply X; replace (h_idx h) with (N + (h_idx h - N)) by lia; apply ALLN; lia].
      apply in_map_iff. exists (h_idx h). split; [destruct h as [i b]; cbn in *; subst; reflexivity|apply in_seq; lia].
  - intros [Hh|(L & X)].
    + apply in_map_iff in Hh. destruct Hh as (o & <- & Ho). apply in_seq in Ho. cbn. split; [lia|left; reflexivity].
    + split; [unfold N; lia|]. rewrite (OLD _ L). exact X.
Qed.
End Alloc.
