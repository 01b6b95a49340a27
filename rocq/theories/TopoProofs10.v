(** Proofs about deleting output segments. *)
From Coq Require Import List Bool ZArith Arith Lia Permutation Sorted.
From Verif Require Import F64 F64Arith TreeVecModel GeomModel SegmentsModel SegmentsSpec SegmentsProofs SweepModel RangeModel TopoModel TopoSpec TopoProofs TopoProofs2 TopoProofs7.
Import ListNotations.

(** Rotating a ring. *)
Lemma cyclic_rot {A} (l m : list A) : Permutation (cyclic (l ++ m)) (cyclic (m ++ l)).
Proof.
  revert m. induction l as [|x l IH]; intros m; [rewrite app_nil_r; reflexivity|]. cbn [app].
  replace (m ++ x :: l) with ((m ++ [x]) ++ l) by (rewrite <- app_assoc; reflexivity).
  rewrite <- (IH (m ++ [x])). rewrite app_assoc. generalize (l ++ m). clear. intros k. destruct k as [|y k]; [reflexivity|].
  rewrite cyclic_snoc, cyclic_cons. cbn [app]. rewrite pairs_cons. rewrite app_comm_cons. apply Permutation_cons_append.
Qed.
Lemma cyclic_cons_split {A} (h x : A) m : exists z, lastof (x :: m) = Some z /\ cyclic (h :: x :: m) = (h, x) :: pairs (x :: m) ++ [(z, h)] /\ cyclic (x :: m) = pairs (x :: m) ++ [(z, x)].
Proof.
  destruct (last_case (x :: m)) as [Q|(l & z & Q)]; [discriminate|]. exists z. rewrite Q, lastof_snoc. split; [reflexivity|].
  split.
  - rewrite cyclic_cons. cbn [app]. rewrite <- app_assoc. cbn [app]. destruct l as [|w l]; cbn in Q; injection Q as -> ->.
    + reflexivity.
    + cbn [app]. rewrite pairs_cons. f_equal. rewrite app_comm_cons, pairs_snoc. reflexivity.
  - destruct l as [|w l]; cbn in Q; injection Q as -> ->; [reflexivity|]. cbn [app]. rewrite app_comm_cons, cyclic_snoc. reflexivity.
Qed.

Section Delete.
Context {W : Type}.
Implicit Types t : topo W.
Definition without (h : half) (r : list half) : list half := filter (fun k => negb (half_eqb h k)) r.
Lemma without_id h r : ~ In h r -> without h r = r.
Proof.
  intros N. unfold without. induction r as [|k r IH]; [reflexivity|]. cbn [filter]. rewrite half_eqb_neq by (intros ->; apply N; left; reflexivity). cbn [negb]. rewrite IH; [reflexivity|]. intros X. apply N. right. exact X.
Qed.
Lemma without_in h r k : In k (without h r) <-> In k r /\ k <> h.
Proof.
  unfold without. rewrite filter_In. split; intros [A B]; split; try exact A.
  - intros ->. rewrite half_eqb_refl in B. discriminate.
  - rewrite half_eqb_neq by congruence. reflexivity.
Qed.
Lemma concat_filter {A} (f : A -> bool) R : concat (map (filter f) R) = filter f (concat R).
Proof. induction R as [|r R IH]; [reflexivity|]. cbn. rewrite filter_app, IH. reflexivity. Qed.

Lemma delete_half_spec t (live : half -> Prop) R h : rings t live R -> (forall k, live k -> h_idx k < length (t_nbrs t)) -> live h ->
  exists t', delete_half t h = Ok t' /\ kept t t' /\ t_pidx t' = t_pidx t /\ rings t' (fun k => live k /\ k <> h) (map (without h) R).
Proof.
  intros RI V L. pose proof RI as [RP RN RA RT RL]. pose proof L as Hh. apply RA in Hh. apply in_concat in Hh. destruct Hh as (r & Hr & Hh). apply In_nth_error in Hr. destruct Hr as [p Hr].
  apply in_split in Hh. destruct Hh as (l1 & l2 & E).
  assert (VV : forall k, In k r -> h_idx k < length (t_nbrs t)) by (intros k Hk; apply V, RA; eapply nth_concat; eassumption).
  assert (NDr : NoDup r).
  { clear - RN Hr. revert p Hr. induction R as [|r0 R IH]; intros [|p] Hr; try discriminate; cbn in *; apply nodup_app in RN; destruct RN as (N1 & N2 & _); [injection Hr as <-; exact N1|eapply IH; eassumption]. }
  assert (CY : Forall (linked t) (cyclic (h :: l2 ++ l1))).
  { pose proof (RL p r Hr) as X. rewrite E in X. rewrite (cyclic_rot l1 (h :: l2)) in X. exact X. }
  assert (NDm : NoDup (h :: l2 ++ l1)). { rewrite E in NDr. apply (Permutation_NoDup (Permutation_app_comm l1 (h :: l2))) in NDr. exact NDr. }
  assert (INm : forall k, In k (h :: l2 ++ l1) <-> In k r) by (intros k; rewrite E; cbn; rewrite !in_app_iff; cbn; tauto).
  (* the neighbours *)
  assert (NB : exists nx pv, cw t h = Some nx /\ ccw t h = Some pv /\ In nx r /\ In pv r /\
     forall t', (forall j, cw t' j = if half_eqb pv j then Some nx else cw t j) -> (forall j, ccw t' j = if half_eqb nx j then Some pv else ccw t j) -> Forall (linked t') (cyclic (l2 ++ l1))).
  { destruct (l2 ++ l1) as [|x m] eqn:Em.
    - inversion CY as [|? ? [A B] _]; subst. cbn [fst snd] in *. exists h, h. repeat split; try assumption; try (apply INm; left; reflexivity). constructor.
    - destruct (cyclic_cons_split h x m) as (z & Lz & C1 & C2). rewrite C1 in CY. inversion CY as [|? ? [A B] CY']; subst. cbn [fst snd] in *. apply Forall_app in CY'. destruct CY' as [CP CZ].
      inversion CZ as [|? ? [A' B'] _]; subst. cbn [fst snd] in *. exists x, z.
      assert (Hz : In z (x :: m)). { unfold lastof in Lz. destruct (rev (x :: m)) as [|z' q] eqn:Q; [discriminate|]. injection Lz as ->. apply in_rev. rewrite Q. left. reflexivity. }
      repeat split; try assumption; try (apply INm; right; assumption); [apply INm; right; left; reflexivity|].
      intros t' C D. rewrite C2. apply Forall_app. split.
      + rewrite Forall_forall in *. intros [j k] Hp. destruct (CP _ Hp) as [P Q]. cbn [fst snd] in *. inversion NDm as [|? ? NH ND2]; subst.
        assert (j <> z /\ k <> x).
        { clear - Hp ND2 Lz. destruct (last_case (x :: m)) as [X|(l & z' & X)]; [discriminate|]. rewrite X, lastof_snoc in Lz. injection Lz as ->. split; intros ->.
          - rewrite X in Hp, ND2. apply nodup_app in ND2. destruct ND2 as (_ & _ & D). unfold pairs in Hp. rewrite combine_trunc in Hp by (destruct l; cbn; rewrite ?app_length; cbn; lia). apply in_combine_l in Hp. apply (D z Hp). left. reflexivity.
          - unfold pairs in Hp. apply in_combine_r in Hp. cbn in Hp. inversion ND2; contradiction. }
        split; cbn [fst snd]; [rewrite C, half_eqb_neq by (intros X; symmetry in X; tauto)|rewrite D, half_eqb_neq by (intros X; symmetry in X; tauto)]; assumption.
      + constructor; [|constructor]. split; cbn [fst snd]; [rewrite C|rewrite D]; rewrite half_eqb_refl; reflexivity. }
  destruct NB as (nx & pv & CW & CCW & Inx & Ipv & NEW). unfold delete_half. unfold cw, ccw in CW, CCW. destruct (hv_get (t_nbrs t) h) as [n|] eqn:EG; [|discriminate]. cbn [option_map orerr rbind] in *. assert (nx = nb_cw n) by congruence. assert (pv = nb_ccw n) by congruence. subst nx pv. clear CW CCW.
  destruct (link_spec' t (nb_ccw n) (nb_cw n)) as (t' & E' & K & PP & C & D); [apply VV, Ipv|apply VV, Inx|]. exists t'. split; [exact E'|]. split; [exact K|]. split; [exact PP|].
  assert (OTHER : forall q r0, nth_error R q = Some r0 -> q <> p -> (forall k, In k r0 -> ~ In k r) /\ without h r0 = r0).
  { intros q r0 Hq N. assert (X : forall k, In k r0 -> ~ In k r). { intros k H1 H2. apply N. apply (flat_nodup_pos (fun x => x) R) with (x := r0) (y := r) (z := k); assumption. }
    split; [exact X|]. apply without_id. intros H. apply (X h H). apply INm. left. reflexivity. }
  assert (WR : without h r = l1 ++ l2).
  { rewrite E. unfold without. rewrite filter_app. cbn [filter]. rewrite half_eqb_refl. cbn [negb]. fold (without h l1). fold (without h l2). inversion NDm as [|? ? NH _]; subst.
    rewrite !without_id; [reflexivity| |]; intros X; apply NH; apply in_or_app; tauto. }
  constructor.
  - rewrite map_length, (k_points _ _ K). exact RP.
  - unfold without. rewrite concat_filter. apply NoDup_filter, RN.
  - intros k. unfold without. rewrite concat_filter. fold (without h (concat R)). rewrite without_in, RA. reflexivity.
  - intros q r0 k Hq Hk. rewrite nth_error_map' in Hq. destruct (nth_error R q) as [r1|] eqn:Q; [|discriminate]. injection Hq as <-. apply without_in in Hk. unfold pt. rewrite PP. apply (RT q r1 k Q), Hk.
  - intros q r0 Hq. rewrite nth_error_map' in Hq. destruct (nth_error R q) as [r1|] eqn:Q; [|discriminate]. injection Hq as <-. destruct (Nat.eq_dec q p) as [->|N].
    + assert (r1 = r) by congruence. subst r1. rewrite WR, (cyclic_rot l1 l2). apply NEW; assumption.
    + destruct (OTHER q r1 Q N) as [X ->]. apply linked_frame with (t := t); [apply (RL q r1 Q)|]. intros k Hk. rewrite C, D, !half_eqb_neq; [auto| |]; intros X'; subst k; eapply X; eauto.
Qed.

(** Deleting an output segment. *)
Definition without_seg (o : nat) (r : list half) : list half := without (second_half o) (without (first_half o) r).
Lemma without_seg_in o r k : In k (without_seg o r) <-> In k r /\ h_idx k <> o.
Proof.
  unfold without_seg. rewrite !without_in. destruct k as [i [|]]; unfold first_half, second_half; cbn [h_idx]; split.
  - intros [[A B] _]. split; [exact A|congruence].
  - intros [A B]. repeat split; [exact A|congruence|discriminate].
  - intros [[A _] B]. split; [exact A|congruence].
  - intros [A B]. repeat split; [exact A|discriminate|congruence].
Qed.
Record deleted_from t t' (o : nat) : Prop := {
  df_open : t_open t' = t_open t; df_wind : t_wind t' = t_wind t; df_points : t_points t' = t_points t; df_pidx : t_pidx t' = t_pidx t;
  df_west : t_west t' = t_west t; df_east : t_east t' = t_east t; df_after : t_after t' = t_after t; df_orig : t_orig t' = t_orig t; df_pos : t_pos t' = t_pos t;
  df_ln : length (t_nbrs t') = length (t_nbrs t); df_del : upd (t_deleted t) o true = Some (t_deleted t') }.
Lemma delete_spec t (live : half -> Prop) R o : rings t live R -> (forall k, live k -> h_idx k < length (t_nbrs t)) -> o < length (t_deleted t) -> live (first_half o) -> live (second_half o) ->
  exists t', delete t o = Ok t' /\ deleted_from t t' o /\ rings t' (fun k => live k /\ h_idx k <> o) (map (without_seg o) R).
Proof.
  intros RI V LO L1 L2. unfold delete. destruct (upd (t_deleted t) o true) as [d|] eqn:ED; [|exfalso; destruct (upd_in_range (t_deleted t) o true LO) as [q Q]; congruence]. cbn [orerr rbind].
  assert (RI0 : rings (with_deleted t d) live R) by (destruct RI; constructor; assumption).
  destruct (delete_half_spec (with_deleted t d) live R (first_half o) RI0 V L1) as (t1 & -> & K1 & P1 & R1). cbn [rbind].
  destruct (delete_half_spec t1 _ _ (second_half o) R1) as (t2 & -> & K2 & P2 & R2).
  { intros k [Lk _]. rewrite (k_ln _ _ K1). apply V, Lk. } { split; [exact L2|discriminate]. }
  exists t2. split; [reflexivity|]. split.
  - destruct K1, K2. cbn in *. constructor; try congruence. 
  - rewrite map_map in R2. eapply rings_live; [|exact R2]. intros k. cbn. destruct k as [i [|]]; unfold first_half, second_half; cbn [h_idx]; split; intros H; decompose [and] H; repeat split; try assumption; congruence.
Qed.
End Delete.
