(** Merging coincident segments: rings. *)
From Coq Require Import List Bool ZArith Arith Lia Permutation Sorted.
From Verif Require Import F64 F64Arith TreeVecModel GeomModel SegmentsModel SegmentsSpec SegmentsProofs SweepModel RangeModel TopoModel TopoSpec TopoProofs TopoProofs2 TopoProofs4 TopoProofs7 TopoProofs10 WindSpec WindProofs MergeSpec.
Import ListNotations.

(** *** Cyclically adjacent pairs *)
Lemma cyclic_shift_perm {A} (r : list A) : Permutation (tl r ++ firstn 1 r) r.
Proof. destruct r as [|x r]; [constructor|]. cbn. symmetry. apply Permutation_cons_append. Qed.
Lemma cyclic_len {A} (r : list A) : length (tl r ++ firstn 1 r) = length r.
Proof. apply Permutation_length, cyclic_shift_perm. Qed.
Lemma cyclic_mem {A} (r : list A) u v : In (u, v) (cyclic r) -> In u r /\ In v r.
Proof.
  intros H. split; [eapply in_combine_l, H|]. eapply in_combine_r in H. eapply Permutation_in; [apply cyclic_shift_perm|exact H].
Qed.
Lemma cyclic_next {A} (r : list A) u v v' : NoDup r -> In (u, v) (cyclic r) -> In (u, v') (cyclic r) -> v = v'.
Proof.
  intros ND H1 H2. apply In_nth_error in H1, H2. destruct H1 as [i H1], H2 as [j H2]. unfold cyclic in *. rewrite SegmentsProofs.combine_nth_error in H1, H2.
  destruct (nth_error r i) as [x|] eqn:E1; [|discriminate]. destruct (nth_error r j) as [x'|] eqn:E2; [|discriminate].
  destruct (nth_error (tl r ++ firstn 1 r) i) as [z|] eqn:E3; [|discriminate]. destruct (nth_error (tl r ++ firstn 1 r) j) as [z'|] eqn:E4; [|discriminate].
  injection H1 as -> ->. injection H2 as -> ->. rewrite NoDup_nth_error in ND. assert (i = j) by (apply ND; [apply nth_error_Some; congruence|congruence]). congruence.
Qed.
Lemma cyclic_prev {A} (r : list A) u u' v : NoDup r -> In (u, v) (cyclic r) -> In (u', v) (cyclic r) -> u = u'.
Proof.
  intros ND H1 H2. apply (Permutation_NoDup (Permutation_sym (cyclic_shift_perm r))) in ND. apply In_nth_error in H1, H2. destruct H1 as [i H1], H2 as [j H2]. unfold cyclic in *. rewrite SegmentsProofs.combine_nth_error in H1, H2.
  destruct (nth_error r i) as [x|] eqn:E1; [|discriminate]. destruct (nth_error r j) as [x'|] eqn:E2; [|discriminate].
  destruct (nth_error (tl r ++ firstn 1 r) i) as [z|] eqn:E3; [|discriminate]. destruct (nth_error (tl r ++ firstn 1 r) j) as [z'|] eqn:E4; [|discriminate].
  injection H1 as -> ->. injection H2 as -> ->. rewrite NoDup_nth_error in ND. assert (i = j) by (apply ND; [apply nth_error_Some; congruence|congruence]). congruence.
Qed.
Lemma cyclic_two {A} (l : list A) u v m : In (u, v) (cyclic (l ++ u :: v :: m)).
Proof. eapply Permutation_in; [apply cyclic_rot|]. cbn [app]. left. reflexivity. Qed.
Lemma cyclic_wrap {A} (u v : A) l : In (u, v) (cyclic (v :: l ++ [u])).
Proof. change (v :: l ++ [u]) with ((v :: l) ++ [u]). eapply Permutation_in; [apply cyclic_rot|]. left. reflexivity. Qed.
Lemma cyclic_cases {A} (r : list A) u v : In (u, v) (cyclic r) -> (exists l1 l2 m, r = l1 ++ l2 /\ l2 ++ l1 = u :: v :: m) \/ (u = v /\ r = [u]).
Proof.
  intros H. apply In_nth_error in H. destruct H as [i H]. unfold cyclic in H. rewrite SegmentsProofs.combine_nth_error in H.
  destruct (nth_error r i) as [x|] eqn:E1; [|discriminate]. destruct (nth_error (tl r ++ firstn 1 r) i) as [z|] eqn:E2; [|discriminate]. injection H as -> ->.
  apply nth_error_split in E1. destruct E1 as (l1 & l2 & -> & L). destruct l2 as [|w l2].
  - destruct l1 as [|w l1].
    + right. cbn in *. subst i. cbn in E2. injection E2 as ->. auto.
    + left. exists (w :: l1), [u], l1. split; [reflexivity|]. cbn [tl app firstn] in E2. rewrite nth_error_app2 in E2 by (rewrite app_length; cbn in *; lia). rewrite app_length in E2. cbn in L, E2. replace (i - (length l1 + 1)) with 0 in E2 by lia. injection E2 as ->. reflexivity.
  - left. exists l1, (u :: w :: l2), (l2 ++ l1). split; [reflexivity|]. assert (w = v) as ->; [|reflexivity].
    destruct l1 as [|w' l1]; cbn [tl app] in E2; cbn in L; subst i; [cbn in E2; congruence|].
    rewrite nth_error_app1 in E2 by (rewrite app_length; cbn; lia). rewrite nth_error_app2 in E2 by lia. replace (S (length l1) - length l1) with 1 in E2 by lia. cbn in E2. congruence.
Qed.
Lemma cyclic_filter {A} (f : A -> bool) (r : list A) u v : In (u, v) (cyclic r) -> f u = true -> f v = true -> In (u, v) (cyclic (filter f r)).
Proof.
  intros H Fu Fv. apply cyclic_cases in H. destruct H as [(l1 & l2 & m & -> & E)|[<- ->]].
  - rewrite filter_app. eapply Permutation_in; [apply cyclic_rot|]. rewrite <- filter_app, E. cbn. rewrite Fu, Fv. left. reflexivity.
  - cbn. rewrite Fu. left. reflexivity.
Qed.
Lemma cyclic_without r h u v : NoDup r -> In (u, v) (cyclic (without h r)) ->
  (In (u, v) (cyclic r) /\ u <> h /\ v <> h) \/ (In (u, h) (cyclic r) /\ In (h, v) (cyclic r)).
Proof.
  intros ND H. destruct (in_dec half_dec h r) as [I|I].
  - apply in_split in I. destruct I as (l1 & l2 & ->). assert (NDm : NoDup (h :: l2 ++ l1)) by (apply (Permutation_NoDup (Permutation_app_comm l1 (h :: l2))) in ND; exact ND).
    inversion NDm as [|? ? NH NDx]; subst. assert (E : without h (l1 ++ h :: l2) = l1 ++ l2).
    { unfold without. rewrite filter_app. cbn [filter]. rewrite half_eqb_refl. cbn [negb]. fold (without h l1) (without h l2). rewrite !without_id; [reflexivity| |]; intros X; apply NH, in_or_app; tauto. }
    rewrite E in H. apply (Permutation_in _ (cyclic_rot l1 l2)) in H. assert (P : forall q, In q (cyclic (h :: l2 ++ l1)) -> In q (cyclic (l1 ++ h :: l2))) by (intros q; apply Permutation_in; symmetry; apply (cyclic_rot l1 (h :: l2))).
    destruct (l2 ++ l1) as [|x m]; [destruct H|]. destruct (cyclic_cons_split h x m) as (z & Lz & C1 & C2). rewrite C2 in H. apply in_app_iff in H. destruct H as [H|[H|[]]].
    + left. split; [apply P; rewrite C1; right; apply in_or_app; left; exact H|]. apply pairs_in in H. split; intros ->; apply NH; tauto.
    + right. injection H as -> ->. split; apply P; rewrite C1; [right; apply in_or_app; right; left; reflexivity|left; reflexivity].
  - left. rewrite without_id in H by exact I. split; [exact H|]. apply cyclic_mem in H. split; intros ->; tauto.
Qed.

(** *** Agreement of winding numbers *)
Section Agree.
Context {W : Type}.
Implicit Types t : topo W.
Lemma agree_drop t h r : NoDup r -> Forall (agree t) (cyclic r) -> winding_cw t h = winding_ccw t h -> Forall (agree t) (cyclic (without h r)).
Proof.
  intros ND F E. rewrite Forall_forall in *. intros [u v] H. apply (cyclic_without r h u v ND) in H. destruct H as [[H _]|[H1 H2]]; [apply F, H|].
  destruct (F _ H1) as (x & X1 & X2), (F _ H2) as (x' & X3 & X4). cbn [fst snd] in *. exists x. split; [exact X1|]. cbn [snd]. congruence.
Qed.
Lemma without_nodup h r : NoDup r -> NoDup (without h r). Proof. apply NoDup_filter. Qed.
(** A segment with the same winding number on both sides can be dropped. *)
Lemma agree_drop_seg t o r w : NoDup r -> Forall (agree t) (cyclic r) -> nth_error (t_wind t) o = Some (mkWp w w) -> Forall (agree t) (cyclic (without_seg o r)).
Proof.
  intros ND F E. unfold without_seg. apply agree_drop; [apply without_nodup, ND|apply agree_drop; [exact ND|exact F|]|]; unfold winding_cw, winding_ccw; cbn; rewrite E; reflexivity.
Qed.
(** [o] is dropped, and [m], which follows its first half and precedes its second half, takes over its counter-clockwise winding number. *)
Lemma agree_merge t t' o m r wo wm : NoDup r -> Forall (agree t) (cyclic r) -> o <> m ->
  nth_error (t_wind t) o = Some wo -> nth_error (t_wind t) m = Some wm -> nth_error (t_wind t') m = Some (mkWp (wn_ccw wo) (wn_cw wm)) ->
  (forall k, k <> m -> nth_error (t_wind t') k = nth_error (t_wind t) k) ->
  (In (first_half o) r \/ In (first_half m) r -> In (first_half o, first_half m) (cyclic r)) ->
  (In (second_half o) r \/ In (second_half m) r -> In (second_half m, second_half o) (cyclic r)) ->
  (In (first_half o) r -> In (second_half o) r -> False) ->
  Forall (agree t') (cyclic (without_seg o r)).
Proof.
  intros ND F NE Wo Wm Wm' WS A1 A2 DJ.
  assert (CW : forall h, h <> second_half m -> winding_cw t' h = winding_cw t h).
  { intros [k b] N. unfold winding_cw. cbn. destruct (Nat.eq_dec k m) as [->|X]; [|rewrite WS by exact X; reflexivity]. destruct b; [|exfalso; apply N; reflexivity]. rewrite Wm, Wm'. reflexivity. }
  assert (CCW : forall h, h <> first_half m -> winding_ccw t' h = winding_ccw t h).
  { intros [k b] N. unfold winding_ccw. cbn. destruct (Nat.eq_dec k m) as [->|X]; [|rewrite WS by exact X; reflexivity]. destruct b; [exfalso; apply N; reflexivity|]. rewrite Wm, Wm'. reflexivity. }
  assert (KEEP : forall u v, In (u, v) (cyclic r) -> u <> second_half o -> v <> second_half o -> u <> first_half o -> v <> first_half o -> agree t' (u, v)).
  { intros u v H N1 N2 N3 N4. rewrite Forall_forall in F. destruct (F _ H) as (x & X1 & X2). cbn [fst snd] in *. destruct (cyclic_mem _ _ _ H) as [Iu Iv].
    exists x. cbn [fst snd]. rewrite CW, CCW; [auto| |].
    - intros ->. apply N3. eapply cyclic_prev; [exact ND|exact H|]. apply A1. right. exact Iv.
    - intros ->. apply N2. eapply cyclic_next; [exact ND|exact H|]. apply A2. right. exact Iu. }
  assert (FIRST : forall u v, In (u, first_half o) (cyclic r) -> In (first_half o, v) (cyclic r) -> agree t' (u, v)).
  { intros u v H1 H2. destruct (cyclic_mem _ _ _ H1) as [Iu Io]. assert (v = first_half m) as -> by (eapply cyclic_next; [exact ND|exact H2|]; apply A1; left; exact Io).
    rewrite Forall_forall in F. destruct (F _ H1) as (x & X1 & X2). cbn [fst snd] in *. exists x. cbn [fst snd]. split.
    - rewrite CW; [exact X1|]. intros ->. assert (X : second_half o = first_half o); [|discriminate]. eapply cyclic_next; [exact ND|apply A2; right; exact Iu|exact H1].
    - unfold winding_ccw in *. cbn in *. rewrite Wm'. rewrite Wo in X2. exact X2. }
  assert (SECOND : forall u v, In (u, second_half o) (cyclic r) -> In (second_half o, v) (cyclic r) -> agree t' (u, v)).
  { intros u v H1 H2. destruct (cyclic_mem _ _ _ H2) as [Io Iv]. assert (u = second_half m) as -> by (eapply cyclic_prev; [exact ND|exact H1|]; apply A2; left; exact Io).
    rewrite Forall_forall in F. destruct (F _ H2) as (x & X1 & X2). cbn [fst snd] in *. exists x. cbn [fst snd]. split.
    - unfold winding_cw in *. cbn in *. rewrite Wm'. rewrite Wo in X1. exact X1.
    - rewrite CCW; [exact X2|]. intros ->. assert (X : first_half o = second_half o); [|discriminate]. eapply cyclic_prev; [exact ND|apply A1; right; exact Iv|exact H2]. }
  apply Forall_forall. intros [u v] H. unfold without_seg in H. destruct (in_dec half_dec (second_half o) r) as [I2|I2].
  - rewrite (without_id (first_half o)) in H by (intros X; exact (DJ X I2)). apply cyclic_without in H; [|exact ND]. destruct H as [(H & N1 & N2)|[H1 H2]]; [|apply SECOND; assumption].
    apply KEEP; try assumption; intros ->; apply cyclic_mem in H; destruct H; eapply DJ; eassumption.
  - rewrite (without_id (second_half o)) in H by (rewrite without_in; tauto). apply cyclic_without in H; [|exact ND]. destruct H as [(H & N1 & N2)|[H1 H2]]; [|apply FIRST; assumption].
    apply KEEP; try assumption; intros ->; apply cyclic_mem in H; tauto.
Qed.

(** A block across which the winding number does not change can be dropped. *)
Lemma ring_hchain t r : Forall (agree t) (cyclic r) -> (forall h, In h r -> winding_ccw t h <> None) -> r = [] \/ exists w, hchain t w r w.
Proof.
  intros F V. destruct r as [|h r]; [auto|right]. rewrite cyclic_cons in F. destruct (winding_ccw t h) as [w|] eqn:E; [|exfalso; apply (V h); [left; reflexivity|exact E]]. exists w.
  assert (G : forall l k u, winding_ccw t k = Some u -> Forall (agree t) (pairs (k :: l ++ [h])) -> hchain t u (k :: l) w).
  { induction l as [|k' l IH]; intros k u K P; cbn [app] in P; rewrite pairs_cons in P; inversion P as [|? ? (x & X1 & X2) P']; subst; cbn [fst snd] in *; cbn [hchain]; (split; [exact K|]); exists x; (split; [exact X1|]).
    - congruence.
    - apply (IH k' x X2 P'). }
  apply G; [exact E|exact F].
Qed.
Lemma hchain_split t l m : forall w u, hchain t w (l ++ m) u -> exists v, hchain t w l v /\ hchain t v m u.
Proof. induction l as [|h l IH]; intros w u H; cbn in *; [eauto|]. destruct H as (H1 & x & H2 & H3). apply IH in H3. destruct H3 as (v & H3 & H4). exists v. split; [split; [exact H1|]; eauto|exact H4]. Qed.
Lemma hchain_end t l : forall w u w' u', hchain t w l u -> hchain t w' l u' -> l <> [] -> w = w' /\ u = u'.
Proof.
  induction l as [|h l IH]; intros w u w' u' H H' N; [contradiction|]. cbn in *. destruct H as (H1 & x & H2 & H3), H' as (H1' & x' & H2' & H3'). split; [congruence|]. assert (x = x') by congruence. subst x'.
  destruct l as [|k l]; [cbn in *; congruence|]. apply (IH x u x u' H3 H3'). discriminate.
Qed.
Lemma agree_block t A M B w : Forall (agree t) (cyclic (A ++ M ++ B)) -> (forall h, In h (A ++ M ++ B) -> winding_ccw t h <> None) -> hchain t w M w -> Forall (agree t) (cyclic (A ++ B)).
Proof.
  intros F V C. destruct M as [|m0 M0] eqn:EM; [exact F|]. rewrite <- EM in *. destruct (ring_hchain t _ F V) as [E|(x & H)]; [exfalso; apply (f_equal (@length _)) in E; subst M; rewrite !app_length in E; cbn in E; lia|].
  apply hchain_split in H. destruct H as (v & H1 & H). apply hchain_split in H. destruct H as (v' & H2 & H3). destruct (hchain_end t M _ _ _ _ H2 C) as [-> ->]; [subst M; discriminate|].
  apply (hchain_ring t x). eapply hchain_app; eassumption.
Qed.
End Agree.
