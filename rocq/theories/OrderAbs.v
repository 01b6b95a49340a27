(** Which pairs of a sweep line can be out of order at a fixed height: the argument behind the
    intersection scans, on lists of segments.  At the height in question, segment [i] is at [P i]; it may
    have ended ([dead]); and [ev i j] says that an event about [i] and [j] is queued for this height or an
    earlier one. *)
From Coq Require Import List Bool Arith Lia Reals Lra.
Import ListNotations.

Ltac asc := repeat (rewrite <- app_assoc; cbn [app]); cbn [app]; rewrite <- ?app_assoc; reflexivity.

Lemma pair_cases {A : Type} (l1 : list A) j M k l2 A1 b A2 : l1 ++ j :: M ++ k :: l2 = A1 ++ b :: A2 ->
  (exists r, A1 = l1 ++ j :: M ++ k :: r) \/
  (exists r, A2 = r ++ j :: M ++ k :: l2) \/
  (j = b /\ A2 = M ++ k :: l2) \/
  (k = b /\ A1 = l1 ++ j :: M) \/
  (exists M1 M2, M = M1 ++ b :: M2 /\ A1 = l1 ++ j :: M1 /\ A2 = M2 ++ k :: l2).
Proof.
  intros H. apply app_eq_app in H. destruct H as (r & [[E1 E2]|[E1 E2]]).
  - destruct r as [|x r].
    + cbn [app] in E2. injection E2 as <- ->. right. right. left. auto.
    + cbn [app] in E2. injection E2 as <- ->. right. left. exists r. reflexivity.
  - destruct r as [|x r].
    + cbn [app] in E2. injection E2 as -> <-. right. right. left. auto.
    + cbn [app] in E2. injection E2 as <- E2. apply app_eq_app in E2. destruct E2 as (r2 & [[E3 E4]|[E3 E4]]).
      * destruct r2 as [|x2 r2].
        -- cbn [app] in E4. injection E4 as <- <-. rewrite app_nil_r in E3. subst. right. right. right. left. auto.
        -- cbn [app] in E4. injection E4 as <- ->. subst. right. right. right. right. exists r, r2. auto.
      * destruct r2 as [|x2 r2].
        -- cbn [app] in E4. injection E4 as <- <-. rewrite app_nil_r in E3. subst. right. right. right. left. auto.
        -- cbn [app] in E4. injection E4 as <- ->. subst. left. exists r2. reflexivity.
Qed.
Lemma filter_mid {A} (f : A -> bool) l : forall u x v, filter f l = u ++ x :: v ->
  exists l1 l2, l = l1 ++ x :: l2 /\ filter f l1 = u /\ filter f l2 = v.
Proof.
  induction l as [|y l IH]; intros u x v H; cbn [filter] in H; [destruct u; discriminate|].
  destruct (f y) eqn:E.
  - destruct u as [|z u]; cbn [app] in H; injection H as -> H.
    + exists [], l. auto.
    + destruct (IH _ _ _ H) as (l1 & l2 & -> & <- & <-). exists (z :: l1), l2. cbn [app filter]. rewrite E. auto.
  - destruct (IH _ _ _ H) as (l1 & l2 & -> & <- & <-). exists (y :: l1), l2. cbn [app filter]. rewrite E. auto.
Qed.
Lemma first_false {A} (f : A -> bool) l : filter f l = l \/ exists u x v, l = u ++ x :: v /\ filter f u = u /\ f x = false.
Proof.
  induction l as [|x l IH]; [left; reflexivity|]. cbn [filter]. destruct (f x) eqn:E; [|right; exists [], x, l; auto].
  destruct IH as [IH|(u & z & v & -> & H1 & H2)]; [left; congruence|]. right. exists (x :: u), z, v. cbn [app filter]. rewrite E, H1. auto.
Qed.

Lemma exists_last_or_nil {A} (l : list A) : l = [] \/ exists u x, l = u ++ [x].
Proof. destruct l as [|y l]; [left; reflexivity|]. right. destruct (exists_last (l := y :: l) ltac:(discriminate)) as (u & x & E). eauto. Qed.
Lemma filter_length_le' {A} (f : A -> bool) l : length (filter f l) <= length l.
Proof. induction l; cbn [filter length]; [lia|]. destruct (f a); cbn [length]; lia. Qed.
Lemma NoDup_put {A} (l l' : list A) x : NoDup (l ++ l') -> ~ In x (l ++ l') -> NoDup (l ++ x :: l').
Proof.
  induction l as [|y l IH]; cbn [app]; intros H HI; [constructor; assumption|]. inversion H; subst. constructor.
  - rewrite in_app_iff in *. cbn [In] in *. rewrite in_app_iff in HI. intros [X|[X|X]]; [tauto| |tauto]. subst. tauto.
  - apply IH; [assumption|]. cbn [In] in HI. tauto.
Qed.
Lemma nodup_cut {A} (u v u' v' : list A) x : NoDup (u ++ x :: v) -> u ++ x :: v = u' ++ x :: v' -> v = v'.
Proof.
  revert u'. induction u as [|y u IH]; intros [|y' u'] ND E; cbn [app] in *.
  - congruence.
  - injection E as E0 E1. subst. inversion ND as [|? ? H1]; subst. exfalso. apply H1. apply in_or_app. right. left. reflexivity.
  - injection E as E0 E1. subst. inversion ND as [|? ? H1]; subst. exfalso. apply H1. apply in_or_app. right. left. reflexivity.
  - injection E as E0 E1. subst. inversion ND; subst. eapply IH; eassumption.
Qed.
Lemma nodup_cut' {A} (u v u' v' : list A) x : NoDup (u ++ x :: v) -> u ++ x :: v = u' ++ x :: v' -> u = u'.
Proof. intros ND E. pose proof (nodup_cut _ _ _ _ _ ND E). subst. apply app_inv_tail in E. exact E. Qed.

Section Abs.
Variable P : nat -> R.
Variable t : R.
Hypothesis T0 : (0 <= t)%R.
Variable dead : nat -> Prop.
Hypothesis dead_dec : forall x, dead x \/ ~ dead x.

Definition ap (i k : nat) : Prop := (P k + t < P i)%R.
Definition ast (j k : nat) : Prop := (P k + 2 * t < P j)%R.
Lemma ast_ap j m k : ast j k -> ap j m \/ ap m k.
Proof. unfold ast, ap. intros H. destruct (Rlt_dec (P m + t) (P j)) as [Q|Q]; [left; exact Q|right; lra]. Qed.

Lemma ast_is_ap j k : ast j k -> ap j k.
Proof. unfold ast, ap. lra. Qed.

Section Ev.
Variable ev : nat -> nat -> Prop.

(** Something on this part of the line will be looked at again in time. *)
Definition hit (L : list nat) : Prop :=
  (exists x, In x L /\ dead x) \/
  (exists u i N k v, L = u ++ i :: N ++ k :: v /\ ap i k /\
     ((exists x, In x (N ++ [k]) /\ ev i x) \/ (exists x, In x (i :: N) /\ ev x k))).
(** What a scan from [i] to the right, resp. from [k] to the left, guarantees about the pair [i], [k]
    with [N] in between. *)
Definition rs1 (i : nat) (N : list nat) (k : nat) : Prop := ~ dead i -> ~ dead k -> ap i k ->
  (exists x, In x (N ++ [k]) /\ ev i x) \/ (exists x, In x N /\ dead x) \/ (exists m, In m N /\ ast m k).
Definition ls1 (i : nat) (N : list nat) (k : nat) : Prop := ~ dead i -> ~ dead k -> ap i k ->
  (exists x, In x (i :: N) /\ ev x k) \/ (exists x, In x N /\ dead x) \/ (exists m, In m N /\ ast i m).
Definition rs (i : nat) (R : list nat) : Prop := forall N k R2, R = N ++ k :: R2 -> rs1 i N k.
Definition ls (L : list nat) (k : nat) : Prop := forall L1 i N, L = L1 ++ i :: N -> ls1 i N k.
Definition inv (A : list nat) : Prop := forall l1 j M k l2, A = l1 ++ j :: M ++ k :: l2 -> ast j k -> hit (j :: M ++ [k]).

Lemma hit_infix u L v : hit L -> hit (u ++ L ++ v).
Proof.
  intros [(x & H & D)|(u1 & i & N & k & v1 & -> & H)].
  - left. exists x. split; [rewrite !in_app_iff; auto|exact D].
  - right. exists (u ++ u1), i, N, k, (v1 ++ v). split; [|exact H]. asc.
Qed.

Lemma resolve A : (forall l1 j M k l2, A = l1 ++ j :: M ++ k :: l2 -> ast j k ->
    hit (j :: M ++ [k]) \/
    (exists u i N k' v, j :: M ++ [k] = u ++ i :: N ++ k' :: v /\ ap i k' /\ (rs1 i N k' \/ ls1 i N k')) \/
    (exists M1 m M2, M = M1 ++ m :: M2 /\ rs1 m M2 k /\ ls1 j M1 m)) -> inv A.
Proof.
  intros H. assert (G : forall n l1 j M k l2, length M < n -> A = l1 ++ j :: M ++ k :: l2 -> ast j k -> hit (j :: M ++ [k])).
  { induction n as [|n IH]; intros l1 j M k l2 Hn E AS; [lia|].
    assert (SUB : forall u i N k' v, j :: M ++ [k] = u ++ i :: N ++ k' :: v -> ap i k' -> rs1 i N k' \/ ls1 i N k' -> hit (j :: M ++ [k])).
    { intros u i N k' v Eq AP RL.
      assert (EA : A = (l1 ++ u) ++ i :: N ++ k' :: (v ++ l2)).
      { rewrite E. replace (l1 ++ j :: M ++ k :: l2) with (l1 ++ (j :: M ++ [k]) ++ l2) by (asc).
        rewrite Eq. asc. }
      assert (LN : length M + 2 = length u + length N + length v + 2).
      { apply (f_equal (@length nat)) in Eq. cbn [length] in Eq. rewrite !app_length in Eq. cbn [length] in Eq. rewrite app_length in Eq. cbn [length] in Eq. lia. }
      assert (In i (j :: M ++ [k])) by (rewrite Eq; apply in_or_app; right; left; reflexivity).
      assert (In k' (j :: M ++ [k])) by (rewrite Eq; apply in_or_app; right; right; apply in_or_app; right; left; reflexivity).
      destruct (dead_dec i) as [Di|Di]; [left; eauto|]. destruct (dead_dec k') as [Dk|Dk]; [left; eauto|].
      assert (DN : (exists x, In x N /\ dead x) -> hit (j :: M ++ [k])).
      { intros (x & Hx & Dx). left. exists x. split; [|exact Dx]. rewrite Eq. apply in_or_app. right. right. apply in_or_app. left. exact Hx. }
      destruct RL as [RL|RL]; destruct (RL Di Dk AP) as [X|[X|(m & Hm & Am)]].
      - right. exists u, i, N, k', v. split; [exact Eq|]. split; [exact AP|]. left. exact X.
      - apply DN, X.
      - apply in_split in Hm. destruct Hm as (N1 & N2 & ->). rewrite app_length in LN. cbn [length] in LN.
        rewrite Eq. replace (u ++ i :: (N1 ++ m :: N2) ++ k' :: v) with ((u ++ i :: N1) ++ (m :: N2 ++ [k']) ++ v) by (asc).
        apply hit_infix. apply (IH ((l1 ++ u) ++ i :: N1) m N2 k' (v ++ l2)); [lia| |exact Am].
        rewrite EA. asc.
      - right. exists u, i, N, k', v. split; [exact Eq|]. split; [exact AP|]. right. exact X.
      - apply DN, X.
      - apply in_split in Hm. destruct Hm as (N1 & N2 & ->). rewrite app_length in LN. cbn [length] in LN.
        rewrite Eq. replace (u ++ i :: (N1 ++ m :: N2) ++ k' :: v) with (u ++ (i :: N1 ++ [m]) ++ (N2 ++ k' :: v)) by (asc).
        apply hit_infix. apply (IH (l1 ++ u) i N1 m (N2 ++ k' :: v ++ l2)); [lia| |exact Am].
        rewrite EA. asc. }
    destruct (H l1 j M k l2 E AS) as [X|[(u & i & N & k' & v & Eq & AP & RL)|(M1 & m & M2 & EM & R1 & L1)]]; [exact X|eapply SUB; eassumption|].
    destruct (ast_ap j m k AS) as [AP|AP].
    - apply (SUB [] j M1 m (M2 ++ [k])); [|exact AP|right; exact L1]. rewrite EM. asc.
    - apply (SUB (j :: M1) m M2 k []); [|exact AP|left; exact R1]. rewrite EM. asc. }
  intros l1 j M k l2 E AS. eapply (G (S (length M))); [lia|exact E|exact AS].
Qed.

Lemma inv_infix u A v : inv (u ++ A ++ v) -> inv A.
Proof.
  intros H l1 j M k l2 E AS. apply (H (u ++ l1) j M k (l2 ++ v)); [|exact AS].
  rewrite E. asc.
Qed.
Lemma inv_left A v : inv (A ++ v) -> inv A.
Proof. apply (inv_infix [] A v). Qed.
Lemma inv_right u A : inv (u ++ A) -> inv A.
Proof. intros H. apply (inv_infix u A []). rewrite app_nil_r. exact H. Qed.
Lemma inv_nil : inv [].
Proof. intros l1 j M k l2 E. destruct l1; discriminate. Qed.

(** Two parts of the line around a freshly scanned segment. *)
Lemma inv_join A1 b A2 : inv A1 -> inv A2 -> rs b A2 -> ls A1 b -> inv (A1 ++ b :: A2).
Proof.
  intros H1 H2 HR HL. apply resolve. intros l1 j M k l2 E AS. symmetry in E.
  destruct (pair_cases _ _ _ _ _ _ _ _ E) as [(r & Q)|[(r & Q)|[[-> Q]|[[-> Q]|(M1 & M2 & EM & Q1 & Q2)]]]].
  - left. eapply H1; eassumption.
  - left. eapply H2; eassumption.
  - right. left. exists [], b, M, k, []. split; [reflexivity|]. split; [apply ast_is_ap, AS|]. left. eapply HR, Q.
  - right. left. exists [], j, M, b, []. split; [reflexivity|]. split; [apply ast_is_ap, AS|]. right. eapply HL, Q.
  - right. right. exists M1, b, M2. split; [exact EM|]. split; [eapply HR, Q2|eapply HL, Q1].
Qed.

(** Leaving out the segments that end here, when the last segment before each gap has been scanned. *)
Lemma inv_gaps (act : nat -> bool) F : inv F ->
  (forall U m d V, F = U ++ m :: d :: V -> act m = true -> act d = false -> rs m (filter act V) /\ ls (filter act U) m) ->
  inv (filter act F).
Proof.
  intros HF HG. apply resolve. intros l1 j M k l2 E AS.
  destruct (filter_mid _ _ _ _ _ E) as (f1 & f2 & EF & E1 & E2).
  destruct (filter_mid _ _ _ _ _ E2) as (N & f3 & EF2 & E3 & E4). subst f2.
  assert (Aj : act j = true). { assert (X : In j (filter act F)) by (rewrite E; apply in_or_app; right; left; reflexivity). apply filter_In in X. apply X. }
  destruct (first_false act N) as [EN|(u & d & v & EN & Eu & Ed)].
  - left. rewrite <- E3, EN. eapply HF; [exact EF|exact AS].
  - subst N. rewrite filter_app in E3. cbn [filter] in E3. rewrite Ed, Eu in E3.
    destruct (exists_last_or_nil u) as [->|(u0 & m & ->)].
    + cbn [app] in E3, EF. destruct (HG f1 j d (v ++ k :: f3) EF Aj Ed) as [HR _].
      right. left. exists [], j, M, k, []. split; [reflexivity|]. split; [apply ast_is_ap, AS|]. left.
      apply (HR M k l2). rewrite filter_app. cbn [filter].
      assert (Ak : act k = true). { assert (X : In k (filter act F)) by (rewrite E; apply in_or_app; right; right; apply in_or_app; right; left; reflexivity). apply filter_In in X. apply X. }
      rewrite Ak. congruence.
    + rewrite filter_app in Eu. cbn [filter] in Eu. destruct (act m) eqn:Am.
      2:{ exfalso. rewrite app_nil_r in Eu. apply (f_equal (@length nat)) in Eu. rewrite app_length in Eu. cbn [length] in Eu. pose proof (filter_length_le' act u0). lia. }
      apply app_inj_tail in Eu. destruct Eu as [Eu _].
      assert (EF' : F = (f1 ++ j :: u0) ++ m :: d :: (v ++ k :: f3)) by (rewrite EF, <- !app_assoc; asc).
      destruct (HG _ m d _ EF' Am Ed) as [HR HL].
      assert (Ak : act k = true). { assert (X : In k (filter act F)) by (rewrite E; apply in_or_app; right; right; apply in_or_app; right; left; reflexivity). apply filter_In in X. apply X. }
      right. right. exists u0, m, (filter act v). split; [rewrite <- E3, <- app_assoc; reflexivity|]. split.
      * apply (HR _ _ l2). rewrite filter_app. cbn [filter]. rewrite Ak, E4. reflexivity.
      * apply (HL l1). rewrite filter_app. cbn [filter]. rewrite Aj, Eu, E1. reflexivity.
Qed.
End Ev.

Lemma inv_events (ev ev' : nat -> nat -> Prop) A : inv ev A -> (forall i x, In i A -> In x A -> ev i x -> ev' i x) -> inv ev' A.
Proof.
  intros H HE l1 j M k l2 E AS. destruct (H _ _ _ _ _ E AS) as [X|(u & i & N & k' & v & Eq & AP & X)]; [left; exact X|].
  assert (IN : forall x, In x (j :: M ++ [k]) -> In x A).
  { intros x Hx. rewrite E. cbn [In] in Hx. rewrite in_app_iff in *. cbn [In] in *. rewrite in_app_iff in *. cbn [In]. intuition. }
  assert (IL : forall x, In x (i :: N ++ [k']) -> In x A).
  { intros x Hx. apply IN. rewrite Eq. cbn [In] in Hx. rewrite !in_app_iff in *. cbn [In] in *. rewrite in_app_iff in *. cbn [In] in *. intuition. }
  right. exists u, i, N, k', v. split; [exact Eq|]. split; [exact AP|]. destruct X as [(x & Hx & X)|(x & Hx & X)].
  - left. exists x. split; [exact Hx|]. apply HE; [apply IL; left; reflexivity|apply IL; right; exact Hx|exact X].
  - right. exists x. split; [exact Hx|]. apply HE; [apply IL; cbn [In] in *; rewrite in_app_iff; tauto|apply IL; right; apply in_or_app; right; left; reflexivity|exact X].
Qed.
Lemma rs_events (ev ev' : nat -> nat -> Prop) i R : rs ev i R -> (forall x y, ev x y -> ev' x y) -> rs ev' i R.
Proof. intros H HE N k R2 E D1 D2 AP. destruct (H N k R2 E D1 D2 AP) as [(x & H1 & H2)|X]; [left; eauto|right; exact X]. Qed.
Lemma ls_events (ev ev' : nat -> nat -> Prop) i L : ls ev L i -> (forall x y, ev x y -> ev' x y) -> ls ev' L i.
Proof. intros H HE N k R2 E D1 D2 AP. destruct (H N k R2 E D1 D2 AP) as [(x & H1 & H2)|X]; [left; eauto|right; exact X]. Qed.

(** An event about [p] and [q] is taken from the queue; [q] stands to the left of [p] already, and [q] is scanned to the right, [p] to the left. *)
Lemma inv_settled (ev ev' : nat -> nat -> Prop) A1 q A2 p A3 : NoDup (A1 ++ q :: A2 ++ p :: A3) -> inv ev (A1 ++ q :: A2 ++ p :: A3) ->
  (forall i x, ev i x -> ev' i x \/ (i = p /\ x = q) \/ (i = q /\ x = p)) ->
  rs ev' q (A2 ++ p :: A3) -> ls ev' (A1 ++ q :: A2) p -> inv ev' (A1 ++ q :: A2 ++ p :: A3).
Proof.
  intros ND H HE HR HL. apply resolve. intros l1 j M k l2 E AS. destruct (H _ _ _ _ _ E AS) as [X|(u & i & N & k' & v & Eq & AP & X)]; [left; left; exact X|].
  assert (EA : A1 ++ q :: A2 ++ p :: A3 = (l1 ++ u) ++ i :: N ++ k' :: (v ++ l2)).
  { rewrite E. replace (l1 ++ j :: M ++ k :: l2) with (l1 ++ (j :: M ++ [k]) ++ l2) by (asc).
    rewrite Eq. asc. }
  (* [q] comes before [p] only *)
  assert (ORD : forall B1 B2 B3, A1 ++ q :: A2 ++ p :: A3 = B1 ++ p :: B2 ++ q :: B3 -> False).
  { intros B1 B2 B3 Q. assert (Q1 : A1 = B1 ++ p :: B2) by (apply (nodup_cut' _ (A2 ++ p :: A3) _ B3 q ND); rewrite Q; asc).
    assert (ND' : NoDup ((A1 ++ q :: A2) ++ p :: A3)) by (rewrite <- app_assoc; exact ND).
    apply NoDup_remove in ND' as [_ ND']. apply ND'. rewrite Q1, !in_app_iff. cbn [In]. tauto. }
  destruct X as [(x & Hx & X)|(x & Hx & X)]; destruct (HE _ _ X) as [Y|[[-> ->]|[-> ->]]].
  - left. right. exists u, i, N, k', v. split; [exact Eq|]. split; [exact AP|]. left. exists x. auto.
  - exfalso. apply in_app_iff in Hx. destruct Hx as [Hx|[->|[]]].
    + apply in_split in Hx. destruct Hx as (N1 & N2 & ->). apply (ORD (l1 ++ u) N1 (N2 ++ k' :: v ++ l2)). rewrite EA. f_equal. f_equal. rewrite <- app_assoc. reflexivity.
    + apply (ORD (l1 ++ u) N (v ++ l2)). exact EA.
  - right. left. exists u, q, N, k', v. split; [exact Eq|]. split; [exact AP|]. left. apply (HR _ _ (v ++ l2)).
    symmetry. apply (nodup_cut (l1 ++ u) _ A1 _ q); [|symmetry; exact EA]. rewrite <- EA. exact ND.
  - left. right. exists u, i, N, k', v. split; [exact Eq|]. split; [exact AP|]. right. exists x. auto.
  - exfalso. destruct Hx as [->|Hx].
    + apply (ORD (l1 ++ u) N (v ++ l2)). exact EA.
    + apply in_split in Hx. destruct Hx as (N1 & N2 & ->). apply (ORD ((l1 ++ u) ++ i :: N1) N2 (v ++ l2)). rewrite EA. asc.
  - right. left. exists u, i, N, p, v. split; [exact Eq|]. split; [exact AP|]. right. apply (HL (l1 ++ u)).
    assert (Q : A1 ++ q :: A2 = (l1 ++ u) ++ i :: N); [|exact Q].
    apply (nodup_cut' _ A3 _ (v ++ l2) p); [|rewrite <- !app_assoc; rewrite <- !app_assoc in EA; exact EA]. rewrite <- app_assoc. exact ND.
Qed.
End Abs.
