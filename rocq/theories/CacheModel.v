(** Model of [ComparisonCache] (src/order.rs:11-73). *)
From Coq Require Import List Bool Arith Lia.
From Verif Require Import F64 F64Arith CurveOrderModel CurveOrderSpec CurveOrderProofs CurveOrderProofs2.
Import ListNotations.

(** [HashMap<(SegIdx, SegIdx), CurveOrder>]: an association list, newest binding first. *)
Definition cmap := list ((nat * nat) * curve_order).
(** [HashMap::get]. *)
Fixpoint cm_get (m : cmap) (i j : nat) : option curve_order :=
  match m with
  | [] => None
  | ((a, b), v) :: m' => if (a =? i) && (b =? j) then Some v else cm_get m' i j
  end.
(** [HashMap::insert]: a newer binding shadows the older one. *)
Definition cm_insert (m : cmap) (i j : nat) (v : curve_order) : cmap := ((i, j), v) :: m.

(** order.rs:12-17 [ComparisonCache].  [tolerance] and [accuracy] are only passed to
    [intersect_cubics] and live in the oracle. *)
Record cache := mkCache { ca_inner : cmap; ca_slop : f64 }.

(** order.rs:28-35, 46-53: both constructors start with an empty map. *)
Definition cache_new (slop : f64) : cache := mkCache [] slop.

Section Compare.
(** [intersect i j]: the table [curve::intersect_cubics] computes for segments [i] and [j]
    (the segments are immutable during a sweep, so it is a function of the indices). *)
Variable intersect : nat -> nat -> curve_order.

(** order.rs:57-72 [compare_segments].  [None] is the panic of [with_y_slop] on an empty table. *)
Definition compare_segments (c : cache) (i j : nat) : option (curve_order * cache) :=
  match cm_get (ca_inner c) i j with
  | Some o => Some (o, c)
  | None =>
      match co_with_y_slop (intersect i j) (ca_slop c) with
      | None => None
      | Some forward =>
          let reverse := co_flip forward in
          let m := cm_insert (ca_inner c) j i reverse in
          let m := cm_insert m i j forward in
          Some (forward, mkCache m (ca_slop c))
      end
  end.

(** A history of queries; the answers, or [None] if one of them panicked. *)
Fixpoint queries (c : cache) (qs : list (nat * nat)) : option (list curve_order) :=
  match qs with
  | [] => Some []
  | (i, j) :: qs' =>
      match compare_segments c i j with
      | None => None
      | Some (o, c') => match queries c' qs' with Some l => Some (o :: l) | None => None end
      end
  end.

(** The cache after a history. *)
Fixpoint after (c : cache) (qs : list (nat * nat)) : option cache :=
  match qs with
  | [] => Some c
  | (i, j) :: qs' => match compare_segments c i j with None => None | Some (_, c') => after c' qs' end
  end.

(** ** Proofs *)

Lemma get_insert m a b v i j : cm_get (cm_insert m a b v) i j =
  if (a =? i) && (b =? j) then Some v else cm_get m i j.
Proof. reflexivity. Qed.

(** Bindings off the diagonal come in flipped pairs. *)
Definition sym (c : cache) : Prop := forall i j, i <> j ->
  cm_get (ca_inner c) j i = option_map co_flip (cm_get (ca_inner c) i j).

Lemma compare_sym c i j o c' : sym c -> compare_segments c i j = Some (o, c') ->
  sym c' /\ cm_get (ca_inner c') i j = Some o /\
  (forall a b v, cm_get (ca_inner c) a b = Some v -> cm_get (ca_inner c') a b = Some v).
Proof.
  intros Hs H. unfold compare_segments in H. destruct (cm_get (ca_inner c) i j) as [v|] eqn:G.
  - injection H as <- <-. auto.
  - destruct (co_with_y_slop _ _) as [f|]; [|discriminate]. injection H as <- <-. cbn [ca_inner].
    split; [|split].
    + intros a b Hab. cbn [ca_inner]. rewrite !get_insert.
      destruct (Nat.eqb_spec i b), (Nat.eqb_spec j a), (Nat.eqb_spec i a), (Nat.eqb_spec j b);
        subst; cbn [andb option_map]; try congruence; try (apply Hs; assumption).
      now rewrite flip_flip.
    + rewrite get_insert, !Nat.eqb_refl. reflexivity.
    + intros a b v Hv. rewrite !get_insert.
      destruct ((i =? a) && (j =? b)) eqn:E1.
      { apply andb_true_iff in E1 as [E1 E2]. apply Nat.eqb_eq in E1, E2. congruence. }
      destruct ((j =? a) && (i =? b)) eqn:E3; [exfalso|exact Hv].
      apply andb_true_iff in E3 as [E3 E4]. apply Nat.eqb_eq in E3, E4. subst a b.
      destruct (Nat.eq_dec i j) as [->|Hij]; [congruence|]. rewrite (Hs i j Hij), G in Hv. discriminate.
Qed.

Lemma sym_new s : sym (cache_new s).
Proof. intros i j _. reflexivity. Qed.

(** Every answer of a later history agrees with the bindings already in the cache. *)
Lemma queries_agree qs : forall c rs, sym c -> queries c qs = Some rs ->
  forall k i j r, nth_error qs k = Some (i, j) -> nth_error rs k = Some r ->
    (forall v, cm_get (ca_inner c) i j = Some v -> r = v) /\
    (forall v, i <> j -> cm_get (ca_inner c) j i = Some v -> r = co_flip v).
Proof.
  induction qs as [|[a b] qs IH]; intros c rs Hs Hq k i j r Hk Hr; [destruct k; discriminate|].
  cbn in Hq. destruct (compare_segments c a b) as [[o c']|] eqn:C; [|discriminate].
  destruct (queries c' qs) as [l|] eqn:Q; [|discriminate]. injection Hq as <-.
  destruct (compare_sym _ _ _ _ _ Hs C) as (Hs' & G & Mono).
  destruct k as [|k].
  - cbn in Hk, Hr. injection Hk as -> ->. injection Hr as ->. split.
    + intros v Hv. apply Mono in Hv. congruence.
    + intros v Hij Hv. apply Mono in Hv. rewrite Hs' in Hv by congruence. rewrite G in Hv. cbn in Hv.
      injection Hv as <-. now rewrite flip_flip.
  - cbn in Hk, Hr. destruct (IH _ _ Hs' Q _ _ _ _ Hk Hr) as [H1 H2]. split.
    + intros v Hv. apply H1. apply Mono, Hv.
    + intros v Hij Hv. apply H2; [exact Hij|]. apply Mono, Hv.
Qed.

Lemma queries_stable qs : forall c rs, sym c -> queries c qs = Some rs ->
  forall k l i j r r', k < l -> nth_error qs k = Some (i, j) -> nth_error rs k = Some r ->
    nth_error rs l = Some r' ->
    (nth_error qs l = Some (i, j) -> r' = r) /\
    (i <> j -> nth_error qs l = Some (j, i) -> r' = co_flip r).
Proof.
  induction qs as [|[a b] qs IH]; intros c rs Hs Hq k l i j r r' Hkl Hk Hr Hr'; [destruct k; discriminate|].
  cbn in Hq. destruct (compare_segments c a b) as [[o c']|] eqn:C; [|discriminate].
  destruct (queries c' qs) as [ls|] eqn:Q; [|discriminate]. injection Hq as <-.
  destruct (compare_sym _ _ _ _ _ Hs C) as (Hs' & G & Mono).
  destruct l as [|l]; [lia|]. destruct k as [|k].
  - cbn in Hk, Hr. injection Hk as -> ->. injection Hr as ->. cbn in Hr'. split.
    + intros Hl. destruct (queries_agree _ _ _ Hs' Q _ _ _ _ Hl Hr') as [H1 _]. apply H1, G.
    + intros Hij Hl. cbn in Hl. destruct (queries_agree _ _ _ Hs' Q _ _ _ _ Hl Hr') as [_ H2].
      apply H2; [congruence|exact G].
  - cbn in Hk, Hr, Hr'. apply (IH _ _ Hs' Q k l i j r r'); auto. lia.
Qed.

(** Every answer is the (slopped) comparison, or the flip of the one asked the other way round. *)
Lemma answer_origin qs : forall c rs,
  (forall i j v, cm_get (ca_inner c) i j = Some v -> exists f, co_with_y_slop (intersect i j) (ca_slop c) = Some f /\ v = f \/
       co_with_y_slop (intersect j i) (ca_slop c) = Some f /\ v = co_flip f) ->
  queries c qs = Some rs -> forall k i j r, nth_error qs k = Some (i, j) -> nth_error rs k = Some r ->
  exists f, co_with_y_slop (intersect i j) (ca_slop c) = Some f /\ r = f \/
       co_with_y_slop (intersect j i) (ca_slop c) = Some f /\ r = co_flip f.
Proof.
  induction qs as [|[a b] qs IH]; intros c rs Hc Hq k i j r Hk Hr; [destruct k; discriminate|].
  cbn in Hq. destruct (compare_segments c a b) as [[o c']|] eqn:C; [|discriminate].
  destruct (queries c' qs) as [l|] eqn:Q; [|discriminate]. injection Hq as <-.
  unfold compare_segments in C. destruct (cm_get (ca_inner c) a b) as [v|] eqn:G.
  - injection C as <- <-. destruct k as [|k].
    + cbn in Hk, Hr. injection Hk as -> ->. injection Hr as ->. eauto.
    + eapply IH; eauto.
  - destruct (co_with_y_slop (intersect a b) (ca_slop c)) as [f|] eqn:W; [|discriminate]. injection C as <- <-.
    destruct k as [|k].
    + cbn in Hk, Hr. injection Hk as -> ->. injection Hr as ->. eauto.
    + cbn in Hk, Hr. refine (IH _ _ _ Q k i j r Hk Hr). cbn [ca_inner ca_slop].
      intros x y v Hv. rewrite !get_insert in Hv.
      destruct ((a =? x) && (b =? y)) eqn:E1.
      { apply andb_true_iff in E1 as [E1 E2]. apply Nat.eqb_eq in E1, E2. subst. injection Hv as <-. eauto. }
      destruct ((b =? x) && (a =? y)) eqn:E3; [|apply Hc; exact Hv].
      apply andb_true_iff in E3 as [E3 E4]. apply Nat.eqb_eq in E3, E4. subst. injection Hv as <-. eauto.
Qed.
End Compare.
