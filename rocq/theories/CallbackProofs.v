(** The calls of one range. *)
From Coq Require Import List Bool ZArith Arith Lia Permutation Sorted.
From Verif Require Import F64 F64Arith TreeVecModel GeomModel SegmentsModel SegmentsSpec SegmentsProofs CurveOrderModel CurveOrderProofs SweepModel SweepSpec
  RangeModel RangeSpec RangeProofs3 RangeProofs4 RangeProofs5 PropsRange CallbackModel CallbackSpec.
Import ListNotations.

Lemma stretch_snoc dir x0 up x1 l e x2 down : stretch dir x0 up x1 false l -> nan x1 = false -> feq (ev_x0 e) x1 = true -> ev_above e = false -> feq (ev_x1 e) x2 = true -> ev_below e = down -> dir (ev_x0 e) (ev_x1 e) = true ->
  stretch dir x0 up x2 down (l ++ [e]).
Proof.
  intros S. remember false as fl eqn:E in S at 1. revert E. induction S as [f x0 up x1 fl A1 A2 A3 A4 A5|f l x0 up x1 fl A1 A2 A3 A4 S IH]; intros -> N B1 B2 B3 B4 B5; cbn [app].
  - apply st_more; try assumption. apply st_last; try assumption. destruct (feq_nonnan _ _ A3), (feq_nonnan _ _ B1). fk. zb. lia.
  - apply st_more; try assumption. apply IH; auto.
Qed.

(** *** Filtering *)
Lemma filter_filter {A} (p q : A -> bool) l : filter p (filter q l) = filter q (filter p l).
Proof. induction l as [|x l IH]; [reflexivity|]. cbn [filter]. destruct (q x) eqn:Q, (p x) eqn:P; cbn [filter]; rewrite ?P, ?Q, IH; reflexivity. Qed.
Lemma filter_map {A B} (p : B -> bool) (f : A -> B) l : filter p (map f l) = map f (filter (fun x => p (f x)) l).
Proof. induction l as [|x l IH]; [reflexivity|]. cbn [map filter]. destruct (p (f x)); cbn [map]; rewrite IH; reflexivity. Qed.
Lemma filter_perm {A} (p : A -> bool) l l' : Permutation l l' -> Permutation (filter p l) (filter p l').
Proof. induction 1; cbn [filter]; [constructor|destruct (p x); [constructor|]; assumption|destruct (p x), (p y); try apply Permutation_refl; apply perm_swap|eapply Permutation_trans; eassumption]. Qed.
Lemma filter_app' {A} (p : A -> bool) l l' : filter p (l ++ l') = filter p l ++ filter p l'.
Proof. apply filter_app. Qed.

Section Range.
Variable evs : list oevent.
Hypothesis NUM : Forall ev_numbers evs.
Hypothesis SRT : ev_sorted evs.
Hypothesis ND : NoDup (map ev_seg evs).
Variable E : oevent.
Hypothesis HE : In E evs.
Notation i := (ev_seg E).
Definition isE (e : oevent) : bool := ev_seg e =? ev_seg E.

Lemma only_E : filter isE evs = [E].
Proof.
  clear NUM SRT. revert ND HE. induction evs as [|e l IH]; intros N H; [destruct H|]. cbn [map] in N. inversion N as [|? ? N1 N2]; subst. cbn [filter]. destruct H as [->|H].
  - unfold isE at 1. rewrite Nat.eqb_refl. f_equal. destruct (filter isE l) as [|f r] eqn:Q; [reflexivity|]. exfalso. assert (X : In f (filter isE l)) by (rewrite Q; left; reflexivity). apply filter_In in X. destruct X as [X1 X2]. unfold isE in X2. apply Nat.eqb_eq in X2. apply N1. rewrite <- X2. apply in_map, X1.
  - destruct (isE e) eqn:Q; [|apply IH; assumption]. exfalso. unfold isE in Q. apply Nat.eqb_eq in Q. apply N1. rewrite Q. apply in_map, H.
Qed.
Lemma isE_E : isE E = true.
Proof. unfold isE. apply Nat.eqb_refl. Qed.
Lemma isE_cut u v e : isE (cut u v e) = isE e.
Proof. unfold isE, cut. destruct (flt _ _); reflexivity. Qed.

Definition spans (u : f64) : bool := fle (ev_lo E) u && flt u (ev_hi E).
Lemma batch_filter u v : filter isE (batch_at evs u v) =
  match u with None => [] | Some u => if spans u then [cut u v E] else [] end ++ if pointlike E && feq (ev_x0 E) v then [E] else [].
Proof.
  unfold batch_at. rewrite filter_app, (filter_filter isE), only_E. cbn [filter]. f_equal. destruct u as [u|]; [|reflexivity].
  rewrite filter_map. erewrite filter_ext by (intros e; apply isE_cut). rewrite (filter_filter isE), only_E. cbn [filter]. unfold spans. destruct (_ && _); reflexivity.
Qed.
Lemma same_isE e f : ev_same e f -> isE e = isE f.
Proof. intros (_ & _ & _ & _ & X & _). unfold isE. rewrite X. reflexivity. Qed.
Lemma same_filter l l' : Forall2 ev_same l l' -> Forall2 ev_same (filter isE l) (filter isE l').
Proof. induction 1 as [|e f l l' S F IH]; [constructor|]. cbn [filter]. rewrite (same_isE e f S). destruct (isE f); [constructor|]; assumption. Qed.
Lemma batch_one b u v b' : Permutation b b' -> Forall2 ev_same b' (batch_at evs u v) -> forall x, filter isE (batch_at evs u v) = [x] -> exists p, filter isE b = [p] /\ ev_same p x.
Proof.
  intros P F x H. apply same_filter in F. rewrite H in F. inversion F as [|p ? r ? S F' E1]; subst. inversion F'; subst. exists p. split; [|exact S]. apply Permutation_length_1_inv. rewrite E1. symmetry. apply filter_perm, P.
Qed.
Lemma batch_none b u v b' : Permutation b b' -> Forall2 ev_same b' (batch_at evs u v) -> filter isE (batch_at evs u v) = [] -> filter isE b = [].
Proof.
  intros P F H. apply same_filter in F. rewrite H in F. inversion F as [E1|]. apply Permutation_nil. rewrite E1. symmetry. apply filter_perm, P.
Qed.

Definition mine (l : list (f64 * list oevent)) : list oevent := filter isE (concat (map snd l)).
Lemma mine_cons x b l : mine ((x, b) :: l) = filter isE b ++ mine l.
Proof. unfold mine. cbn [map concat snd]. apply filter_app. Qed.

Lemma E_num : nan (ev_x0 E) = false /\ nan (ev_x1 E) = false.
Proof. rewrite Forall_forall in NUM. apply NUM, HE. Qed.
Lemma lo_key : nan (ev_lo E) = false /\ key (ev_lo E) = Z.min (key (ev_x0 E)) (key (ev_x1 E)).
Proof. destruct E_num as [N0 N1]. unfold ev_lo. destruct (fmin_nonnan _ _ N0 N1) as [A B]. split; [exact A|lia]. Qed.
Lemma hi_key : nan (ev_hi E) = false /\ key (ev_hi E) = Z.max (key (ev_x0 E)) (key (ev_x1 E)).
Proof. destruct E_num as [N0 N1]. unfold ev_hi. destruct (fmax_nonnan _ _ N0 N1) as [A B]. split; [exact A|lia]. Qed.
Lemma spans_key u : nan u = false -> spans u = true <-> (Z.min (key (ev_x0 E)) (key (ev_x1 E)) <= key u < Z.max (key (ev_x0 E)) (key (ev_x1 E)))%Z.
Proof. intros N. destruct lo_key as [N0 K0], hi_key as [N1 K1]. unfold spans. rewrite andb_true_iff. fk. zb. lia. Qed.

(** Sorted positions beyond [u]. *)
Definition beyond (u : f64) (l : list (f64 * list oevent)) : Prop := Forall (fun p => nan (fst p) = false /\ (key u < key (fst p))%Z) l.
Lemma sorted_beyond v b l : StronglySorted (fun x z => flt x z = true) (map fst ((v, b) :: l)) -> beyond v l.
Proof.
  intros S. cbn [map fst] in S. apply StronglySorted_inv in S. destruct S as [_ F]. rewrite Forall_map in F. eapply Forall_impl; [|exact F]. intros p H. cbn in H. destruct (flt_nonnan _ _ H). fk. zb. auto.
Qed.

(** Nothing more is reported after the right end. *)
Lemma mine_after l : forall u, nan u = false -> pointlike E = false \/ (key (ev_x0 E) <= key u)%Z -> (Z.max (key (ev_x0 E)) (key (ev_x1 E)) <= key u)%Z ->
  beyond u l -> StronglySorted (fun x z => flt x z = true) (map fst l) -> batches_ok evs (Some u) l -> mine l = [].
Proof.
  induction l as [|[v b] l IH]; intros u N PL K B S OK; [reflexivity|]. cbn [batches_ok] in OK. destruct OK as [(b' & P & F) OK]. inversion B as [|? ? [Nv Kv] B']; subst. cbn [fst] in *.
  rewrite mine_cons. destruct E_num as [N0 N1]. assert (M : mine l = []).
  { apply (IH v); try assumption; try lia.
    - exact (sorted_beyond v b l S).
    - cbn [map] in S. apply StronglySorted_inv in S. apply S. }
  rewrite M, app_nil_r. apply (batch_none b (Some u) v b' P F).
  rewrite batch_filter. destruct (spans u) eqn:Q; [apply spans_key in Q; [lia|assumption]|]. cbn [app]. destruct PL as [->|PL]; [reflexivity|]. destruct (feq (ev_x0 E) v) eqn:Q2; [|rewrite andb_false_r; reflexivity]. exfalso. fk. zb. lia.
Qed.

(** The pieces between the ends, going right. *)
Lemma mine_right l : flt (ev_x0 E) (ev_x1 E) = true -> forall u, nan u = false -> spans u = true -> (exists z, In z (map fst l) /\ feq z (ev_x1 E) = true) ->
  beyond u l -> StronglySorted (fun x z => flt x z = true) (map fst l) -> batches_ok evs (Some u) l ->
  stretch flt u (ev_above E && feq u (ev_x0 E)) (ev_x1 E) (ev_below E) (mine l).
Proof.
  intros D. assert (PL : pointlike E = false). { destruct E_num. unfold pointlike. destruct (feq _ _) eqn:Q; [exfalso; fk; zb; lia|reflexivity]. }
  induction l as [|[v b] l IH]; intros u N SU (z & Z1 & Z2) B S OK; [destruct Z1|]. cbn [map In fst] in Z1. cbn [batches_ok] in OK. destruct OK as [(b' & P & F) OK]. inversion B as [|? ? [Nv Kv] B']; subst. cbn [fst] in *.
  destruct (batch_one b (Some u) v b' P F (cut u v E)) as (p & FP & SM). { rewrite batch_filter, SU, PL. reflexivity. }
  rewrite mine_cons, FP. cbn [app]. unfold cut in SM. rewrite D in SM. destruct SM as (M1 & M2 & M3 & M4 & M5 & _). cbn [ev_x0 ev_x1 ev_above ev_below ev_seg] in *.
  destruct E_num as [N0 N1]. destruct (feq_nonnan _ _ Z2) as [Nz _]. apply spans_key in SU; [|assumption]. destruct (feq_nonnan _ _ M1) as [Np0 _]. destruct (feq_nonnan _ _ M2) as [Np1 _].
  assert (KD : (key (ev_x0 E) < key (ev_x1 E))%Z) by (fk; zb; lia). assert (KZ : key z = key (ev_x1 E)) by (fk; zb; lia).
  pose proof (sorted_beyond v b l S) as BV. assert (S' : StronglySorted (fun x z => flt x z = true) (map fst l)) by (cbn [map] in S; apply StronglySorted_inv in S; apply S).
  assert (LV : (key v <= key (ev_x1 E))%Z). { destruct Z1 as [->|Z1]; [lia|]. apply in_map_iff in Z1. destruct Z1 as (q & <- & Z1). unfold beyond in BV. rewrite Forall_forall in BV. apply BV in Z1. lia. }
  assert (DP : flt (ev_x0 p) (ev_x1 p) = true) by (fk; zb; lia).
  destruct (Z.eq_dec (key v) (key (ev_x1 E))) as [EV|NV].
  - rewrite (mine_after l v); try assumption; [|left; exact PL|lia]. apply st_last; try assumption.
    + fk. zb. lia.
    + rewrite M4. replace (feq v (ev_x1 E)) with true by (symmetry; fk; zb; lia). apply andb_true_r.
  - assert (V1 : feq v (ev_x1 E) = false) by (destruct (feq v (ev_x1 E)) eqn:Q; [exfalso; fk; zb; lia|reflexivity]). assert (V0 : feq v (ev_x0 E) = false) by (destruct (feq v (ev_x0 E)) eqn:Q; [exfalso; fk; zb; lia|reflexivity]).
    apply st_more; try assumption; [rewrite M4, V1; apply andb_false_r|].
    assert (X : stretch flt v (ev_above E && feq v (ev_x0 E)) (ev_x1 E) (ev_below E) (mine l)).
    { apply IH; try assumption; [apply spans_key; [assumption|lia]|]. exists z. split; [|exact Z2]. destruct Z1 as [->|Z1]; [lia|exact Z1]. }
    rewrite V0, andb_false_r in X. clear - X M2. inversion X as [e x0 up x1 down A1 A2 A3 A4 A5|e l' x0 up x1 down A1 A2 A3 A4 S]; subst.
    + apply st_last; try assumption; try reflexivity. destruct (feq_nonnan _ _ A1), (feq_nonnan _ _ M2). fk. zb. lia.
    + apply st_more; try assumption. destruct (feq_nonnan _ _ A1), (feq_nonnan _ _ M2). fk. zb. lia.
Qed.
(** Going left. *)
Lemma mine_left l : flt (ev_x1 E) (ev_x0 E) = true -> forall u, nan u = false -> spans u = true -> (exists z, In z (map fst l) /\ feq z (ev_x0 E) = true) ->
  beyond u l -> StronglySorted (fun x z => flt x z = true) (map fst l) -> batches_ok evs (Some u) l ->
  stretch fgt (ev_x0 E) (ev_above E) u (ev_below E && feq u (ev_x1 E)) (rev (mine l)).
Proof.
  intros D. assert (PL : pointlike E = false). { destruct E_num. unfold pointlike. destruct (feq _ _) eqn:Q; [exfalso; fk; zb; lia|reflexivity]. }
  assert (D' : flt (ev_x0 E) (ev_x1 E) = false). { destruct E_num. destruct (flt (ev_x0 E) _) eqn:Q; [exfalso; fk; zb; lia|reflexivity]. }
  induction l as [|[v b] l IH]; intros u N SU (z & Z1 & Z2) B S OK; [destruct Z1|]. cbn [map In fst] in Z1. cbn [batches_ok] in OK. destruct OK as [(b' & P & F) OK]. inversion B as [|? ? [Nv Kv] B']; subst. cbn [fst] in *.
  destruct (batch_one b (Some u) v b' P F (cut u v E)) as (p & FP & SM). { rewrite batch_filter, SU, PL. reflexivity. }
  rewrite mine_cons, FP. cbn [app rev]. unfold cut in SM. rewrite D' in SM. destruct SM as (M1 & M2 & M3 & M4 & M5 & _). cbn [ev_x0 ev_x1 ev_above ev_below ev_seg] in *.
  destruct E_num as [N0 N1]. destruct (feq_nonnan _ _ Z2) as [Nz _]. apply spans_key in SU; [|assumption]. destruct (feq_nonnan _ _ M1) as [Np0 _]. destruct (feq_nonnan _ _ M2) as [Np1 _].
  assert (KD : (key (ev_x1 E) < key (ev_x0 E))%Z) by (fk; zb; lia). assert (KZ : key z = key (ev_x0 E)) by (fk; zb; lia).
  pose proof (sorted_beyond v b l S) as BV. assert (S' : StronglySorted (fun x z => flt x z = true) (map fst l)) by (cbn [map] in S; apply StronglySorted_inv in S; apply S).
  assert (LV : (key v <= key (ev_x0 E))%Z). { destruct Z1 as [->|Z1]; [lia|]. apply in_map_iff in Z1. destruct Z1 as (q & <- & Z1). unfold beyond in BV. rewrite Forall_forall in BV. apply BV in Z1. lia. }
  assert (DP : fgt (ev_x0 p) (ev_x1 p) = true) by (fk; zb; lia).
  destruct (Z.eq_dec (key v) (key (ev_x0 E))) as [EV|NV].
  - rewrite (mine_after l v); try assumption; [|left; exact PL|lia]. cbn [rev app]. apply st_last; try assumption.
    + fk. zb. lia.
    + rewrite M3. replace (feq v (ev_x0 E)) with true by (symmetry; fk; zb; lia). apply andb_true_r.
  - assert (V1 : feq v (ev_x1 E) = false) by (destruct (feq v (ev_x1 E)) eqn:Q; [exfalso; fk; zb; lia|reflexivity]). assert (V0 : feq v (ev_x0 E) = false) by (destruct (feq v (ev_x0 E)) eqn:Q; [exfalso; fk; zb; lia|reflexivity]).
    assert (X : stretch fgt (ev_x0 E) (ev_above E) v (ev_below E && feq v (ev_x1 E)) (rev (mine l))).
    { apply IH; try assumption; [apply spans_key; [assumption|lia]|]. exists z. split; [|exact Z2]. destruct Z1 as [->|Z1]; [lia|exact Z1]. }
    rewrite V1, andb_false_r in X. apply (stretch_snoc fgt _ _ v); try assumption. rewrite M3, V0. apply andb_false_r.
Qed.

(** The first stops. *)
Lemma mine_start l : forall u, match u with None => True | Some u => nan u = false /\ (key u < Z.min (key (ev_x0 E)) (key (ev_x1 E)))%Z /\ beyond u l end ->
  Forall (fun p => nan (fst p) = false) l ->
  (forall x, x = ev_x0 E \/ x = ev_x1 E -> exists z, In z (map fst l) /\ feq z x = true) -> StronglySorted (fun x z => flt x z = true) (map fst l) -> batches_ok evs u l ->
  (stretch feq (ev_x0 E) (ev_above E) (ev_x1 E) (ev_below E) (mine l) /\ length (mine l) = 1) \/ stretch flt (ev_x0 E) (ev_above E) (ev_x1 E) (ev_below E) (mine l) \/ stretch fgt (ev_x0 E) (ev_above E) (ev_x1 E) (ev_below E) (rev (mine l)).
Proof.
  destruct E_num as [N0 N1].
  induction l as [|[v b] l IH]; intros u HU NN ST S OK; [destruct (ST _ (or_introl eq_refl)) as (z & [] & _)|]. cbn [batches_ok] in OK. destruct OK as [(b' & P & F) OK]. inversion NN as [|? ? Nv NN']; subst. cbn [fst] in *.
  pose proof (sorted_beyond v b l S) as BV. assert (S' : StronglySorted (fun x z => flt x z = true) (map fst l)) by (cbn [map] in S; apply StronglySorted_inv in S; apply S).
  assert (LE : forall x, x = ev_x0 E \/ x = ev_x1 E -> (key v <= key x)%Z).
  { intros x Hx. assert (Nx : nan x = false) by (destruct Hx; subst; assumption). destruct (ST x Hx) as (z & Z1 & Z2). destruct (feq_nonnan _ _ Z2) as [Nz _]. assert (key z = key x) by (fk; zb; lia). cbn [map In fst] in Z1. destruct Z1 as [->|Z1]; [lia|].
    apply in_map_iff in Z1. destruct Z1 as (q & <- & Z1). unfold beyond in BV. rewrite Forall_forall in BV. apply BV in Z1. lia. }
  assert (SU : match u with None => [] | Some u => if spans u then [cut u v E] else [] end = @nil oevent).
  { destruct u as [u|]; [|reflexivity]. destruct HU as (Nu & Ku & _). destruct (spans u) eqn:Q; [apply spans_key in Q; [lia|assumption]|reflexivity]. }
  pose proof (LE _ (or_introl eq_refl)) as L0. pose proof (LE _ (or_intror eq_refl)) as L1.
  assert (ST' : forall x, x = ev_x0 E \/ x = ev_x1 E -> (key v < key x)%Z -> exists z, In z (map fst l) /\ feq z x = true).
  { intros x Hx K. assert (Nx : nan x = false) by (destruct Hx; subst; assumption). destruct (ST x Hx) as (z & Z1 & Z2). cbn [map In fst] in Z1. destruct Z1 as [->|Z1]; [exfalso; fk; zb; lia|]. exists z. auto. }
  rewrite mine_cons. destruct (Z.eq_dec (key v) (Z.min (key (ev_x0 E)) (key (ev_x1 E)))) as [EV|NV].
  - destruct (pointlike E) eqn:PL.
    + unfold pointlike in PL. assert (K : key (ev_x0 E) = key (ev_x1 E)) by (fk; zb; lia).
      destruct (batch_one b u v b' P F E) as (p & FP & SM). { rewrite batch_filter, SU. unfold pointlike. rewrite PL. replace (feq (ev_x0 E) v) with true by (symmetry; fk; zb; lia). reflexivity. }
      rewrite FP, (mine_after l v); try assumption; [|right; lia|lia]. cbn [app]. left. split; [|reflexivity]. destruct SM as (M1 & M2 & M3 & M4 & _). apply st_last; try assumption.
      destruct (feq_nonnan _ _ M1), (feq_nonnan _ _ M2). fk. zb. lia.
    + assert (NP : key (ev_x0 E) <> key (ev_x1 E)) by (intro K; unfold pointlike in PL; fk; zb; lia).
      rewrite (batch_none b u v b' P F) by (rewrite batch_filter, SU, PL; reflexivity). cbn [app]. right. destruct (Z.lt_trichotomy (key (ev_x0 E)) (key (ev_x1 E))) as [K|[K|K]]; [left|lia|right].
      * assert (X : stretch flt v (ev_above E && feq v (ev_x0 E)) (ev_x1 E) (ev_below E) (mine l)).
        { apply mine_right; try assumption; [fk; zb; lia|apply spans_key; [assumption|lia]|apply ST'; [auto|lia]]. }
        assert (Q : feq v (ev_x0 E) = true) by (fk; zb; lia). rewrite Q, andb_true_r in X. clear - X Q. inversion X as [e x0 up x1 down A1 A2 A3 A4 A5|e l' x0 up x1 down A1 A2 A3 A4 S]; subst.
        -- apply st_last; try assumption; try reflexivity. destruct (feq_nonnan _ _ A1), (feq_nonnan _ _ Q). fk. zb. lia.
        -- apply st_more; try assumption; try reflexivity. destruct (feq_nonnan _ _ A1), (feq_nonnan _ _ Q). fk. zb. lia.
      * assert (X : stretch fgt (ev_x0 E) (ev_above E) v (ev_below E && feq v (ev_x1 E)) (rev (mine l))).
        { apply mine_left; try assumption; [fk; zb; lia|apply spans_key; [assumption|lia]|apply ST'; [auto|lia]]. }
        assert (Q : feq v (ev_x1 E) = true) by (fk; zb; lia). rewrite Q, andb_true_r in X. revert X Q N1. clear. generalize (rev (mine l)). intros r X Q N1. induction X as [e x0 up x1 down A1 A2 A3 A4 A5|e l' x0 up x1 down A1 A2 A3 A4 S IH]; subst.
        -- apply st_last; try assumption; try reflexivity. destruct (feq_nonnan _ _ A3), (feq_nonnan _ _ Q). fk. zb. lia.
        -- apply st_more; try assumption; try reflexivity. apply IH, Q.
  - rewrite (batch_none b u v b' P F). 2:{ rewrite batch_filter, SU. cbn [app]. destruct (feq (ev_x0 E) v) eqn:Q; [|rewrite andb_false_r; reflexivity]. destruct (pointlike E) eqn:PL; [exfalso|reflexivity]. unfold pointlike in PL. fk. zb. lia. }
    cbn [app]. apply (IH (Some v)); try assumption; [split; [assumption|]; split; [lia|exact BV]|]. intros x Hx. apply ST'; [exact Hx|]. destruct Hx; subst; lia.
Qed.
End Range.

(** The calls of one range, and for each event of the range the calls about its segment. *)
Section Calls.
Variable sort_by : forall A : Type, (A -> A -> comparison) -> list A -> list A.
Hypothesis SORT : forall A, sort_spec (sort_by A).
Lemma range_calls_walk y : forall n r l, walk_events sort_by n r = Ok l -> exists c, range_calls sort_by n y r = Ok c /\ c = map (pair y) (concat (map snd l)).
Proof.
  induction n as [|n IH]; intros r l H; [discriminate|]. cbn [walk_events range_calls] in *. destruct (rg_x r) as [x|] eqn:X.
  - destruct (rg_events_step sort_by r) as [[[b r']|]|e] eqn:S; cbn [rbind] in *; [|injection H as <-; exists []; auto|discriminate].
    destruct (walk_events sort_by n r') as [l'|e] eqn:W; cbn [rbind] in H; [|discriminate]. injection H as <-. destruct (IH r' l' W) as (c & -> & ->). cbn [rbind]. eexists. split; [reflexivity|]. cbn [map concat snd]. rewrite map_app. reflexivity.
  - injection H as <-. unfold rg_events_step. rewrite X. cbn [rbind]. exists []. auto.
Qed.
Lemma range_calls_more y : forall n m r c, n <= m -> range_calls sort_by n y r = Ok c -> range_calls sort_by m y r = Ok c.
Proof.
  induction n as [|n IH]; intros m r c L H; [discriminate|]. destruct m as [|m]; [lia|]. cbn [range_calls] in *. destruct (rg_events_step sort_by r) as [[[b r']|]|e]; cbn [rbind] in *; try assumption.
  destruct (range_calls sort_by n y r') as [c'|e] eqn:R; cbn [rbind] in H; [|discriminate]. rewrite (IH m r' c') by (try assumption; lia). exact H.
Qed.
Lemma about_pair i y l : about i (map (pair y) l) = map (pair y) (filter (fun e => ev_seg e =? i) l).
Proof. unfold about. rewrite filter_map. reflexivity. Qed.

Theorem range_trace fuel y evs : Forall ev_numbers evs -> ev_sorted evs -> NoDup (map ev_seg evs) -> 2 * length evs < fuel ->
  exists c, range_calls sort_by fuel y (rg_new evs) = Ok c /\ Forall (fun p => fst p = y /\ In (ev_seg (snd p)) (map ev_seg evs)) c /\
  forall E, In E evs -> exists l, about (ev_seg E) c = map (pair y) l /\
    ((stretch feq (ev_x0 E) (ev_above E) (ev_x1 E) (ev_below E) l /\ length l = 1) \/ stretch flt (ev_x0 E) (ev_above E) (ev_x1 E) (ev_below E) l \/ stretch fgt (ev_x0 E) (ev_above E) (ev_x1 E) (ev_below E) (rev l)).
Proof.
  intros NUM SRT ND F. destruct (range_batches sort_by SORT evs NUM SRT) as (l & W & S & ST & OK).
  destruct (range_calls_walk y _ _ _ W) as (c & C1 & C2). exists c. split; [eapply range_calls_more; [|exact C1]; lia|]. subst c. split.
  - clear - OK. apply Forall_forall. intros p H. apply in_map_iff in H. destruct H as (e & <- & H). split; [reflexivity|]. cbn [snd]. revert OK H. generalize (@None f64). induction l as [|[v b] l IH]; intros u OK H; [destruct H|]. cbn [map concat snd] in H. cbn [batches_ok] in OK. destruct OK as [(b' & P & F) OK].
    apply in_app_iff in H. destruct H as [H|H]; [|eapply IH; eassumption]. apply (Permutation_in _ P) in H.
    assert (X : exists z, In z (batch_at evs u v) /\ ev_seg e = ev_seg z). { clear - F H. induction F as [|x z b1 b2 SM F IH]; [destruct H|]. destruct H as [->|H]; [exists z; split; [left; reflexivity|apply SM]|]. destruct (IH H) as (z' & Z1 & Z2). exists z'. split; [right; exact Z1|exact Z2]. }
    destruct X as (z & X & ->). unfold batch_at in X. apply in_app_iff in X. destruct X as [X|X]; [|apply filter_In in X; apply in_map, X]. destruct u as [u|]; [|destruct X]. apply in_map_iff in X. destruct X as (g & <- & X). apply filter_In in X. assert (Q : ev_seg (cut u v g) = ev_seg g) by (unfold cut; destruct (flt (ev_x0 g) (ev_x1 g)); reflexivity). rewrite Q. apply in_map, X.
  - intros E HE. exists (mine E l). split; [apply about_pair|]. refine (mine_start evs NUM ND E HE l None I _ _ S OK).
    + destruct (E_num evs NUM E HE) as [N0 N1]. destruct (proj1 (ST (ev_x0 E))) as (z & Z1 & Z2). { exists E. split; [exact HE|]. left. fk. apply Z.eqb_refl. }
      destruct (feq_nonnan _ _ Z2) as [Nz _]. clear - S Z1 Nz. destruct l as [|p [|q l]]; [apply Forall_nil|apply Forall_cons; [cbn in Z1; destruct Z1 as [->|[]]; exact Nz|apply Forall_nil]|].
      cbn [map] in S. apply StronglySorted_inv in S. destruct S as [_ F']. apply Forall_cons; [apply Forall_inv in F'; apply (flt_nonnan _ _ F')|]. apply Forall_forall. intros r Hr. rewrite Forall_forall in F'. specialize (F' (fst r)). apply (flt_nonnan (fst p)), F'. destruct Hr as [<-|Hr]; [left; reflexivity|right; apply in_map, Hr].
    + intros x Hx. destruct (E_num evs NUM E HE) as [N0 N1]. apply ST. exists E. split; [exact HE|]. destruct Hx as [->| ->]; [left|right]; fk; apply Z.eqb_refl.
Qed.
End Calls.
