(** Proofs about the sweep, part 7: computing the changed intervals. *)
From Coq Require Import List Bool ZArith Arith Lia Permutation Sorted.
From Verif Require Import F64 F64Arith TreeVecModel TreeVecSpec GeomModel SegmentsModel SegmentsSpec
  SegmentsProofs SegmentsProofs2 SegmentsProofs3 SegmentsProofs4 CurveOrderModel CurveOrderSpec CurveOrderProofs CurveOrderProofs2 CurveOrderProofs3
  SweepModel SweepSpec SweepProofs SweepProofs2 SweepProofs3 SweepProofs4 SweepProofs6.
Import ListNotations.

Definition covered (k : nat) (ivs : list cinterval) : Prop := Exists (in_interval k) ivs.
Lemma covered_app k l1 l2 : covered k (l1 ++ l2) <-> covered k l1 \/ covered k l2.
Proof. apply Exists_app. Qed.

Lemma some_inj {A} (x z : A) : Some x = Some z -> x = z.
Proof. now intros [= ->]. Qed.

Lemma neginf_key x : fin x = true -> (key fneginf < key x)%Z.
Proof.
  assert (HI : (0 < key_inf)%Z) by reflexivity. destruct x as [b|b| |b m e H]; try discriminate; intros _.
  - change (key fneginf) with (- key_inf)%Z. cbn [key]. lia.
  - change (key fneginf) with (- key_inf)%Z. pose proof (key_finite_bound m e H). unfold key. destruct b; lia.
Qed.
Lemma neginf_nonnan : nan fneginf = false.
Proof. reflexivity. Qed.
Lemma fle_same_key x z z' : nan z = false -> nan z' = false -> key z = key z' -> fle x z = fle x z'.
Proof.
  intros N N' K. destruct (nan x) eqn:Nx; [|fk; now rewrite K].
  destruct x; try discriminate. reflexivity.
Qed.

(** The horizontals of consecutive intervals are consecutive ranges, from [k] to [m]. *)
Fixpoint tiles (k m : nat) (ivs : list cinterval) : Prop :=
  match ivs with
  | [] => k = m
  | c :: l => exists r, ci_hor c = Some (k, r) /\ k < r /\ tiles r m l
  end.
Lemma tiles_snoc k m ivs c r : tiles k m ivs -> ci_hor c = Some (m, r) -> m < r -> tiles k r (ivs ++ [c]).
Proof.
  revert k. induction ivs as [|b ivs IH]; intros k T E H; cbn in *.
  - subst. exists r. auto.
  - destruct T as (q & E1 & H1 & T). exists q. auto.
Qed.
Lemma tiles_last k m ivs c : tiles k m (ivs ++ [c]) -> exists h, ci_hor c = Some (h, m) /\ h < m /\ tiles k h ivs.
Proof.
  revert k. induction ivs as [|b ivs IH]; intros k T; cbn in *.
  - destruct T as (r & E & H & ->). exists k. auto.
  - destruct T as (q & E1 & H1 & T). destruct (IH _ T) as (h & A & B & C). exists h. split; [exact A|]. split; [exact B|]. exists q. auto.
Qed.
Lemma tiles_bound k m ivs : tiles k m ivs -> k <= m /\ forall c r, In c ivs -> ci_hor c = Some r -> k <= fst r < snd r /\ snd r <= m.
Proof.
  revert k. induction ivs as [|b ivs IH]; intros k T; cbn in T.
  - subst. split; [lia|intros c r []].
  - destruct T as (q & E1 & H1 & T). destruct (IH _ T) as [A B]. split; [lia|]. intros c r [<-|H] E.
    + rewrite E1 in E. injection E as <-. cbn. lia.
    + specialize (B _ _ H E). lia.
Qed.
Lemma tiles_all k m ivs : tiles k m ivs -> Forall (fun c => ci_hor c <> None) ivs.
Proof.
  revert k. induction ivs as [|b ivs IH]; intros k T; cbn in T; constructor; destruct T as (q & E1 & _ & T); [congruence|eauto].
Qed.
Lemma tiles_at k m ivs x : tiles k m ivs -> k <= x < m -> exists p r, In p ivs /\ ci_hor p = Some r /\ fst r <= x < snd r.
Proof.
  revert k. induction ivs as [|b ivs IH]; intros k T H; cbn in T; [lia|]. destruct T as (q & E1 & H1 & T).
  destruct (Nat.lt_ge_cases x q).
  - exists b, (k, q). split; [left; reflexivity|]. split; [exact E1|]. cbn. lia.
  - destruct (IH _ T) as (p & r & A & B & C); [lia|]. exists p, r. split; [right; exact A|]. auto.
Qed.
Lemma tiles_le k m ivs : tiles k m ivs -> StronglySorted ci_le ivs -> forall c p rc rp, In c ivs -> In p ivs ->
  ci_hor c = Some rc -> ci_hor p = Some rp -> fst rc < snd rp -> ci_le c p.
Proof.
  revert k. induction ivs as [|b ivs IH]; intros k T SS c p rc rp Hc Hp Ec Ep Hlt; [destruct Hc|].
  inversion SS as [|? ? SS' SF]; subst. cbn in T. destruct T as (q & E1 & H1 & T). destruct (tiles_bound _ _ _ T) as [_ TB].
  destruct Hc as [<-|Hc], Hp as [<-|Hp].
  - unfold ci_le. lia.
  - rewrite Forall_forall in SF. auto.
  - exfalso. rewrite E1 in Ep. injection Ep as <-. cbn in Hlt. specialize (TB _ _ Hc Ec). lia.
  - eapply IH; eauto.
Qed.
(** Two apart intervals have no point in common, even of their closures. *)
Lemma apart_unique ivs d d' x : StronglySorted ci_apart ivs -> Forall ci_wf ivs -> In d ivs -> In d' ivs ->
  fst (ci_segs d) <= x <= snd (ci_segs d) -> fst (ci_segs d') <= x <= snd (ci_segs d') -> d = d'.
Proof.
  induction 1 as [|b ivs Hs IH F]; intros W Hd Hd' X X'; [destruct Hd|]. inversion W; subst. rewrite Forall_forall in F.
  destruct Hd as [<-|Hd], Hd' as [<-|Hd']; auto; [specialize (F _ Hd')|specialize (F _ Hd)]; unfold ci_apart in F; lia.
Qed.
Lemma covered_run ivs k o : StronglySorted ci_apart ivs -> Forall ci_wf ivs -> k <= o -> (forall j, k <= j <= o -> covered j ivs) ->
  exists c, In c ivs /\ in_interval k c /\ in_interval o c.
Proof.
  intros SS W Hko. induction Hko as [|o Hko IH]; intros H.
  - specialize (H k ltac:(lia)). apply Exists_exists in H. destruct H as (c & A & B). exists c. auto.
  - destruct IH as (c & A & B & C); [intros; apply H; lia|]. specialize (H (S o) ltac:(lia)). apply Exists_exists in H. destruct H as (d & D1 & D2).
    assert (c = d) as <-; [|exists c; auto]. eapply (apart_unique ivs c d (S o)); try eassumption; unfold in_interval in *; lia.
Qed.
Lemma upd_last_snoc l c f c' : f c = Ok c' -> upd_last (l ++ [c]) f = Ok (l ++ [c']).
Proof.
  intros E. induction l as [|b l IH]; cbn [app upd_last]; [rewrite E; reflexivity|].
  destruct (l ++ [c]) as [|z t] eqn:Q; [destruct l; discriminate|]. rewrite IH. reflexivity.
Qed.

Section S.
Variable a : arena.
Variable eps : f64.
Variables cmp ccmp : nat -> nat -> curve_order.
Variables lower upper : segment -> f64 -> f64 -> f64.
Variable pph : (lentry -> bool) -> list lentry -> nat.
Variable sort_by : forall A : Type, (A -> A -> comparison) -> list A -> list A.

Notation mark_until := (mark_until a eps lower).
Notation horizontal_loop := (horizontal_loop a eps lower upper pph).
Notation compute_horizontal := (compute_horizontal a eps lower upper pph sort_by).
Notation spread_left := (spread_left a eps upper).
Notation spread_right := (spread_right a eps lower).
Notation contour_adjacent := (contour_adjacent a eps lower upper).
Notation grow_right := (grow_right cmp ccmp).
Notation grow_left := (grow_left cmp ccmp).
Notation changed_loop := (changed_loop cmp ccmp).
Notation compute_changed := (compute_changed a eps cmp ccmp lower upper pph sort_by).

Notation lo_of y e := (fsub (lower (seg_def a (le_seg e)) y eps) eps).
Notation up_of y e := (fadd (upper (seg_def a (le_seg e)) y eps) eps).

Hypothesis SP : sweepable a.
Hypothesis CO : comparer_ok a cmp.
Hypothesis CC : comparer_ok a ccmp.
Hypothesis SH : search_ok pph.
Hypothesis SM : search_mono pph.
Hypothesis SB : forall A, sort_spec (sort_by A).
Notation live := (SweepSpec.live a).

(** ** Loops *)
Lemma mark_until_spec y x rest : forall line j, Forall (fun e => le_seg e < arena_len a) rest -> length line = j + length rest ->
  exists en, j <= en <= length line /\ mark_until y x line rest j j = Ok (en, map_range set_old_idx j en line) /\
    (en = length line \/ exists e, nth_error rest (en - j) = Some e /\ fle (lo_of y e) x = false).
Proof.
  induction rest as [|e rest IH]; intros line j F L; cbn [SweepModel.mark_until].
  - exists j. cbn in L. split; [lia|]. rewrite map_range_empty by lia. split; [reflexivity|left; lia].
  - inversion F as [|? ? He F']; subst. rewrite (seg_at_lt _ _ He). cbn [rbind]. cbn [length] in L.
    destruct (fle (lo_of y e) x) eqn:E.
    + rewrite (line_upd_range set_old_idx) by lia. cbn [rbind].
      destruct (IH (map_range set_old_idx j (S j) line) (S j) F') as (en & B & -> & C); [rewrite map_range_length; lia|].
      rewrite map_range_length in *. exists en. split; [lia|]. rewrite map_range_join by lia. split; [reflexivity|].
      destruct C as [C|(e' & C1 & C2)]; [left; exact C|right]. exists e'. split; [|exact C2].
      replace (en - j) with (S (en - S j)) by lia. exact C1.
    + exists j. split; [lia|]. rewrite map_range_empty by lia. split; [reflexivity|]. right. exists e. rewrite Nat.sub_diag. auto.
Qed.

Lemma spread_left_spec y x rest : forall line, Forall (fun e => le_seg e < arena_len a) rest -> length rest <= length line ->
  exists st, st <= length rest /\ spread_left y x line rest (length rest) = Ok (st, map_range set_old_idx st (length rest) line) /\
    (st = 0 \/ exists e, nth_error (rev rest) (st - 1) = Some e /\ fge (up_of y e) x = false).
Proof.
  induction rest as [|e rest IH]; intros line F L; cbn [SweepModel.spread_left length].
  - exists 0. split; [lia|]. rewrite map_range_empty by lia. auto.
  - inversion F as [|? ? He F']; subst. rewrite (seg_at_lt _ _ He). cbn [rbind]. cbn [length] in L. cbv zeta.
    destruct (fge (up_of y e) x) eqn:Q.
    + rewrite (line_upd_range set_old_idx) by lia. cbn [rbind].
      destruct (IH (map_range set_old_idx (length rest) (S (length rest)) line) F') as (st & B & -> & C); [rewrite map_range_length; lia|].
      exists st. split; [lia|]. rewrite map_range_join' by lia. split; [reflexivity|]. destruct C as [C|(f & C1 & C2)]; [left; exact C|right].
      exists f. split; [|exact C2]. cbn [rev]. rewrite nth_error_app1; [exact C1|]. apply nth_error_Some. congruence.
    + exists (S (length rest)). split; [lia|]. rewrite map_range_empty by lia. split; [reflexivity|]. right. exists e. split; [|exact Q].
      cbn [rev]. rewrite nth_error_app2; rewrite rev_length; [|lia]. replace (S (length rest) - 1 - length rest) with 0 by lia. reflexivity.
Qed.
Lemma spread_right_spec y x rest : forall line j, Forall (fun e => le_seg e < arena_len a) rest -> length line = S j + length rest ->
  exists en, j <= en < length line /\ spread_right y x line rest (S j) j = Ok (en, map_range set_old_idx (S j) (S en) line) /\
    (S en = length line \/ exists e, nth_error rest (en - j) = Some e /\ fle (lo_of y e) x = false).
Proof.
  induction rest as [|e rest IH]; intros line j F L; cbn [SweepModel.spread_right].
  - exists j. cbn in L. split; [lia|]. rewrite map_range_empty by lia. split; [reflexivity|]. left. lia.
  - inversion F as [|? ? He F']; subst. rewrite (seg_at_lt _ _ He). cbn [rbind]. cbn [length] in L.
    destruct (fle (lo_of y e) x) eqn:Q.
    + rewrite (line_upd_range set_old_idx) by lia. cbn [rbind].
      destruct (IH (map_range set_old_idx (S j) (S (S j)) line) (S j) F') as (en & B & -> & C); [rewrite map_range_length; lia|].
      rewrite map_range_length in B, C. exists en. split; [lia|]. rewrite map_range_join by lia. split; [reflexivity|].
      destruct C as [C|(f & C1 & C2)]; [left; exact C|right]. exists f. split; [|exact C2]. replace (en - j) with (S (en - S j)) by lia. exact C1.
    + exists j. split; [lia|]. rewrite map_range_empty by lia. split; [reflexivity|]. right. exists e. rewrite Nat.sub_diag. auto.
Qed.

Definition goodline (y : f64) (l : list lentry) : Prop := Forall (fun e => live y (le_seg e)) l /\ NoDup (map le_seg l).
Lemma goodline_segs y l l' : map le_seg l' = map le_seg l -> goodline y l -> goodline y l'.
Proof.
  intros E [F N]. split; [|rewrite E; exact N]. apply (Forall_map le_seg (fun i => live y i)). rewrite E. apply Forall_map. exact F.
Qed.
Lemma goodline_at y l k : goodline y l -> k < length l -> exists i, line_seg l k = Ok i /\ live y i /\ nth_error (map le_seg l) k = Some i.
Proof.
  intros [F N] H. destruct (nth_error l k) as [e|] eqn:E; [|apply nth_error_None in E; lia].
  exists (le_seg e). unfold line_seg, line_get. rewrite E. cbn. split; [reflexivity|]. split; [|rewrite nth_error_map, E; reflexivity].
  rewrite Forall_forall in F. apply F. eapply nth_error_In; exact E.
Qed.
Lemma goodline_ne y l i j p q : goodline y l -> nth_error (map le_seg l) i = Some p -> nth_error (map le_seg l) j = Some q -> i <> j -> p <> q.
Proof.
  intros [F N] H1 H2 D E. subst q. apply D. eapply (proj1 (NoDup_nth_error (map le_seg l)) N); [apply nth_error_Some; congruence|congruence].
Qed.

Lemma grow_right_spec y : nan y = false -> forall fuel line i en, goodline y line -> fuel + i = length line -> 1 <= en <= i ->
  exists en', en <= en' <= length line /\ grow_right fuel y line i en = Ok (en', map_range mark en en' line).
Proof.
  intros N. induction fuel as [|f IH]; intros line i en G L H; cbn [SweepModel.grow_right].
  - exists en. split; [lia|]. rewrite map_range_empty by lia. reflexivity.
  - destruct (goodline_at y line (en - 1) G) as (p & -> & Lp & Np); [lia|]. destruct (goodline_at y line i G) as (q & -> & Lq & Nq); [lia|]. cbn [rbind].
    assert (D : p <> q) by (eapply goodline_ne; [exact G|exact Np|exact Nq|lia]).
    destruct (order_at_live a SP ccmp y p q CC N Lp Lq D) as (o & -> & _). cbn [rbind].
    destruct (order_eqb o Left); [exists en; split; [lia|]; rewrite map_range_empty by lia; reflexivity|].
    destruct (order_at_live a SP cmp y p q CO N Lp Lq D) as (o2 & -> & _). cbn [rbind].
    destruct (negb (order_eqb o2 Left)).
    + unfold line_map_range. rewrite (proj2 (Nat.leb_le en (S i))), (proj2 (Nat.leb_le (S i) _)) by lia. cbn [andb rbind].
      destruct (IH (map_range mark en (S i) line) (S i) (S i)) as (en' & B & ->).
      * eapply goodline_segs; [|exact G]. apply map_range_segs, mark_seg.
      * rewrite map_range_length. lia.
      * lia.
      * rewrite map_range_length in B. exists en'. split; [lia|]. rewrite map_range_join by lia. reflexivity.
    + destruct (IH line (S i) en G) as (en' & B & ->); [lia|lia|]. exists en'. split; [lia|reflexivity].
Qed.
Lemma grow_left_spec y : nan y = false -> forall fuel line st, goodline y line -> fuel <= st -> st < length line ->
  exists st', st' <= st /\ grow_left fuel y line st = Ok (st', map_range mark st' st line).
Proof.
  intros N. induction fuel as [|i IH]; intros line st G H L; cbn [SweepModel.grow_left].
  - exists st. split; [lia|]. rewrite map_range_empty by lia. reflexivity.
  - destruct (goodline_at y line i G) as (p & -> & Lp & Np); [lia|]. destruct (goodline_at y line st G) as (q & -> & Lq & Nq); [lia|]. cbn [rbind].
    assert (D : p <> q) by (eapply goodline_ne; [exact G|exact Np|exact Nq|lia]).
    destruct (order_at_live a SP ccmp y p q CC N Lp Lq D) as (o & -> & _). cbn [rbind].
    destruct (order_eqb o Left); [exists st; split; [lia|]; rewrite map_range_empty by lia; reflexivity|].
    destruct (order_at_live a SP cmp y p q CO N Lp Lq D) as (o2 & -> & _). cbn [rbind].
    destruct (negb (order_eqb o2 Left)).
    + unfold line_map_range. rewrite (proj2 (Nat.leb_le i st)), (proj2 (Nat.leb_le st _)) by lia. cbn [andb rbind].
      destruct (IH (map_range mark i st line) i) as (st' & B & ->).
      * eapply goodline_segs; [|exact G]. apply map_range_segs, mark_seg.
      * lia.
      * rewrite map_range_length. lia.
      * exists st'. split; [lia|]. rewrite map_range_join' by lia. reflexivity.
    + destruct (IH line st G) as (st' & B & ->); [lia|lia|]. exists st'. split; [lia|reflexivity].
Qed.

(** ** The invariant *)
Section Inv.
Variable y : f64.
Variable L : list lentry.
Variable need : list nat.
Hypothesis Ny : nan y = false.
Hypothesis GL : goodline y L.
Hypothesis HNeed : Forall (fun k => k < length L) need.
Hypothesis HL : forall k e, nth_error L k = Some e -> le_changed e = false /\ (le_old_idx e <> None -> In k need).

(** No entry lies entirely (by the tolerance) to the right of a later one. *)
Definition boxes : Prop := forall i j e f, i <= j -> nth_error L i = Some e -> nth_error L j = Some f ->
  fle (lo_of y e) (up_of y f) = true.

Definition full (line : list lentry) (ivs : list cinterval) : Prop :=
  forall k e, covered k ivs -> nth_error line k = Some e -> le_old_idx e <> None \/ In k need.
Record CH (line : list lentry) (ivs : list cinterval) : Prop := {
  ch_mkl : mkl L line;
  ch_wf : Forall (fun c => fst (ci_segs c) <= snd (ci_segs c) <= length L) ivs;
  ch_old : forall k e, nth_error line k = Some e -> le_old_idx e <> None -> In k need \/ covered k ivs;
  ch_chg : forall k e, nth_error line k = Some e -> le_changed e = true -> covered k ivs /\ le_old_idx e <> None;
  ch_full : boxes -> full line ivs }.

Lemma CH_init : CH L [].
Proof.
  split.
  - apply mkl_refl.
  - constructor.
  - intros k e H1 H2. left. apply (HL _ _ H1). exact H2.
  - intros k e H1 H2. destruct (HL _ _ H1). congruence.
  - intros _ k e H. inversion H.
Qed.

Lemma CH_upd line ivs line' ivs' : CH line ivs -> mkl line line' ->
  Forall (fun c => fst (ci_segs c) <= snd (ci_segs c) <= length L) ivs' ->
  (forall k, covered k ivs -> covered k ivs') ->
  (forall k e e', nth_error line k = Some e -> nth_error line' k = Some e' -> e' = e \/ (covered k ivs' /\ le_old_idx e' <> None)) ->
  (boxes -> forall k e', covered k ivs' -> ~ covered k ivs -> nth_error line' k = Some e' -> le_old_idx e' <> None \/ In k need) ->
  CH line' ivs'.
Proof.
  intros [M W O C F] M' W' I U F'. split.
  - eapply mkl_trans; eassumption.
  - exact W'.
  - intros k e' H1 H2. destruct (mkl_at _ _ _ _ M' H1) as (e & He & _). destruct (U _ _ _ He H1) as [->|[U1 _]]; [|auto].
    destruct (O _ _ He H2); auto.
  - intros k e' H1 H2. destruct (mkl_at _ _ _ _ M' H1) as (e & He & _). destruct (U _ _ _ He H1) as [->|U1]; [|auto].
    destruct (C _ _ He H2). auto.
  - intros B k e' H1 H2. destruct (mkl_at _ _ _ _ M' H2) as (e & He & Me).
    destruct (Exists_dec (in_interval k) ivs) as [X|X].
    { intros c. unfold in_interval. destruct (le_dec (fst (ci_segs c)) k), (lt_dec k (snd (ci_segs c))); tauto. }
    + destruct (F B k e X He) as [Q|Q]; [|auto]. left. destruct Me as (_ & [->|[Z _]] & _); [exact Q|congruence].
    + eapply F'; eassumption.
Qed.

Lemma goodline_mkl line : mkl L line -> goodline y line.
Proof. intros M. eapply goodline_segs; [apply mkl_segs, M|exact GL]. Qed.
Lemma good_lt line : goodline y line -> Forall (fun e => le_seg e < arena_len a) line.
Proof. intros [F _]. eapply Forall_impl; [|exact F]. intros e H. apply (live_lt a SP y), H. Qed.
Lemma Forall_rev_firstn {A} (P : A -> Prop) k l : Forall P l -> Forall P (rev (firstn k l)).
Proof. intros H. apply Forall_rev, Forall_firstn, H. Qed.

(** ** How far intervals reach *)
Definition stopR (x : f64) (A : nat) : Prop := A = length L \/ exists e, nth_error L A = Some e /\ fle (lo_of y e) x = false.
Definition stopL (x : f64) (B : nat) : Prop := B = 0 \/ exists e, nth_error L (B - 1) = Some e /\ (fge (up_of y e) x = false \/ fle (up_of y e) x = true).
Definition reach (x : f64) (c : cinterval) : Prop :=
  (exists A, A <= snd (ci_segs c) /\ stopR x A) /\ (exists B, fst (ci_segs c) <= B <= length L /\ stopL x B).
(** The same, beyond entry [k]. *)
Definition reach_at (k : nat) (x : f64) (c : cinterval) : Prop :=
  (exists A, k < A <= snd (ci_segs c) /\ stopR x A) /\ (exists B, fst (ci_segs c) <= B <= k /\ stopL x B).
Lemma reach_within x c d : within c d -> reach x c -> reach x d.
Proof.
  intros (W1 & W2 & _) [(A & A1 & A2) (B & B1 & B2)]. split; [exists A|exists B]; (split; [lia|assumption]).
Qed.
Definition own_end (e : lentry) : bool := match le_old_seg e with Some _ => false | None => le_enter e || le_exit e end.
Definition end_pos (e : lentry) : f64 := if le_enter e then px (seg_start (seg_def a (le_seg e))) else px (seg_end (seg_def a (le_seg e))).
Lemma mke_same k e e' : mke k e e' -> le_seg e' = le_seg e /\ own_end e' = own_end e /\ end_pos e' = end_pos e.
Proof. intros (U & _). unfold own_end, end_pos. unfold unmark in U. injection U as -> -> -> _ _ ->. auto. Qed.

(** ** Entering and exiting segments *)
Lemma set_old_idx_ne k e : le_old_idx (set_old_idx k e) <> None.
Proof. destruct (set_old_idx_some k e) as (o & -> & _). discriminate. Qed.
Lemma mark_ne k e : le_old_idx (mark k e) <> None.
Proof. unfold mark, with_changed. cbn. apply set_old_idx_ne. Qed.

Lemma contour_adjacent_spec js : forall s, incl js need -> sw_y s = y -> CH (sw_line s) (sw_changed s) ->
  exists line ivs, contour_adjacent js s = Ok (with_changed_ivs (with_line s line) (sw_changed s ++ ivs)) /\
    CH line (sw_changed s ++ ivs) /\ Forall (fun c => ci_hor c = None) ivs /\
    forall j e, In j js -> nth_error L j = Some e -> own_end e = true -> exists st en, st <= j <= en /\ S en <= length L /\
      stopL (end_pos e) st /\ stopR (end_pos e) (S en) /\ (st < en -> In (mkCI (st, S en) None) ivs).
Proof.
  induction js as [|j js IH]; intros s HI Hy H; cbn [SweepModel.contour_adjacent].
  - exists (sw_line s), []. rewrite app_nil_r. split; [destruct s; reflexivity|]. split; [exact H|]. split; [constructor|]. intros j e [].
  - assert (Ij : In j need) by (apply HI; left; reflexivity). assert (HI' : incl js need) by (intros z Hz; apply HI; right; exact Hz).
    pose proof (ch_mkl _ _ H) as M. pose proof (goodline_mkl _ M) as G. pose proof (good_lt _ G) as FL.
    assert (Hj : j < length (sw_line s)) by (rewrite (proj1 M); rewrite Forall_forall in HNeed; apply HNeed, Ij).
    destruct (nth_error (sw_line s) j) as [e|] eqn:E; [|apply nth_error_None in E; lia].
    unfold line_get. rewrite E. cbn [orerr rbind]. destruct (mkl_at _ _ _ _ M E) as (eL & E0 & Me0). destruct (mke_same _ _ _ Me0) as (SA1 & SA2 & SA3). destruct (_ || _) eqn:OWN.
    { destruct (IH s HI' Hy H) as (line & ivs & R1 & R2 & R3 & R4). exists line, ivs. split; [exact R1|]. split; [exact R2|]. split; [exact R3|].
      intros j' e' [<-|Hj'] He' OE; [|eapply R4; eassumption]. exfalso. assert (e' = eL) by congruence. subst e'. rewrite <- SA2 in OE. unfold own_end in OE. destruct (le_old_seg e); [discriminate|]. rewrite OE in OWN. discriminate. }
    assert (Hl : le_seg e < arena_len a) by (rewrite Forall_forall in FL; apply FL; eapply nth_error_In; exact E).
    rewrite (seg_at_lt _ _ Hl). cbn [rbind]. cbv zeta. fold (end_pos e). set (x := end_pos e).
    assert (Lr : length (rev (firstn j (sw_line s))) = j) by (rewrite rev_length, firstn_length_le by lia; reflexivity).
    destruct (spread_left_spec (sw_y s) x (rev (firstn j (sw_line s))) (sw_line s)) as (st & B1 & E1 & F1).
    { apply Forall_rev_firstn, FL. } { lia. }
    rewrite Lr in E1, B1. rewrite E1. cbn [rbind]. set (l1 := map_range set_old_idx st j (sw_line s)).
    assert (M1 : mkl (sw_line s) l1) by (apply mkl_range, mke_set).
    assert (G1 : goodline y l1) by (eapply goodline_segs; [apply mkl_segs, M1|exact G]).
    assert (Ll1 : length l1 = length (sw_line s)) by apply map_range_length.
    destruct (spread_right_spec (sw_y s) x (skipn (S j) l1) l1 j) as (en & B2 & E2 & F2).
    { apply Forall_skipn, good_lt, G1. } { rewrite skipn_length. lia. }
    rewrite E2. cbn [rbind]. set (l2 := map_range set_old_idx (S j) (S en) l1).
    assert (M2 : mkl (sw_line s) l2) by (eapply mkl_trans; [exact M1|apply mkl_range, mke_set]).
    set (iv := if st <? en then [mkCI (st, S en) None] else []).
    assert (C2 : CH l2 (sw_changed s ++ iv)).
    { eapply CH_upd; [exact H|exact M2| | | |].
      - apply Forall_app. split; [apply H|]. unfold iv. destruct (st <? en) eqn:Q; [|constructor]. constructor; [|constructor]. cbn. rewrite <- (proj1 M). nb. lia.
      - intros k Hk. apply covered_app. auto.
      - intros k e0 e2 H0 H2. unfold l2, l1 in H2. rewrite !map_range_nth, H0 in H2. unfold option_map in H2. apply some_inj in H2; subst e2.
        assert (X : (st <= k < j \/ S j <= k < S en) -> covered k (sw_changed s ++ iv)).
        { intros X. apply covered_app. right. unfold iv. rewrite (proj2 (Nat.ltb_lt st en)) by lia. constructor. unfold in_interval. cbn. lia. }
        destruct (st <=? k) eqn:Q1, (k <? j) eqn:Q2, (S j <=? k) eqn:Q3, (k <? S en) eqn:Q4; unfold andb; auto; right; nb; split;
          try apply set_old_idx_ne; apply X; lia.
      - intros _ k e2 Hc Hnc H2. apply covered_app in Hc. destruct Hc as [Hc|Hc]; [contradiction|]. unfold iv in Hc.
        destruct (st <? en) eqn:Q; [|inversion Hc]. inversion Hc as [? ? Hk|? ? Hk]; subst; [|inversion Hk]. unfold in_interval in Hk. cbn in Hk.
        destruct (Nat.eq_dec k j) as [->|Nk]; [right; exact Ij|left].
        unfold l2, l1 in H2. rewrite !map_range_nth in H2. destruct (nth_error (sw_line s) k) as [e0|]; [|discriminate]. unfold option_map in H2. apply some_inj in H2; subst e2.
        destruct ((st <=? k) && (k <? j)) eqn:Q1, ((S j <=? k) && (k <? S en)) eqn:Q2; cbv iota; try apply set_old_idx_ne.
        exfalso. apply andb_false_iff in Q1. apply andb_false_iff in Q2. destruct Q1, Q2; nb; lia. }
    destruct (IH (with_changed_ivs (with_line s l2) (sw_changed s ++ iv)) HI' Hy C2) as (line & ivs & R1 & R2 & R3 & R4).
    cbn [with_changed_ivs with_line sw_changed sw_line] in R1, R2. exists line, (iv ++ ivs). rewrite app_assoc. split; [|split; [exact R2|split]].
    + replace (if st <? en then with_changed_ivs (with_line s l2) (sw_changed (with_line s l2) ++ [mkCI (st, S en) None]) else with_line s l2)
        with (with_changed_ivs (with_line s l2) (sw_changed s ++ iv)); [exact R1|].
      unfold iv. destruct (st <? en); [reflexivity|]. rewrite app_nil_r. destruct s; reflexivity.
    + apply Forall_app. split; [|exact R3]. unfold iv. destruct (st <? en); repeat constructor.
    + intros j' e' [<-|Hj'] He' OE.
      * assert (e' = eL) by congruence. subst e'. rewrite <- SA3. fold x. pose proof (proj1 M) as LM. exists st, en. split; [lia|]. split; [lia|]. split; [|split].
        -- destruct F1 as [F1|(f & F1 & F1')]; [left; exact F1|right]. rewrite rev_involutive in F1. assert (Q : st - 1 < j). { assert (st - 1 < length (firstn j (sw_line s))) by (apply nth_error_Some; congruence). rewrite firstn_length in *. lia. }
           rewrite (nth_firstn _ _ _ Q) in F1. destruct (mkl_at _ _ _ _ M F1) as (f0 & G0 & Mf). destruct (mke_same _ _ _ Mf) as (S1 & _). exists f0. split; [exact G0|]. left. rewrite <- S1, <- Hy. exact F1'.
        -- destruct F2 as [F2|(f & F2 & F2')]; [left; lia|right]. rewrite nth_skipn in F2. replace (S j + (en - j)) with (S en) in F2 by lia.
           destruct (mkl_at _ _ _ _ M1 F2) as (f1 & G1' & Mf1). destruct (mkl_at _ _ _ _ M G1') as (f0 & G0 & Mf). destruct (mke_same _ _ _ Mf) as (S1 & _). destruct (mke_same _ _ _ Mf1) as (S2 & _).
           exists f0. split; [exact G0|]. rewrite <- S1, <- S2, <- Hy. exact F2'.
        -- intros Q. apply in_or_app. left. unfold iv. rewrite (proj2 (Nat.ltb_lt _ _) Q). left. reflexivity.
      * destruct (R4 j' e' Hj' He' OE) as (u & v & U1 & U2 & U3 & U4 & U5). exists u, v. do 4 (split; [assumption|]). intros Q. apply in_or_app. right. apply U5, Q.
Qed.

Lemma changed_loop_spec js : forall s, incl js need -> sw_y s = y -> CH (sw_line s) (sw_changed s) ->
  exists line ivs, changed_loop js s = Ok (with_changed_ivs (with_line s line) (sw_changed s ++ ivs)) /\
    CH line (sw_changed s ++ ivs) /\ Forall (fun c => ci_hor c = None) ivs /\
    mkl (sw_line s) line /\ forall k e, In k js -> nth_error line k = Some e -> le_changed e = true.
Proof.
  induction js as [|j js IH]; intros s HI Hy H; cbn [SweepModel.changed_loop].
  - exists (sw_line s), []. rewrite app_nil_r. split; [destruct s; reflexivity|]. split; [exact H|]. split; [constructor|]. split; [apply mkl_refl|intros k e []].
  - assert (Ij : In j need) by (apply HI; left; reflexivity). assert (HI' : incl js need) by (intros z Hz; apply HI; right; exact Hz).
    pose proof (ch_mkl _ _ H) as M. pose proof (goodline_mkl _ M) as G.
    assert (Hj : j < length (sw_line s)) by (rewrite (proj1 M); rewrite Forall_forall in HNeed; apply HNeed, Ij).
    destruct (nth_error (sw_line s) j) as [e|] eqn:E; [|apply nth_error_None in E; lia].
    unfold line_get. rewrite E. cbn [orerr rbind]. destruct (le_changed e) eqn:Ch.
    { destruct (IH s HI' Hy H) as (line & ivs & R1 & R2 & R3 & R4 & R5). exists line, ivs. do 4 (split; [assumption|]).
      intros k e' [<-|Hk] He'; [|eauto]. destruct (proj2 R4 _ _ _ E He') as (_ & _ & X). auto. }
    rewrite (line_upd_range mark) by lia. cbn [rbind]. set (l1 := map_range mark j (S j) (sw_line s)).
    assert (Ll1 : length l1 = length (sw_line s)) by apply map_range_length.
    assert (G1 : goodline y l1) by (eapply goodline_segs; [apply map_range_segs, mark_seg|exact G]).
    rewrite Hy. destruct (grow_right_spec y Ny (length l1 - S j) l1 (S j) (S j) G1) as (en & B1 & E1); [lia|lia|].
    rewrite E1. cbn [rbind]. unfold l1. rewrite map_range_join by lia. set (l2 := map_range mark j en (sw_line s)).
    assert (Ll2 : length l2 = length (sw_line s)) by apply map_range_length.
    assert (G2 : goodline y l2) by (eapply goodline_segs; [apply map_range_segs, mark_seg|exact G]).
    destruct (grow_left_spec y Ny j l2 j G2) as (st & B2 & E2); [lia|lia|].
    rewrite E2. cbn [rbind]. unfold l2. rewrite map_range_join' by lia. set (l3 := map_range mark st en (sw_line s)).
    assert (M3 : mkl (sw_line s) l3) by (apply mkl_range, mke_mark).
    assert (C3 : CH l3 (sw_changed s ++ [mkCI (st, en) None])).
    { eapply CH_upd; [exact H|exact M3| | | |].
      - apply Forall_app. split; [apply H|]. constructor; [|constructor]. cbn. rewrite <- (proj1 M). lia.
      - intros k Hk. apply covered_app. auto.
      - intros k e0 e3 H0 H3. unfold l3 in H3. rewrite map_range_nth, H0 in H3. unfold option_map in H3. apply some_inj in H3; subst e3.
        destruct ((st <=? k) && (k <? en)) eqn:Q; auto. right. apply andb_true_iff in Q. destruct Q. nb. split; [|apply mark_ne].
        apply covered_app. right. constructor. unfold in_interval. cbn. lia.
      - intros _ k e3 Hc Hnc H3. apply covered_app in Hc. destruct Hc as [Hc|Hc]; [contradiction|].
        inversion Hc as [? ? Hk|? ? Hk]; subst; [|inversion Hk]. unfold in_interval in Hk. cbn in Hk. left.
        unfold l3 in H3. rewrite map_range_nth in H3. destruct (nth_error (sw_line s) k) as [e0|]; [|discriminate]. unfold option_map in H3. apply some_inj in H3; subst e3.
        rewrite (proj2 (Nat.leb_le st k)), (proj2 (Nat.ltb_lt k en)) by lia. apply mark_ne. }
    destruct (IH (with_changed_ivs (with_line s l3) (sw_changed s ++ [mkCI (st, en) None])) HI' Hy C3) as (line & ivs & R1 & R2 & R3 & R4 & R5).
    cbn [with_changed_ivs with_line sw_changed sw_line] in R1, R2, R4. exists line, ([mkCI (st, en) None] ++ ivs). rewrite app_assoc.
    split; [exact R1|]. split; [exact R2|]. split; [constructor; [reflexivity|exact R3]|]. split; [eapply mkl_trans; eassumption|].
    intros k e' [<-|Hk] He'; [|eauto]. destruct (mkl_at _ _ _ _ R4 He') as (e3 & H3 & (_ & _ & X)). apply X.
    unfold l3 in H3. rewrite map_range_nth, E in H3. unfold option_map in H3. apply some_inj in H3; subst e3.
    rewrite (proj2 (Nat.leb_le st j)), (proj2 (Nat.ltb_lt j en)) by lia. reflexivity.
Qed.
(** ** Horizontal segments *)
Definition start_x (h : nat) : f64 := px (seg_start (seg_def a h)).
Definition end_x (h : nat) : f64 := px (seg_end (seg_def a h)).
Definition first_hit (h : nat) (line : list lentry) : nat := pph (fun e => fle (up_of y e) (start_x h)) line.

Lemma first_hit_mkl h l l' : map le_seg l' = map le_seg l -> first_hit h l <= first_hit h l'.
Proof.
  intros E. apply SM. revert l' E. induction l as [|e l IH]; intros [|e' l'] E; try discriminate; constructor.
  - cbn in E. injection E as E _. rewrite E. auto.
  - apply IH. cbn in E. injection E as _ E. exact E.
Qed.
Lemma first_hit_eq h line : mkl L line -> first_hit h line = first_hit h L.
Proof.
  intros M. apply mkl_segs in M. apply Nat.le_antisymm; apply first_hit_mkl; congruence.
Qed.
Lemma first_hit_mono h h' line : fle (start_x h) (start_x h') = true -> first_hit h line <= first_hit h' line.
Proof.
  intros H. apply SM. induction line; constructor; [|assumption]. intros X. eapply fle_trans; eassumption.
Qed.

Definition HZ (hs : list nat) (idx : nat) (last_end : f64) (ivs : list cinterval) : Prop :=
  tiles 0 idx ivs /\ StronglySorted ci_le ivs /\ nan last_end = false /\
  ((ivs = [] /\ last_end = fneginf) \/
   exists pre c, ivs = pre ++ [c] /\ (forall h, In h hs -> fst (ci_segs c) <= first_hit h L) /\
     exists A, A <= snd (ci_segs c) /\ (A = length L \/ exists e, nth_error L A = Some e /\ fle (lo_of y e) last_end = false)).

Lemma sorted_snoc {A} (R : A -> A -> Prop) l x : StronglySorted R l -> Forall (fun z => R z x) l -> StronglySorted R (l ++ [x]).
Proof.
  induction 1 as [|z l Hs IH F]; intros H; cbn; [repeat constructor|]. inversion H; subst. constructor; [auto|]. apply Forall_app. split; [exact F|repeat constructor; assumption].
Qed.

Lemma horizontal_loop_spec hs : forall idx last_end s, Forall (fun h => h < arena_len a /\ fle (start_x h) (end_x h) = true) hs ->
  StronglySorted (fun h h' => fle (start_x h) (start_x h') = true) hs ->
  CH (sw_line s) (sw_changed s) -> HZ hs idx last_end (sw_changed s) ->
  exists line ivs, horizontal_loop y hs idx last_end s = Ok (with_changed_ivs (with_line s line) ivs) /\ CH line ivs /\
    tiles 0 (idx + length hs) ivs /\ StronglySorted ci_le ivs /\ (forall c, In c (sw_changed s) -> exists c', In c' ivs /\ within c c') /\
    forall n h, nth_error hs n = Some h -> exists c q, In c ivs /\ ci_hor c = Some q /\ fst q <= idx + n < snd q /\
      fst (ci_segs c) <= first_hit h L /\ exists A, A <= snd (ci_segs c) /\ stopR (end_x h) A.
Proof.
  induction hs as [|h hs IH]; intros idx last_end s FH SS H Z; cbn [SweepModel.horizontal_loop].
  - exists (sw_line s), (sw_changed s). split; [destruct s; reflexivity|]. split; [exact H|]. rewrite Nat.add_0_r. split; [apply Z|]. split; [apply Z|]. split; [intros c Hc; exists c; split; [exact Hc|apply within_refl]|]. intros [|n]; discriminate.
  - inversion FH as [|? ? [Hh Hx] FH']; subst. inversion SS as [|? ? SS' SF]; subst. rewrite (seg_at_lt _ _ Hh). cbn [rbind]. cbv zeta.
    pose proof (ch_mkl _ _ H) as M. pose proof (goodline_mkl _ M) as G. pose proof (good_lt _ G) as FL.
    change (px (seg_start (seg_def a h))) with (start_x h). change (px (seg_end (seg_def a h))) with (end_x h).
    change (pph (fun e => fle (up_of y e) (start_x h)) (sw_line s)) with (first_hit h (sw_line s)).
    destruct (SH (fun e => fle (up_of y e) (start_x h)) (sw_line s)) as (B1 & B2 & B3). fold (first_hit h (sw_line s)) in B1, B2, B3.
    rewrite (first_hit_eq h _ M) in *. set (st := first_hit h L) in *.
    destruct (mark_until_spec y (end_x h) (skipn st (sw_line s)) (sw_line s) st) as (en & C1 & -> & C2).
    { apply Forall_skipn, FL. } { rewrite skipn_length. lia. }
    cbn [rbind]. set (l1 := map_range set_old_idx st en (sw_line s)).
    assert (M1 : mkl (sw_line s) l1) by (apply mkl_range, mke_set).
    assert (LL : length (sw_line s) = length L) by apply M.
    destruct (sp_finite _ SP _ Hh) as [[Fx _] [Fx' _]]. change (px (seg_start (seg_def a h))) with (start_x h) in Fx. change (px (seg_end (seg_def a h))) with (end_x h) in Fx'.
    pose proof (fin_nonnan _ Fx) as Nx. pose proof (fin_nonnan _ Fx') as Nx'.
    destruct Z as (T & SV & Nl & Z).
    assert (Nl' : nan (fmax last_end (end_x h)) = false) by (apply fmax_nonnan; assumption).
    assert (Kl' : key (fmax last_end (end_x h)) = Z.max (key last_end) (key (end_x h))) by (apply fmax_nonnan; assumption).
    assert (FUT : forall h', In h' hs -> st <= first_hit h' L).
    { intros h' Hh'. apply first_hit_mono. rewrite Forall_forall in SF. apply SF, Hh'. }
    assert (BOX : en = length L \/ exists e, nth_error L en = Some e /\ fle (lo_of y e) (end_x h) = false).
    { destruct C2 as [C2|(e & C2 & C3)]; [left; congruence|right]. rewrite nth_skipn in C2. replace (st + (en - st)) with en in C2 by lia.
      destruct (mkl_at _ _ _ _ M C2) as (e0 & E0 & (U & _)). exists e0. split; [exact E0|]. replace (le_seg e0) with (le_seg e); [exact C3|].
      unfold unmark in U. congruence. }
    set (civ := fun ivs : list cinterval => if fle (start_x h) last_end then
       upd_last ivs (fun c => match ci_hor c with None => Err EHorizontal
         | Some (h0, _) => Ok (mkCI (fst (ci_segs c), Nat.max (snd (ci_segs c)) en) (Some (h0, S idx))) end)
       else Ok (ivs ++ [mkCI (st, en) (Some (idx, S idx))])).
    assert (STEP : exists ivs', civ (sw_changed s) = Ok ivs' /\ (CH l1 ivs' /\ HZ hs (S idx) (fmax last_end (end_x h)) ivs') /\
      (forall c, In c (sw_changed s) -> exists c', In c' ivs' /\ within c c') /\
      exists c q, In c ivs' /\ ci_hor c = Some q /\ fst q <= idx < snd q /\ fst (ci_segs c) <= st /\ en <= snd (ci_segs c)).
    { unfold civ. destruct (fle (start_x h) last_end) eqn:Ef.
      - destruct Z as [[_ ->]|(pre & c & Ec & Z1 & A & Z2 & Z3)].
        { exfalso. pose proof (neginf_key _ Fx). pose proof neginf_nonnan. fk. zb. lia. }
        rewrite Ec in T, SV |- *. destruct (tiles_last _ _ _ _ T) as (h0 & T1 & T2 & T3).
        erewrite upd_last_snoc; [|rewrite T1; reflexivity]. eexists. split; [reflexivity|].
        assert (Sst : fst (ci_segs c) <= st) by (apply Z1; left; reflexivity).
        pose proof (ch_wf _ _ H) as W. rewrite Ec in W. apply Forall_app in W. destruct W as [W1 W2]. inversion W2 as [|? ? Wc _]; subst.
        split; [|split].
        2:{ intros c0 Hc0. apply in_app_iff in Hc0. destruct Hc0 as [Hc0|[<-|[]]].
            - exists c0. split; [apply in_or_app; left; exact Hc0|apply within_refl].
            - eexists. split; [apply in_or_app; right; left; reflexivity|]. split; [cbn; lia|]. split; [cbn; lia|]. cbn. intros r Hr. rewrite T1 in Hr. injection Hr as <-. eexists. split; [reflexivity|]. cbn. lia. }
        2:{ eexists _, _. split; [apply in_or_app; right; left; reflexivity|]. split; [reflexivity|]. cbn. lia. }
        split.
        + eapply CH_upd; [exact H|exact M1| | | |].
          * apply Forall_app. split; [exact W1|]. constructor; [|constructor]. cbn. lia.
          * intros k Hk. rewrite Ec in Hk. apply covered_app in Hk. apply covered_app. destruct Hk as [Hk|Hk]; [auto|right].
            inversion Hk as [? ? Hk'|? ? Hk']; subst; [|inversion Hk']. constructor. unfold in_interval in *. cbn. lia.
          * intros k e0 e1 H0 H1. unfold l1 in H1. rewrite map_range_nth, H0 in H1. unfold option_map in H1. apply some_inj in H1; subst e1.
            destruct (st <=? k) eqn:Q1, (k <? en) eqn:Q2; cbn [andb]; auto. right. nb. split; [|apply set_old_idx_ne].
            apply covered_app. right. constructor. unfold in_interval. cbn. lia.
          * intros BX k e1 Hc Hnc H1. left. rewrite Ec in Hnc. rewrite covered_app in Hnc. apply covered_app in Hc.
            destruct Hc as [Hc|Hc]; [tauto|]. inversion Hc as [? ? Hk|? ? Hk]; subst; [|inversion Hk]. unfold in_interval in Hk. cbn in Hk.
            assert (NC : ~ (fst (ci_segs c) <= k < snd (ci_segs c))) by (intros X; apply Hnc; right; constructor; exact X).
            (* no gap *)
            assert (GAP : st <= A).
            { destruct (Nat.le_gt_cases st A) as [X|X]; [exact X|exfalso]. destruct Z3 as [Z3|(e & Z3 & Z4)]; [lia|].
              destruct (nth_error (sw_line s) (st - 1)) as [f|] eqn:Ef1; [|apply nth_error_None in Ef1; lia].
              assert (PF : fle (up_of y f) (start_x h) = true) by (apply (B3 (st - 1) f); [lia|exact Ef1]).
              destruct (mkl_at _ _ _ _ M Ef1) as (f0 & F0 & (U & _)).
              assert (Es : le_seg f0 = le_seg f) by (unfold unmark in U; congruence). rewrite <- Es in PF.
              assert (fle (lo_of y e) (up_of y f0) = true) by (apply (BX A (st - 1)); [lia|exact Z3|exact F0]).
              assert (fle (lo_of y e) last_end = true); [|congruence].
              eapply fle_trans; [eassumption|]. eapply fle_trans; eassumption. }
            unfold l1 in H1. rewrite map_range_nth in H1. destruct (nth_error (sw_line s) k) as [e0|]; [|discriminate].
            unfold option_map in H1. apply some_inj in H1; subst e1.
            rewrite (proj2 (Nat.leb_le st k)), (proj2 (Nat.ltb_lt k en)) by lia. apply set_old_idx_ne.
        + split; [eapply tiles_snoc; [exact T3|reflexivity|lia]|]. split.
          * apply SSorted_app in SV. destruct SV as (V1 & _ & V3). apply sorted_snoc; [exact V1|]. apply Forall_forall. intros z Hz.
            specialize (V3 z c Hz (or_introl eq_refl)). unfold ci_le in *. cbn. exact V3.
          * split; [exact Nl'|]. right. eexists pre, _. split; [reflexivity|]. cbn [ci_segs fst snd].
            split; [intros h' Hh'; apply Z1; right; exact Hh'|].
            destruct (Z_le_gt_dec (key (end_x h)) (key last_end)) as [K|K].
            -- exists A. split; [lia|]. destruct Z3 as [Z3|(e & Z3 & Z4)]; [auto|right]. exists e. split; [exact Z3|].
               rewrite (fle_same_key _ _ last_end); [exact Z4|assumption|assumption|lia].
            -- exists en. split; [lia|]. destruct BOX as [BB|(e & BB & BC)]; [auto|right]. exists e. split; [exact BB|].
               rewrite (fle_same_key _ _ (end_x h)); [exact BC|assumption|assumption|lia].
      - eexists. split; [reflexivity|]. split; [|split].
        2:{ intros c0 Hc0. exists c0. split; [apply in_or_app; left; exact Hc0|apply within_refl]. }
        2:{ eexists _, _. split; [apply in_or_app; right; left; reflexivity|]. split; [reflexivity|]. cbn. lia. }
        split.
        + eapply CH_upd; [exact H|exact M1| | | |].
          * apply Forall_app. split; [apply H|]. constructor; [|constructor]. cbn. lia.
          * intros k Hk. apply covered_app. auto.
          * intros k e0 e1 H0 H1. unfold l1 in H1. rewrite map_range_nth, H0 in H1. unfold option_map in H1. apply some_inj in H1; subst e1.
            destruct (st <=? k) eqn:Q1, (k <? en) eqn:Q2; cbn [andb]; auto. right. nb. split; [|apply set_old_idx_ne].
            apply covered_app. right. constructor. unfold in_interval. cbn. lia.
          * intros BX k e1 Hc Hnc H1. left. apply covered_app in Hc. destruct Hc as [Hc|Hc]; [tauto|].
            inversion Hc as [? ? Hk|? ? Hk]; subst; [|inversion Hk]. unfold in_interval in Hk. cbn in Hk.
            unfold l1 in H1. rewrite map_range_nth in H1. destruct (nth_error (sw_line s) k) as [e0|]; [|discriminate].
            unfold option_map in H1. apply some_inj in H1; subst e1.
            rewrite (proj2 (Nat.leb_le st k)), (proj2 (Nat.ltb_lt k en)) by lia. apply set_old_idx_ne.
        + split; [eapply tiles_snoc; [exact T|reflexivity|lia]|]. split.
          * apply sorted_snoc; [exact SV|]. apply Forall_forall. intros z Hz. unfold ci_le. cbn.
            destruct Z as [[Ez _]|(pre & c & Ec & Z1 & _)]; [rewrite Ez in Hz; destruct Hz|].
            assert (Zc : fst (ci_segs c) <= st) by (apply Z1; left; reflexivity). rewrite Ec in Hz, SV. apply SSorted_app in SV. destruct SV as (_ & _ & V3).
            apply in_app_iff in Hz. destruct Hz as [Hz|[<-|[]]]; [|exact Zc]. specialize (V3 z c Hz (or_introl eq_refl)). unfold ci_le in V3. lia.
          * split; [exact Nl'|]. right. exists (sw_changed s), (mkCI (st, en) (Some (idx, S idx))). split; [reflexivity|]. cbn [ci_segs fst snd]. split; [exact FUT|].
            exists en. split; [lia|]. destruct BOX as [BB|(e & BB & BC)]; [auto|right]. exists e. split; [exact BB|].
            rewrite (fle_same_key _ _ (end_x h)); [exact BC|assumption|assumption|]. fk. zb. lia. }
    destruct STEP as (ivs' & E1 & (C' & Z') & WI & HR). unfold civ in E1. rewrite E1. cbn [rbind].
    destruct (IH (S idx) (fmax last_end (end_x h)) (with_changed_ivs (with_line s l1) ivs') FH' SS' C' Z') as (line & ivs & R1 & R2 & R3 & R4 & R5 & R6).
    cbn [with_changed_ivs with_line sw_changed] in R5.
    exists line, ivs. split; [exact R1|]. split; [exact R2|]. split; [cbn [length]; replace (idx + S (length hs)) with (S idx + length hs) by lia; exact R3|]. split; [exact R4|]. split.
    + intros c Hc. destruct (WI c Hc) as (c' & X1 & X2). destruct (R5 c' X1) as (c'' & X3 & X4). exists c''. split; [exact X3|]. eapply within_trans; eassumption.
    + intros [|n] h' Hn.
      * cbn in Hn. injection Hn as <-. destruct HR as (c & q & Y1 & Y2 & Y3 & Y4 & Y5). destruct (R5 c Y1) as (c' & X1 & X2 & X3 & X4). destruct (X4 q Y2) as (q' & X5 & X6 & X7).
        exists c', q'. split; [exact X1|]. split; [exact X5|]. split; [lia|]. split; [fold st; lia|]. exists en. split; [lia|exact BOX].
      * destruct (R6 n h' Hn) as (c & q & Y1 & Y2 & Y3 & Y4). exists c, q. split; [exact Y1|]. split; [exact Y2|]. split; [lia|exact Y4].
Qed.
(** ** Everything *)
Record CHANGED (s s' : sweeper) : Prop := {
  cg_y : sw_y s' = sw_y s;
  cg_ne : sw_next_enter s' = sw_next_enter s;
  cg_nx : sw_next_exit s' = sw_next_exit s;
  cg_int : sw_int s' = sw_int s;
  cg_need : sw_need s' = need;
  cg_hperm : Permutation (sw_horiz s) (sw_horiz s');
  cg_hsort : StronglySorted (fun h h' => fle (start_x h) (start_x h') = true) (sw_horiz s');
  cg_line : mkl L (sw_line s');
  cg_wf : Forall (fun c => fst (ci_segs c) <= snd (ci_segs c) <= length L) (sw_changed s');
  cg_apart : StronglySorted ci_apart (sw_changed s');
  cg_cov : forall k, In k need -> covered k (sw_changed s');
  cg_mark : forall k e, In k need -> nth_error (sw_line s') k = Some e -> le_changed e = true /\ le_old_idx e <> None;
  cg_old : forall k e, nth_error (sw_line s') k = Some e -> le_old_idx e <> None \/ le_changed e = true -> covered k (sw_changed s');
  cg_full : boxes -> forall k e, covered k (sw_changed s') -> nth_error (sw_line s') k = Some e -> le_old_idx e <> None;
  cg_hor : forall x, x < length (sw_horiz s') -> exists d q, In d (sw_changed s') /\ ci_hor d = Some q /\ fst q <= x < snd q;
  cg_hbound : forall d q, In d (sw_changed s') -> ci_hor d = Some q -> fst q < snd q <= length (sw_horiz s');
  cg_huniq : forall d d' q q' x, In d (sw_changed s') -> In d' (sw_changed s') -> ci_hor d = Some q -> ci_hor d' = Some q' ->
     fst q <= x < snd q -> fst q' <= x < snd q' -> d = d';
  cg_ends : forall k e, In k need -> nth_error L k = Some e -> own_end e = true -> exists d, In d (sw_changed s') /\ in_interval k d /\ reach (end_pos e) d;
  cg_hreach : forall n h, nth_error (sw_horiz s') n = Some h -> exists d q, In d (sw_changed s') /\ ci_hor d = Some q /\ fst q <= n < snd q /\
     forall x, fle (start_x h) x = true -> fle x (end_x h) = true -> reach x d;
  cg_at : forall k e, In k need -> nth_error L k = Some e -> own_end e = true -> exists d, In d (sw_changed s') /\ reach_at k (end_pos e) d }.

Lemma compute_changed_spec s : sw_y s = y -> sw_line s = L -> sw_need s = need -> sw_changed s = [] ->
  Forall (fun h => h < arena_len a /\ fle (start_x h) (end_x h) = true) (sw_horiz s) ->
  exists s', compute_changed s = Ok s' /\ CHANGED s s'.
Proof.
  intros Hy HLine HNe HC HH. unfold SweepModel.compute_changed. rewrite HC.
  unfold SweepModel.compute_horizontal. destruct (SB nat) as [SBp SBs]. set (hs := sort_by nat (horiz_cmp a) (sw_horiz s)).
  assert (PH : Permutation (sw_horiz s) hs) by apply SBp.
  assert (FH : Forall (fun h => h < arena_len a /\ fle (start_x h) (end_x h) = true) hs) by (eapply Permutation_Forall; eassumption).
  assert (NX : forall h, h < arena_len a -> nan (start_x h) = false) by (intros h Hh; destruct (sp_finite _ SP _ Hh) as [[F _] _]; apply fin_nonnan, F).
  assert (SS : StronglySorted (fun h h' => fle (start_x h) (start_x h') = true) hs).
  { assert (S0 : StronglySorted (fun h h' => horiz_cmp a h h' <> Gt) hs).
    { apply SBs. rewrite Forall_forall in HH. split.
      - intros u v _ _. apply cof_cmp_antisym.
      - intros u v w Hu Hv Hw. pose proof (NX _ (proj1 (HH _ Hu))). pose proof (NX _ (proj1 (HH _ Hv))). pose proof (NX _ (proj1 (HH _ Hw))).
        unfold horiz_cmp. fold (start_x u) (start_x v) (start_x w). rewrite !cof_cmp_key by assumption. rewrite !Z.compare_le_iff. lia. }
    clear -S0 FH NX. induction S0 as [|u l S0 IH F]; [constructor|]. inversion FH as [|? ? [Hu _] FH']; subst. constructor; [auto|].
    rewrite Forall_forall in *. intros v Hv. specialize (F _ Hv). pose proof (NX _ Hu). pose proof (NX _ (proj1 (FH' _ Hv))).
    unfold horiz_cmp in F. fold (start_x u) (start_x v) in F. rewrite cof_cmp_key in F by assumption. apply -> Z.compare_le_iff in F. fk. zb. lia. }
  rewrite Hy.
  destruct (horizontal_loop_spec hs 0 fneginf (with_horiz s hs) FH SS) as (l1 & iv1 & E1 & C1 & T1 & S1 & _ & HR1).
  { cbn [with_horiz sw_line sw_changed]. rewrite HLine, HC. apply CH_init. }
  { cbn [with_horiz sw_changed]. rewrite HC. split; [reflexivity|]. split; [constructor|]. split; [reflexivity|]. left. auto. }
  rewrite E1. cbn [rbind]. cbn [Nat.add] in T1. set (s1 := with_changed_ivs (with_line (with_horiz s hs) l1) iv1).
  destruct (contour_adjacent_spec (sw_need s1) s1) as (l2 & iv2 & E2 & C2 & N2 & AR2).
  { cbn. rewrite HNe. apply incl_refl. } { exact Hy. } { exact C1. }
  rewrite E2. cbn [rbind]. cbn [s1 with_changed_ivs sw_changed] in E2, C2.
  set (s2 := with_changed_ivs (with_line s1 l2) (sw_changed s1 ++ iv2)).
  destruct (changed_loop_spec (sw_need s2) s2) as (l3 & iv3 & E3 & C3 & N3 & _ & A3).
  { cbn. rewrite HNe. apply incl_refl. } { exact Hy. } { exact C2. }
  rewrite E3. cbn [rbind]. cbn [s2 s1 with_changed_ivs with_line with_horiz sw_changed sw_need] in C3, A3. rewrite HNe in A3.
  set (P := (iv1 ++ iv2) ++ iv3) in *.
  destruct (SB cinterval) as [SCp SCs]. set (P' := sort_by cinterval ci_cmp P).
  assert (PP : Permutation P P') by apply SCp.
  assert (SP' : StronglySorted ci_le P').
  { eapply StronglySorted_weaken; [|apply SCs].
    - intros u v. unfold ci_cmp, ci_le. intros H. destruct (Nat.compare_spec (fst (ci_segs u)) (fst (ci_segs v))); [lia|lia|congruence].
    - split; [intros u v _ _; apply Nat.compare_antisym|]. intros u v w _ _ _. unfold ci_cmp. rewrite !Nat.compare_le_iff. lia. }
  assert (WP : Forall ci_wf P') by (eapply Permutation_Forall; [exact PP|]; eapply Forall_impl; [|apply C3]; unfold ci_wf; intros; lia).
  destruct (merge_adjacent_spec P' WP SP') as (M1 & M2 & M3 & M4 & M5).
  assert (COV : forall k, covered k (merge_adjacent P') <-> covered k P).
  { intros k. unfold covered. rewrite M3. rewrite !Exists_exists. split; intros (c & X1 & X2); exists c; (split; [|exact X2]); [symmetry in PP|]; eapply Permutation_in; eassumption. }
  assert (INP : forall c, In c P' <-> In c P) by (intros c; split; apply Permutation_in; [symmetry|]; exact PP).
  assert (HORP : forall c r, In c P -> ci_hor c = Some r -> In c iv1).
  { intros c r Hc Er. unfold P in Hc. rewrite !in_app_iff in Hc. rewrite Forall_forall in N2, N3. destruct Hc as [[Hc|Hc]|Hc]; [exact Hc|apply N2 in Hc; congruence|apply N3 in Hc; congruence]. }
  destruct (tiles_bound _ _ _ T1) as [_ TB].
  assert (UNQ : forall d q x, In d (merge_adjacent P') -> ci_hor d = Some q -> fst q <= x < snd q ->
    forall p r, In p iv1 -> ci_hor p = Some r -> fst r <= x < snd r -> fst (ci_segs d) <= fst (ci_segs p) <= snd (ci_segs d)).
  { intros d q x Hd Eq Hx p r Hp Er Hr. destruct (M5 _ Hd) as [_ FR]. destruct (FR _ Eq) as (b & c & rb & rc & Hb & Hcc & Wb & Wc & Eb & Ec & Fb & Fc).
    apply INP in Hb. apply INP in Hcc. pose proof (HORP _ _ Hb Eb) as Hb1. pose proof (HORP _ _ Hcc Ec) as Hc1.
    assert (LE1 : ci_le b p) by (eapply (tiles_le _ _ _ T1 S1 b p rb r); try eassumption; lia).
    assert (LE2 : ci_le p c) by (eapply (tiles_le _ _ _ T1 S1 p c r rc); try eassumption; lia).
    destruct Wb as (Wb1 & _). destruct Wc as (_ & Wc2 & _).
    assert (ci_wf c) by (rewrite Forall_forall in WP; apply WP, INP, Hcc). unfold ci_le, ci_wf in *. lia. }
  eexists. split; [reflexivity|].
  split; cbn [s2 s1 with_changed_ivs with_line with_horiz sw_y sw_next_enter sw_next_exit sw_int sw_need sw_horiz sw_line sw_changed]; auto.
  - apply C3.
  - apply Forall_forall. intros d Hd. pose proof M1 as M1'. rewrite Forall_forall in M1'. specialize (M1' _ Hd). unfold ci_wf in M1'. split; [exact M1'|].
    destruct (M5 _ Hd) as [(c & X1 & X2 & _) _]. rewrite <- X2. pose proof (ch_wf _ _ C3) as W. rewrite Forall_forall in W. apply W. apply INP, X1.
  - intros k Hk. apply COV. pose proof HNeed as HN'. rewrite Forall_forall in HN'. specialize (HN' _ Hk). rewrite <- (proj1 (ch_mkl _ _ C3)) in HN'.
    destruct (nth_error l3 k) as [e|] eqn:E; [|apply nth_error_None in E; lia]. eapply (ch_chg _ _ C3); [exact E|eapply A3; eassumption].
  - intros k e Hk He. pose proof (A3 _ _ Hk He) as X. split; [exact X|]. eapply (ch_chg _ _ C3); eassumption.
  - intros k e He [H|H]; apply COV; [|eapply (ch_chg _ _ C3); eassumption]. destruct (ch_old _ _ C3 _ _ He H) as [Hk|Hk]; [|exact Hk].
    eapply (ch_chg _ _ C3); [exact He|eapply A3; eassumption].
  - intros B k e Hk He. apply COV in Hk. destruct (ch_full _ _ C3 B _ _ Hk He) as [X|X]; [exact X|]. eapply (ch_chg _ _ C3); [exact He|eapply A3; eassumption].
  - intros x Hx. destruct (tiles_at _ _ _ x T1) as (p & r & Hp & Er & Hr); [lia|].
    destruct (M4 p) as (d & Hd & (_ & _ & W)); [apply INP; unfold P; rewrite !in_app_iff; auto|]. destruct (W _ Er) as (q & Eq & Q1 & Q2).
    exists d, q. split; [exact Hd|]. split; [exact Eq|]. lia.
  - intros d q Hd Eq. destruct (M5 _ Hd) as [_ FR]. destruct (FR _ Eq) as (b & c & rb & rc & Hb & Hcc & Wb & Wc & Eb & Ec & Fb & Fc).
    apply INP in Hb. apply INP in Hcc. pose proof (TB _ _ (HORP _ _ Hb Eb) Eb). pose proof (TB _ _ (HORP _ _ Hcc Ec) Ec).
    destruct Wb as (_ & _ & Wb). destruct (Wb _ Eb) as (q2 & E2q & ? & ?). assert (q2 = q) by congruence. subst q2. lia.
  - intros d d' q q' x Hd Hd' Eq Eq' Hx Hx'.
    destruct (tiles_at _ _ _ x T1) as (p & r & Hp & Er & Hr).
    { destruct (M5 _ Hd) as [_ FR]. destruct (FR _ Eq) as (b & c & rb & rc & Hb & Hcc & Wb & Wc & Eb & Ec & Fb & Fc).
      apply INP in Hcc. pose proof (TB _ _ (HORP _ _ Hcc Ec) Ec). lia. }
    eapply (apart_unique _ d d' (fst (ci_segs p)) M2 M1 Hd Hd'); [eapply (UNQ d q x)|eapply (UNQ d' q' x)]; eassumption.
  - intros k e Hk He OE. destruct (AR2 k e) as (st & en & X1 & X2 & X3 & X4 & X5); [cbn; rewrite HNe; exact Hk|exact He|exact OE|].
    destruct (Nat.eq_dec st en) as [Q|Q].
    + assert (CV : covered k (merge_adjacent P')).
      { apply COV. pose proof HNeed as HN'. rewrite Forall_forall in HN'. specialize (HN' _ Hk). rewrite <- (proj1 (ch_mkl _ _ C3)) in HN'.
        destruct (nth_error l3 k) as [e3|] eqn:E; [|apply nth_error_None in E; lia]. eapply (ch_chg _ _ C3); [exact E|eapply A3; eassumption]. }
      apply Exists_exists in CV. destruct CV as (d & D1 & D2). exists d. split; [exact D1|]. split; [exact D2|]. unfold in_interval in D2. split; [exists (S en)|exists st]; (split; [lia|assumption]).
    + destruct (M4 (mkCI (st, S en) None)) as (d & D1 & D2); [apply INP; unfold P; rewrite !in_app_iff; left; right; apply X5; lia|].
      exists d. split; [exact D1|]. pose proof D2 as (W1 & W2 & _). cbn in W1, W2. split; [unfold in_interval; lia|]. eapply reach_within; [exact D2|].
      split; [exists (S en)|exists st]; (split; [cbn; lia|assumption]).
  - intros n h Hn. destruct (HR1 n h Hn) as (c & q & Y1 & Y2 & Y3 & Y4 & A & Y5 & Y6).
    destruct (M4 c) as (d & Hd & W); [apply INP; unfold P; rewrite !in_app_iff; auto|]. pose proof W as (_ & _ & W3). destruct (W3 _ Y2) as (q' & Eq & Q1 & Q2).
    exists d, q'. split; [exact Hd|]. split; [exact Eq|]. split; [lia|]. intros x Lx1 Lx2. eapply reach_within; [exact W|]. split.
    + exists A. split; [exact Y5|]. destruct Y6 as [Y6|(e & Y6 & Y7)]; [left; exact Y6|right]. exists e. split; [exact Y6|].
      destruct (fle (lo_of y e) x) eqn:Q; [|reflexivity]. rewrite <- Y7. symmetry. eapply fle_trans; eassumption.
    + destruct (SH (fun e => fle (up_of y e) (start_x h)) L) as (B1 & B2 & B3). fold (first_hit h L) in B1, B2, B3. exists (first_hit h L). split; [lia|].
      destruct (first_hit h L) as [|f] eqn:EF; [left; reflexivity|right]. destruct (nth_error L f) as [e|] eqn:Ee; [|apply nth_error_None in Ee; lia].
      exists e. replace (S f - 1) with f by lia. split; [exact Ee|]. right. eapply fle_trans; [|exact Lx1]. apply (B3 f e); [lia|exact Ee].
  - intros k e Hk He OE. destruct (AR2 k e) as (st & en & X1 & X2 & X3 & X4 & X5); [cbn; rewrite HNe; exact Hk|exact He|exact OE|].
    destruct (Nat.eq_dec st en) as [Q|Q].
    + assert (CV : covered k (merge_adjacent P')).
      { apply COV. pose proof HNeed as HN'. rewrite Forall_forall in HN'. specialize (HN' _ Hk). rewrite <- (proj1 (ch_mkl _ _ C3)) in HN'.
        destruct (nth_error l3 k) as [e3|] eqn:E; [|apply nth_error_None in E; lia]. eapply (ch_chg _ _ C3); [exact E|eapply A3; eassumption]. }
      apply Exists_exists in CV. destruct CV as (d & D1 & D2). exists d. split; [exact D1|]. unfold in_interval in D2. split; [exists (S en)|exists st]; (split; [lia|assumption]).
    + destruct (M4 (mkCI (st, S en) None)) as (d & D1 & D2); [apply INP; unfold P; rewrite !in_app_iff; left; right; apply X5; lia|].
      exists d. split; [exact D1|]. pose proof D2 as (W1 & W2 & _). cbn in W1, W2. split; [exists (S en)|exists st]; (split; [lia|assumption]).
Qed.
End Inv.
End S.
