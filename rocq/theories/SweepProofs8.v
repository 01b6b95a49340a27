(** Proofs about the sweep, part 8: one step, and whole sweeps. *)
From Coq Require Import List Bool ZArith Arith Lia Permutation Sorted.
From Verif Require Import F64 F64Arith TreeVecModel TreeVecSpec GeomModel SegmentsModel SegmentsSpec
  SegmentsProofs SegmentsProofs3 CurveOrderModel CurveOrderSpec CurveOrderProofs CurveOrderProofs2 CurveOrderProofs3
  SweepModel SweepSpec SweepProofs SweepProofs2 SweepProofs3 SweepProofs4 SweepProofs5 SweepProofs6 SweepProofs7.
Import ListNotations.

(** ** Lists of indices *)
Lemma nat_insert_in x l k : In k (nat_insert x l) <-> k = x \/ In k l.
Proof.
  induction l as [|y l IH]; cbn [nat_insert]; [cbn; intuition|]. destruct (x <=? y); cbn [In]; [intuition|]. rewrite IH. tauto.
Qed.
Lemma nat_sort_in l k : In k (nat_sort l) <-> In k l.
Proof. induction l as [|y l IH]; cbn [nat_sort]; [reflexivity|]. rewrite nat_insert_in, IH. cbn. intuition. Qed.
Lemma nat_insert_sorted x l : StronglySorted le l -> StronglySorted le (nat_insert x l).
Proof.
  induction 1 as [|y l Hs IH F]; cbn [nat_insert]; [repeat constructor|]. destruct (x <=? y) eqn:E; nb.
  - constructor; [constructor; assumption|]. constructor; [lia|]. eapply Forall_impl; [|exact F]. cbn; intros; lia.
  - constructor; [exact IH|]. apply Forall_forall. intros k Hk. apply nat_insert_in in Hk. rewrite Forall_forall in F. destruct Hk as [->|Hk]; [lia|auto].
Qed.
Lemma nat_sort_sorted l : StronglySorted le (nat_sort l).
Proof. induction l; cbn [nat_sort]; [constructor|apply nat_insert_sorted; assumption]. Qed.
Lemma dedup_in l k : In k (dedup l) <-> In k l.
Proof.
  induction l as [|x l IH]; [reflexivity|]. destruct l as [|y l]; [reflexivity|]. change (dedup (x :: y :: l)) with (if x =? y then dedup (y :: l) else x :: dedup (y :: l)).
  destruct (x =? y) eqn:E; nb.
  - subst. rewrite IH. cbn. tauto.
  - cbn [In] in *. rewrite IH. tauto.
Qed.
Lemma dedup_sorted l : StronglySorted le l -> StronglySorted lt (dedup l).
Proof.
  induction 1 as [|x l Hs IH F]; [constructor|]. destruct l as [|y l]; [repeat constructor|].
  change (dedup (x :: y :: l)) with (if x =? y then dedup (y :: l) else x :: dedup (y :: l)). destruct (x =? y) eqn:E; [exact IH|]. nb.
  constructor; [exact IH|]. apply Forall_forall. intros k Hk. rewrite dedup_in in Hk. inversion F as [|? ? F1 F2]; subst. inversion Hs as [|? ? S1 S2]; subst.
  destruct Hk as [<-|Hk]; [lia|]. rewrite Forall_forall in S2. specialize (S2 _ Hk). lia.
Qed.
Lemma pick_filter {A} f (g : A -> bool) l : forall k, (forall n e, nth_error l n = Some e -> f (k + n) = g e) -> pick f k l = filter g l.
Proof.
  induction l as [|x l IH]; intros k H; cbn [pick filter]; [reflexivity|].
  pose proof (H 0 x eq_refl) as H0. rewrite Nat.add_0_r in H0. rewrite H0.
  assert (E : pick f (S k) l = filter g l) by (apply IH; intros n e He; specialize (H (S n) e He); replace (k + S n) with (S k + n) in H by lia; exact H).
  rewrite E. reflexivity.
Qed.
Lemma pick_map {A R} f (g : A -> R) l : forall k, pick f k (map g l) = map g (pick f k l).
Proof. induction l as [|x l IH]; intros k; cbn; [reflexivity|]. destruct (f k); cbn; rewrite IH; reflexivity. Qed.

Lemma remove_all_spec js : forall l, StronglySorted gt js -> Forall (fun j => j < length l) js -> remove_all js l = Ok (pick (notb js) 0 l).
Proof.
  induction js as [|j js IH]; intros l SS F; cbn [remove_all].
  - rewrite pick_true by reflexivity. reflexivity.
  - inversion SS; subst. inversion F as [|? ? Hj F']; subst.
    destruct (nth_error l j) as [e|] eqn:E; [|apply nth_error_None in E; lia].
    rewrite (line_remove_spec _ _ _ E). cbn [rbind].
    destruct (nth_error_split _ _ E) as (p1 & p2 & El & Ej).
    assert (El1 : firstn j l ++ skipn (S j) l = p1 ++ p2).
    { rewrite El, <- Ej. rewrite firstn_app, firstn_all, Nat.sub_diag, skipn_app, skipn_all2 by lia.
      replace (S (length p1) - length p1) with 1 by lia. cbn. rewrite app_nil_r. reflexivity. }
    rewrite El1. assert (HB : forall z, In z js -> z < j) by (intros z Hz; rewrite Forall_forall in H2; specialize (H2 _ Hz); lia).
    rewrite IH; [|assumption|rewrite app_length; apply Forall_forall; intros z Hz; apply HB in Hz; lia].
    f_equal. rewrite El, !pick_app. cbn [pick Nat.add]. rewrite Ej.
    assert (X1 : notb (j :: js) j = false) by (unfold notb; rewrite (proj2 (memb_in (j :: js) j)); [reflexivity|left; reflexivity]). rewrite X1. f_equal.
    + apply pick_ext. intros i Hi. unfold notb, memb. cbn [existsb]. rewrite (proj2 (Nat.eqb_neq i j)) by lia. reflexivity.
    + rewrite !pick_true; [reflexivity| |]; intros i Hi; unfold notb; rewrite (proj2 (memb_notin _ i)); try reflexivity;
        [intros [->|HI]; [lia|apply HB in HI; lia]|intros HI; apply HB in HI; lia].
Qed.

Lemma retain_exits_spec l need : Forall (fun k => k < length l) need -> exists r, retain_exits l need = Ok r /\
  forall k, In k r <-> In k need /\ exists e, nth_error l k = Some e /\ really_exits e = true.
Proof.
  induction need as [|j need IH]; intros F; cbn [retain_exits].
  - exists []. split; [reflexivity|]. intros k. cbn. tauto.
  - inversion F as [|? ? Hj F']; subst. destruct (nth_error l j) as [e|] eqn:E; [|apply nth_error_None in E; lia].
    unfold line_get. rewrite E. cbn [orerr rbind]. destruct (IH F') as (r & -> & R). cbn [rbind].
    eexists. split; [reflexivity|]. intros k. destruct (really_exits e) eqn:Q; cbn [In]; rewrite R; split.
    + intros [<-|[A B]]; [split; [auto|eauto]|auto].
    + intros [[<-|A] B]; auto.
    + intros [A B]; auto.
    + intros [[<-|A] (e' & B & C)]; [congruence|eauto].
Qed.

Lemma reset_state_idem e : reset_state (reset_state e) = reset_state e.
Proof. reflexivity. Qed.
Lemma reset_ranges_spec ivs : forall l, Forall (fun c => fst (ci_segs c) <= snd (ci_segs c) <= length l) ivs ->
  exists l', reset_ranges ivs l = Ok l' /\ length l' = length l /\ forall k e, nth_error l k = Some e ->
    exists e', nth_error l' k = Some e' /\ ((covered k ivs /\ e' = reset_state e) \/ (~ covered k ivs /\ e' = e)).
Proof.
  induction ivs as [|c ivs IH]; intros l F; cbn [reset_ranges].
  - exists l. split; [reflexivity|]. split; [reflexivity|]. intros k e H. exists e. split; [exact H|right; split; [intros X; inversion X|reflexivity]].
  - inversion F as [|? ? Fc F']; subst. unfold line_map_range. rewrite (proj2 (Nat.leb_le _ _)), (proj2 (Nat.leb_le _ _)) by lia. cbn [andb rbind].
    set (l1 := map_range (fun _ => reset_state) _ _ l).
    destruct (IH l1) as (l' & E & Ll & H); [unfold l1; rewrite map_range_length; exact F'|].
    exists l'. split; [exact E|]. split; [rewrite Ll; apply map_range_length|]. intros k e He.
    assert (He1 : nth_error l1 k = Some (if (fst (ci_segs c) <=? k) && (k <? snd (ci_segs c)) then reset_state e else e)) by (unfold l1; rewrite map_range_nth, He; reflexivity).
    destruct (H _ _ He1) as (e' & N & C). exists e'. split; [exact N|].
    destruct (fst (ci_segs c) <=? k) eqn:Q1, (k <? snd (ci_segs c)) eqn:Q2; cbn [andb] in C; nb.
    + left. split; [constructor; unfold in_interval; lia|]. destruct C as [[_ ->]|[_ ->]]; reflexivity.
    + destruct C as [[C ->]|[C ->]]; [left; split; [apply Exists_cons_tl; exact C|reflexivity]|right; split; [|reflexivity]].
      intros X. inversion X as [? ? Y|? ? Y]; subst; [unfold in_interval in Y; lia|contradiction].
    + destruct C as [[C ->]|[C ->]]; [left; split; [apply Exists_cons_tl; exact C|reflexivity]|right; split; [|reflexivity]].
      intros X. inversion X as [? ? Y|? ? Y]; subst; [unfold in_interval in Y; lia|contradiction].
    + destruct C as [[C ->]|[C ->]]; [left; split; [apply Exists_cons_tl; exact C|reflexivity]|right; split; [|reflexivity]].
      intros X. inversion X as [? ? Y|? ? Y]; subst; [unfold in_interval in Y; lia|contradiction].
Qed.

Lemma firstn_add {A} n m (l : list A) : firstn (n + m) l = firstn n l ++ firstn m (skipn n l).
Proof. revert l. induction n as [|n IH]; intros l; cbn; [reflexivity|]. destruct l; cbn; [now rewrite firstn_nil|f_equal; apply IH]. Qed.

Section S.
Variable a : arena.
Variable eps : f64.
Variables cmp ccmp : nat -> nat -> curve_order.
Variables min_x max_x : segment -> f64.
Variables lower upper : segment -> f64 -> f64 -> f64.
Variables pp pph : (lentry -> bool) -> list lentry -> nat.
Variable sort_by : forall A : Type, (A -> A -> comparison) -> list A -> list A.

Notation enter_all := (enter_all a eps cmp ccmp min_x max_x pp).
Notation exit_all := (exit_all a eps cmp ccmp min_x max_x).
Notation intersect_all := (intersect_all a eps cmp ccmp min_x max_x).
Notation compute_changed := (compute_changed a eps cmp ccmp lower upper pph sort_by).
Notation next_line := (next_line a eps cmp ccmp min_x max_x lower upper pp pph sort_by).
Notation start_y := (start_y a).
Notation end_y := (end_y a).
Notation slanted := (slanted a).
Notation registered := (SweepSpec.registered a).

Hypothesis SP : sweepable a.
Hypothesis CO : comparer_ok a cmp.
Hypothesis CC : comparer_ok a ccmp.
Hypothesis SO : search_ok pp.
Hypothesis SH : search_ok pph.
Hypothesis SM : search_mono pph.
Hypothesis SB : forall A, sort_spec (sort_by A).
Variable tr : Prop.
Hypothesis TR_flip : tr -> forall i j, i <> j -> cmp j i = co_flip (cmp i j).
Notation live := (SweepSpec.live a).
Hypothesis TR_trans : tr -> forall y i j k, nan y = false -> live y i -> live y j -> live y k ->
  eorder (cmp i j) y = Some Left -> eorder (cmp j k) y = Some Left -> eorder (cmp i k) y = Some Left.

Notation evP := (evP a cmp tr).
Notation safe := (safe tr).
Notation ENT := (ENT a cmp tr).
Notation EXT := (EXT a cmp tr).
Notation INT := (INT a cmp tr).
Notation CHANGED y := (CHANGED a eps lower upper y).

Lemma enter_sorted : sorted_nonnan (enter a).
Proof.
  split; [apply (sp_enter_sorted _ SP)|]. apply Forall_forall. intros [y i] H. apply (sp_enter _ SP) in H. destruct H as [H ->]. apply (seg_nonnan _ SP _ H).
Qed.
Lemma exit_sorted : sorted_nonnan (exit_ a).
Proof.
  split; [apply (sp_exit_sorted _ SP)|]. apply Forall_forall. intros [y i] H. apply (sp_exit _ SP) in H. destruct H as (H & _ & ->). apply (reg_nonnan _ SP _ H).
Qed.

(** ** Between two steps *)
Definition post_ok (b : f64) (e : lentry) : Prop :=
  live b (le_seg e) /\
  match le_old_seg e with
  | Some p => le_enter e = true /\ le_exit e = true /\ key (start_y (le_seg e)) = key b /\
              live b p /\ (key (start_y p) < key b)%Z /\ key (end_y p) = key b /\ sweep_prev a (le_seg e) = Ok (Some p)
  | None => (le_exit e = true <-> key (end_y (le_seg e)) = key b) /\ (le_enter e = true <-> key (start_y (le_seg e)) = key b)
  end.

Record POST (b : f64) (s : sweeper) : Prop := {
  po_ok : Forall (post_ok b) (sw_line s);
  po_nodup : NoDup (members (sw_line s));
  po_live : forall i, live b i -> In i (members (sw_line s));
  po_need : forall k e, nth_error (sw_line s) k = Some e -> le_enter e || le_exit e = true -> In k (sw_need s);
  po_bound : Forall (fun k => k < length (sw_line s)) (sw_need s);
  po_cov : forall k e, nth_error (sw_line s) k = Some e ->
     le_enter e || le_exit e = true \/ le_old_idx e <> None \/ le_changed e = true -> covered k (sw_changed s);
  po_wf : Forall (fun c => fst (ci_segs c) <= snd (ci_segs c) <= length (sw_line s)) (sw_changed s);
  po_q : qok (evP b) (sw_int s);
  po_ahead : ahead a b s;
  po_enter : Forall (fun p => (key (fst p) <= key b)%Z) (firstn (sw_next_enter s) (enter a));
  po_exit : Forall (fun p => (key (fst p) <= key b)%Z) (firstn (sw_next_exit s) (exit_ a)) }.

(** Which heights are still to come. *)
Lemma start_split b s y i : POST b s -> Forall (fun p => (key y <= key (fst p))%Z) (skipn (sw_next_enter s) (enter a)) ->
  registered i -> (key (start_y i) <= key b)%Z \/ (key y <= key (start_y i))%Z.
Proof.
  intros H F R. apply in_map_iff in R. destruct R as ([z j] & <- & HI). pose proof HI as HI'. apply (sp_enter _ SP) in HI'. destruct HI' as [_ ->].
  rewrite <- (firstn_skipn (sw_next_enter s)) in HI. apply in_app_iff in HI. pose proof (po_enter _ _ H) as PE. rewrite Forall_forall in F, PE.
  destruct HI as [HI|HI]; [left; apply PE in HI; exact HI|right; apply F in HI; exact HI].
Qed.
Lemma end_split b s y i : POST b s -> Forall (fun p => (key y <= key (fst p))%Z) (skipn (sw_next_exit s) (exit_ a)) ->
  registered i -> slanted i = true -> (key (end_y i) <= key b)%Z \/ (key y <= key (end_y i))%Z.
Proof.
  intros H F R S. assert (HI : In (end_y i, i) (exit_ a)) by (apply (sp_exit _ SP); auto).
  rewrite <- (firstn_skipn (sw_next_exit s)) in HI. apply in_app_iff in HI. pose proof (po_exit _ _ H) as PE. rewrite Forall_forall in F, PE.
  destruct HI as [HI|HI]; [left; apply PE in HI; exact HI|right; apply F in HI; exact HI].
Qed.

(** Removing what has exited. *)
Definition carried (s : sweeper) : list lentry := map reset_state (filter (fun e => negb (really_exits e)) (sw_line s)).
Lemma advance_spec b s y : POST b s ->
  advance s y = Ok (mkSW y (carried s) (sw_next_enter s) (sw_next_exit s) (sw_int s) [] [] []).
Proof.
  intros H. unfold advance. destruct (retain_exits_spec (sw_line s) (sw_need s) (po_bound _ _ H)) as (r & -> & R). cbn [rbind].
  destruct (reset_ranges_spec (sw_changed s) (sw_line s) (po_wf _ _ H)) as (l' & -> & Ll & HL). cbn [rbind].
  assert (El : l' = map reset_state (sw_line s)).
  { apply nth_ext_error. intros k. rewrite nth_error_map. destruct (nth_error (sw_line s) k) as [e|] eqn:E.
    - destruct (HL _ _ E) as (e' & -> & [[_ ->]|[C ->]]); cbn; [reflexivity|]. f_equal.
      assert (N1 : le_enter e || le_exit e = false) by (destruct (le_enter e || le_exit e) eqn:Q; [exfalso; apply C; eapply (po_cov _ _ H); eauto|reflexivity]).
      assert (N2 : le_old_idx e = None) by (destruct (le_old_idx e) eqn:Q; [exfalso; apply C; eapply (po_cov _ _ H); [exact E|right; left; congruence]|reflexivity]).
      assert (N3 : le_changed e = false) by (destruct (le_changed e) eqn:Q; [exfalso; apply C; eapply (po_cov _ _ H); eauto|reflexivity]).
      assert (N4 : le_old_seg e = None).
      { destruct (le_old_seg e) eqn:Q; [|reflexivity]. pose proof (po_ok _ _ H) as PO. rewrite Forall_forall in PO. specialize (PO e (nth_error_In _ _ E)).
        unfold post_ok in PO. rewrite Q in PO. destruct PO as (_ & X & _). rewrite X in N1. discriminate. }
      apply orb_false_iff in N1. destruct N1. unfold reset_state. destruct e; cbn in *. congruence.
    - cbn. apply nth_error_None. apply nth_error_None in E. lia. }
  set (js := rev (dedup (nat_sort r))).
  assert (SJ : StronglySorted gt js) by (apply rev_gt, dedup_sorted, nat_sort_sorted).
  assert (IJ : forall k, In k js <-> In k (sw_need s) /\ exists e, nth_error (sw_line s) k = Some e /\ really_exits e = true).
  { intros k. unfold js. rewrite <- in_rev, dedup_in, nat_sort_in. apply R. }
  rewrite remove_all_spec; [|exact SJ|].
  2:{ apply Forall_forall. intros k Hk. apply IJ in Hk. rewrite Ll. pose proof (po_bound _ _ H) as PB. rewrite Forall_forall in PB. apply PB, Hk. }
  cbn [rbind]. f_equal. f_equal. rewrite El, pick_map. unfold carried. f_equal. apply pick_filter.
  intros k e E. cbn [Nat.add]. unfold notb. f_equal. destruct (really_exits e) eqn:Q.
  - apply memb_in, IJ. split; [|eauto]. eapply (po_need _ _ H); [exact E|]. unfold really_exits in Q. apply andb_true_iff in Q. destruct Q as [-> _]. apply orb_true_r.
  - apply memb_notin. intros HI. apply IJ in HI. destruct HI as (_ & e' & E' & Q'). congruence.
Qed.

Lemma carried_members s : members (carried s) = map le_seg (filter (fun e => negb (really_exits e)) (sw_line s)).
Proof. unfold carried, members. induction (filter _ (sw_line s)) as [|e l IH]; cbn; [reflexivity|]. f_equal. exact IH. Qed.

Lemma carried_in b s i : POST b s -> In i (members (carried s)) <-> live b i /\ (key b < key (end_y i))%Z.
Proof.
  intros H. rewrite carried_members. pose proof (po_ok _ _ H) as PO. rewrite Forall_forall in PO. split.
  - intros HI. apply in_map_iff in HI. destruct HI as (e & <- & HI). apply filter_In in HI. destruct HI as [HI Q].
    destruct (PO _ HI) as [L M]. split; [exact L|]. unfold really_exits in Q. destruct (le_old_seg e).
    + destruct M as (_ & _ & E & _). destruct L as (R & S & _). apply (slanted_key _ SP _ R) in S. lia.
    + rewrite andb_true_r in Q. destruct M as [M _]. destruct L as (_ & _ & L). destruct (Z.eq_dec (key (end_y (le_seg e))) (key b)) as [X|X]; [|lia].
      apply M in X. rewrite X in Q. discriminate.
  - intros [L E]. apply (po_live _ _ H) in L. apply in_members_nth in L. destruct L as (k & e & He & S).
    pose proof (PO _ (nth_error_In _ _ He)) as [Le M]. apply in_map_iff. exists e. unfold has_seg in S.
    destruct (le_old_seg e) as [p|] eqn:Q.
    + apply orb_true_iff in S. destruct S as [S|S]; nb.
      * split; [exact S|]. apply filter_In. split; [eapply nth_error_In; exact He|]. unfold really_exits. rewrite Q, andb_false_r. reflexivity.
      * subst p. destruct M as (_ & _ & _ & _ & _ & M). lia.
    + rewrite orb_false_r in S. nb. split; [exact S|]. apply filter_In. split; [eapply nth_error_In; exact He|].
      unfold really_exits. rewrite Q, andb_true_r. destruct (le_exit e) eqn:X; [|reflexivity]. exfalso. destruct M as [M _]. rewrite S in M. pose proof (proj1 M eq_refl). lia.
Qed.

Lemma evP_later b y ev : (key b < key y)%Z -> (key y <= key (ie_y ev))%Z -> evP b ev -> evP y ev.
Proof.
  intros By Y (D & (R1 & S1 & L1) & (R2 & S2 & L2) & E1 & E2 & T). split; [exact D|].
  split; [split; [exact R1|]; split; [exact S1|]; lia|]. split; [split; [exact R2|]; split; [exact S2|]; lia|]. split; [lia|]. split; [exact E2|exact T].
Qed.

Lemma NoDup_sub {A} (f : A -> bool) l : NoDup l -> NoDup (filter f l).
Proof. apply NoDup_filter. Qed.

(** ** One step *)
Definition enters_at (s : sweeper) (y : f64) : list (f64 * nat) := upto_y y (skipn (sw_next_enter s) (enter a)).
Definition exits_at (s : sweeper) (y : f64) : list (f64 * nat) := upto_y y (skipn (sw_next_exit s) (exit_ a)).

(** The stations of one call: after [advance], after entering, after leaving, after the crossings. *)
Record PATH (fuel : nat) (s : sweeper) (y : f64) (s' sa s1 s2 s3 : sweeper) : Prop := {
  pa_advance : advance s y = Ok sa;
  pa_line : sw_line sa = carried s;
  pa_q0 : sw_int sa = sw_int s;
  pa_ne : sw_next_enter sa = sw_next_enter s;
  pa_nx : sw_next_exit sa = sw_next_exit s;
  pa_ent0 : ENT y (members (carried s)) [] (with_counts sa (sw_next_enter sa + length (enters_at s y)) (sw_next_exit sa));
  pa_enters : Forall (fun p => feq (fst p) y = true /\ registered (snd p) /\ key (start_y (snd p)) = key y /\
     ~ In (snd p) (members (carried s)) /\ ~ In (snd p) []) (enters_at s y);
  pa_enter : enter_all (with_counts sa (sw_next_enter sa + length (enters_at s y)) (sw_next_exit sa)) (enters_at s y) = Ok s1;
  pa_ent1 : ENT y (members (carried s)) (map snd (enters_at s y)) s1;
  pa_nx1 : sw_next_exit s1 = sw_next_exit s;
  pa_ext0 : EXT y (sw_line s1) (sw_horiz s1) [] (with_counts s1 (sw_next_enter s1) (sw_next_exit s1 + length (exits_at s y)));
  pa_exits : Forall (fun p => feq (fst p) y = true /\ In (snd p) (members (sw_line s1))) (exits_at s y);
  pa_exit : exit_all (with_counts s1 (sw_next_enter s1) (sw_next_exit s1 + length (exits_at s y))) (exits_at s y) = Ok s2;
  pa_ext2 : EXT y (sw_line s1) (sw_horiz s1) (map snd (exits_at s y)) s2;
  pa_int2 : INT y (sw_line s2) (filter (fun i => negb (slanted i)) (map snd (enters_at s y))) s2;
  pa_cross : intersect_all fuel s2 = Ok s3;
  pa_int3 : INT y (sw_line s2) (filter (fun i => negb (slanted i)) (map snd (enters_at s y))) s3;
  pa_segs : map unmark (sw_line s') = map unmark (sw_line s3);
  pa_q3 : sw_int s' = sw_int s3 }.

Record STEP (s : sweeper) (y : f64) (s' : sweeper) : Prop := {
  st_int : exists L0 s1, INT y L0 (filter (fun i => negb (slanted i)) (map snd (enters_at s y))) s1 /\
     CHANGED y (sw_line s1) (sw_need s1) s1 s' /\ Forall (fun ev => feq (ie_y ev) y = false) (sw_int s1) /\
     old_segs L0 = new_segs (sw_line s);
  st_enters : forall i, In i (map snd (enters_at s y)) <-> registered i /\ key (start_y i) = key y;
  st_exits : forall i, In i (map snd (exits_at s y)) <-> registered i /\ slanted i = true /\ key (end_y i) = key y;
  st_enodup : NoDup (map snd (enters_at s y));
  st_ne : sw_next_enter s' = sw_next_enter s + length (enters_at s y);
  st_nx : sw_next_exit s' = sw_next_exit s + length (exits_at s y) }.

Lemma nodup_app_parts {A} (l1 l2 : list A) : NoDup (l1 ++ l2) -> NoDup l1 /\ NoDup l2 /\ forall x, In x l1 -> ~ In x l2.
Proof.
  intros H. split; [eapply NoDup_app_l; exact H|]. split; [eapply NoDup_app_r; exact H|].
  induction l1 as [|y l1 IH]; cbn in *; [intros x []|]. inversion H; subst. intros x [<-|Hx] HI; [apply H2, in_or_app; auto|eapply IH; eauto].
Qed.

Lemma next_line_full fuel b s : POST b s -> next_y a s = None \/
  exists y, next_y a s = Some y /\ (key b < key y)%Z /\
    safe (next_line fuel s) (fun r => exists s', r = Some s' /\ sw_y s' = y /\ (POST y s' /\ STEP s y s') /\ exists sa s1 s2 s3, PATH fuel s y s' sa s1 s2 s3).
Proof.
  intros H. destruct (next_y a s) as [y|] eqn:Ey; [right|left; reflexivity]. exists y. split; [reflexivity|].
  destruct (next_y_spec _ _ _ _ enter_sorted exit_sorted (po_ahead _ _ H) Ey) as (Ny & By & FE & FX & QI).
  split; [exact By|].
  pose proof (upto_y_spec y _ Ny (sorted_skipn (sw_next_enter s) _ enter_sorted)) as (re & Ee & Le & Re).
  pose proof (upto_y_spec y _ Ny (sorted_skipn (sw_next_exit s) _ exit_sorted)) as (rx & Ex & Lx & Rx).
  fold (enters_at s y) in Ee, Le. fold (exits_at s y) in Ex, Lx.
  (* what enters *)
  assert (IE : forall p, In p (enters_at s y) -> In p (enter a) /\ key (fst p) = key y /\ fst p = start_y (snd p) /\ registered (snd p)).
  { intros [z i] Hp. assert (HI : In (z, i) (skipn (sw_next_enter s) (enter a))) by (rewrite Ee; apply in_or_app; auto).
    assert (HI2 : In (z, i) (enter a)) by (rewrite <- (firstn_skipn (sw_next_enter s)); apply in_or_app; auto).
    split; [exact HI2|]. rewrite Forall_forall in Le, FE. specialize (Le _ Hp). specialize (FE _ HI). split; [lia|].
    split; [apply (sp_enter _ SP) in HI2; apply HI2|]. apply (in_map snd) in HI2. exact HI2. }
  assert (ENTERS : forall i, In i (map snd (enters_at s y)) <-> registered i /\ key (start_y i) = key y).
  { intros i. split.
    - intros HI. apply in_map_iff in HI. destruct HI as (p & <- & HI). destruct (IE _ HI) as (_ & K & E & R). split; [exact R|]. congruence.
    - intros [R K]. pose proof R as R0. apply in_map_iff in R. destruct R as ([z j] & <- & HI). pose proof HI as HI0. apply (sp_enter _ SP) in HI0. destruct HI0 as [_ ->].
      rewrite <- (firstn_skipn (sw_next_enter s)) in HI. apply in_app_iff in HI. cbn [snd] in *. destruct HI as [HI|HI].
      + pose proof (po_enter _ _ H) as PE. rewrite Forall_forall in PE. apply PE in HI. cbn [fst] in HI. lia.
      + rewrite Ee in HI. apply in_app_iff in HI. destruct HI as [HI|HI]; [apply (in_map snd) in HI; exact HI|].
        rewrite Forall_forall in Re. apply Re in HI. cbn [fst] in HI. lia. }
  assert (END : NoDup (map snd (enters_at s y))).
  { pose proof (sp_enter_nodup _ SP) as X. rewrite <- (firstn_skipn (sw_next_enter s) (enter a)), Ee, !map_app in X.
    apply NoDup_app_r in X. eapply NoDup_app_l; exact X. }
  assert (IX : forall p, In p (exits_at s y) -> key (fst p) = key y /\ fst p = end_y (snd p) /\ registered (snd p) /\ slanted (snd p) = true).
  { intros [z i] Hp. assert (HI : In (z, i) (skipn (sw_next_exit s) (exit_ a))) by (rewrite Ex; apply in_or_app; auto).
    assert (HI2 : In (z, i) (exit_ a)) by (rewrite <- (firstn_skipn (sw_next_exit s)); apply in_or_app; auto).
    rewrite Forall_forall in Lx, FX. specialize (Lx _ Hp). specialize (FX _ HI). apply (sp_exit _ SP) in HI2. cbn [fst snd]. cbn [fst] in Lx, FX.
    split; [lia|]. tauto. }
  assert (EXITS : forall i, In i (map snd (exits_at s y)) <-> registered i /\ slanted i = true /\ key (end_y i) = key y).
  { intros i. split.
    - intros HI. apply in_map_iff in HI. destruct HI as (p & <- & HI). destruct (IX _ HI) as (K & E & R & S). split; [exact R|]. split; [exact S|]. congruence.
    - intros (R & S & K). assert (HI : In (end_y i, i) (exit_ a)) by (apply (sp_exit _ SP); auto).
      rewrite <- (firstn_skipn (sw_next_exit s)) in HI. apply in_app_iff in HI. destruct HI as [HI|HI].
      + pose proof (po_exit _ _ H) as PE. rewrite Forall_forall in PE. apply PE in HI. cbn [fst] in HI. lia.
      + rewrite Ex in HI. apply in_app_iff in HI. destruct HI as [HI|HI]; [apply (in_map snd) in HI; exact HI|].
        rewrite Forall_forall in Rx. apply Rx in HI. cbn [fst] in HI. lia. }
  unfold SweepModel.next_line. rewrite Ey, (advance_spec _ _ _ H). cbn [rbind sw_next_enter sw_next_exit].
  fold (enters_at s y).
  set (s0 := with_counts _ _ _).
  (* the line before entering *)
  assert (CL : forall e, In e (carried s) -> live y (le_seg e) /\ (key (start_y (le_seg e)) < key y)%Z /\ le_exit e = false /\ le_enter e = false /\ le_changed e = false /\ le_old_idx e = None /\ le_old_seg e = None).
  { intros e He. assert (HI : In (le_seg e) (members (carried s))) by (apply seg_in_members, in_map, He).
    apply (carried_in b) in HI; [|exact H]. destruct HI as [(R & S & L) E].
    assert (KY : (key y <= key (end_y (le_seg e)))%Z) by (destruct (end_split b s y _ H FX R S); lia).
    split; [split; [exact R|]; split; [exact S|]; lia|]. split; [lia|]. unfold carried in He. apply in_map_iff in He. destruct He as (e0 & <- & _). repeat split; reflexivity. }
  assert (EN0 : ENT y (members (carried s)) [] s0).
  { split; cbn [s0 with_counts sw_y sw_line sw_int sw_need sw_horiz sw_changed]; auto.
    - cbn [filter]. rewrite app_nil_r. reflexivity.
    - rewrite carried_members. pose proof (members_nodup _ (po_nodup _ _ H)) as X. revert X. clear. generalize (sw_line s). intros l.
      induction l as [|e l IH]; cbn [filter map]; [auto|]. intros X. inversion X; subst. destruct (negb (really_exits e)); [|auto].
      cbn [map]. constructor; [|auto]. intros HI. apply H1. apply in_map_iff in HI. destruct HI as (z & <- & Hz). apply filter_In in Hz. apply in_map, Hz.
    - unfold old_segs, members. clear. unfold carried. induction (filter (fun e => negb (really_exits e)) (sw_line s)) as [|e l IH]; cbn; [reflexivity|f_equal; exact IH].
    - apply Forall_forall. intros e He. destruct (CL _ He) as (C1 & C2 & C3 & C4 & C5 & C6 & C7). split; [exact C5|]. split; [exact C6|]. split; [exact C1|].
      rewrite C7. split; [exact C3|]. rewrite C4. split; [discriminate|lia].
    - pose proof (po_q _ _ H) as (Q1 & Q2 & Q3). destruct QI as (_ & Q4 & _). split; [exact Q1|]. split; [|exact Q3].
      rewrite Forall_forall in *. intros ev Hev. eapply evP_later; [exact By|apply Q4, Hev|apply Q2, Hev].
    - constructor.
    - intros k e He Q. destruct (CL e (nth_error_In _ _ He)) as (_ & _ & _ & C4 & _). congruence. }
  assert (ENS : Forall (fun p => feq (fst p) y = true /\ registered (snd p) /\ key (start_y (snd p)) = key y /\
     ~ In (snd p) (members (carried s)) /\ ~ In (snd p) []) (enters_at s y)).
  { apply Forall_forall. intros p Hp. destruct (IE _ Hp) as (_ & K & E & R). split; [destruct (reg_nonnan _ SP _ R); rewrite E in *; fk; zb; lia|].
    split; [exact R|]. split; [congruence|]. split; [|intros []]. intros HI. apply (carried_in b) in HI; [|exact H]. destruct HI as [(_ & _ & HI) _]. rewrite E in K. lia. }
  eapply safe_bind.
  { apply (enter_all_safe a eps cmp ccmp min_x max_x pp SP CO SO tr TR_flip y _ _ _ _ EN0 END ENS). }
  intros s1 Es1 H1. cbn [app] in H1. pose proof (enter_all_wk _ _ _ _ _ _ _ _ _ _ Es1) as (_ & NE1 & NX1 & _). cbn [s0 with_counts sw_next_enter sw_next_exit] in NE1, NX1.
  rewrite NX1. fold (exits_at s y). set (s1' := with_counts s1 _ _).
  assert (MEM : forall i, live y i -> In i (members (sw_line s1))).
  { intros i (R & S & L). eapply Permutation_in; [symmetry; apply (en_mem _ _ _ _ _ _ _ H1)|]. apply in_or_app.
    destruct (start_split b s y i H FE R) as [K|K].
    - left. apply (carried_in b); [exact H|]. split; [|lia]. split; [exact R|]. split; [exact S|lia].
    - right. apply filter_In. split; [|exact S]. apply ENTERS. split; [exact R|lia]. }
  assert (EX0 : EXT y (sw_line s1) (sw_horiz s1) [] s1').
  { destruct H1. split; cbn [s1' with_counts sw_y sw_line sw_int sw_need sw_horiz sw_changed]; auto.
    - rewrite <- (map_id (sw_line s1)) at 1. apply map_ext. reflexivity.
    - intros k e He Q. apply (en_need k e He). destruct (le_enter e) eqn:Q1; [reflexivity|]. cbn in Q. exfalso.
      rewrite Forall_forall in en_ok. destruct (en_ok _ (nth_error_In _ _ He)) as (_ & _ & _ & X). destruct (le_old_seg e); [destruct X; congruence|]. destruct X; congruence. }
  assert (EXS : Forall (fun p => feq (fst p) y = true /\ In (snd p) (members (sw_line s1))) (exits_at s y)).
  { apply Forall_forall. intros p Hp. destruct (IX _ Hp) as (K & E & R & S). split; [destruct (reg_nonnan _ SP _ R); rewrite E in *; fk; zb; lia|].
    apply MEM. split; [exact R|]. split; [exact S|]. apply (slanted_key _ SP _ R) in S. rewrite E in K. lia. }
  eapply safe_bind.
  { apply (exit_all_safe a eps cmp ccmp min_x max_x SP CO tr TR_flip y (sw_line s1) (sw_horiz s1)); [apply H1|apply live_of_ent, H1|exact EX0|exact EXS]. }
  intros s2 Es2 H2. cbn [app] in H2. pose proof (exit_all_wk _ _ _ _ _ _ _ _ _ Es2) as (_ & NE2 & NX2 & _). cbn [s1' with_counts sw_next_enter sw_next_exit] in NE2, NX2.
  set (hz := filter (fun i => negb (slanted i)) (map snd (enters_at s y))).
  assert (LN : length (sw_line s2) = length (sw_line s1)) by (rewrite (ex_line _ _ _ _ _ _ _ _ H2); apply map_length).
  assert (IN0 : INT y (sw_line s2) hz s2).
  { pose proof (en_ok _ _ _ _ _ _ _ H1) as OK1. pose proof (ex_line _ _ _ _ _ _ _ _ H2) as EL.
    assert (CLEAN : Forall (fun e => le_old_idx e = None) (sw_line s2)).
    { rewrite EL. apply Forall_map. eapply Forall_impl; [|exact OK1]. intros e (_ & X & _). unfold xm. destruct (memb _ _); exact X. }
    assert (OR : forall k e, nth_error (sw_line s2) k = Some e -> origin k e = k /\ unidx e = e).
    { intros k e He. rewrite Forall_forall in CLEAN. pose proof (CLEAN _ (nth_error_In _ _ He)) as X. unfold origin, unidx. rewrite X. split; [reflexivity|]. destruct e; cbn in *; congruence. }
    split; try apply H2; auto.
    - rewrite EL. apply Forall_map. eapply Forall_impl; [|exact OK1]. intros e (C1 & C2 & C3 & C4).
      unfold int_ok. assert (X1 : le_changed (xm (map snd (exits_at s y)) e) = le_changed e) by (unfold xm; destruct (memb _ _); reflexivity).
      assert (X2 : le_enter (xm (map snd (exits_at s y)) e) = le_enter e) by (unfold xm; destruct (memb _ _); reflexivity).
      rewrite X1, X2, xm_seg, xm_old. split; [exact C1|]. split; [exact C3|]. destruct (le_old_seg e).
      + destruct C4 as (D1 & D2 & D3). split; [exact D1|]. split; [unfold xm; destruct (memb _ _); [reflexivity|exact D2]|exact D3].
      + destruct C4 as [D1 D2]. split; [|exact D2]. unfold xm. destruct (memb (map snd (exits_at s y)) (le_seg e)) eqn:Q.
        * cbn. apply memb_in in Q. apply EXITS in Q. tauto.
        * rewrite D1. split; [discriminate|]. intros K. apply memb_notin in Q. exfalso. apply Q, EXITS. split; [apply C3|]. split; [apply C3|exact K].
    - rewrite EL, xm_members. apply H1.
    - intros k e He. destruct (OR _ _ He) as [-> ->]. exact He.
    - assert (X : mapi origin 0 (sw_line s2) = seq 0 (length (sw_line s2))); [|rewrite X; reflexivity].
      apply nth_ext_error. intros n. destruct (nth_error (sw_line s2) n) as [e|] eqn:En.
      + assert (n < length (sw_line s2)) by (apply nth_error_Some; congruence). rewrite nth_error_seq by assumption. apply mapi_nth. exists e. split; [exact En|]. symmetry. apply (OR _ _ En).
      + apply nth_error_None in En. rewrite (proj2 (nth_error_None _ _)) by (rewrite mapi_length; exact En). symmetry. apply nth_error_None. rewrite seq_length. exact En.
    - intros i Hi. rewrite EL, xm_members. apply MEM, Hi.
    - intros k e j He X. exfalso. rewrite Forall_forall in CLEAN. apply X, CLEAN. eapply nth_error_In; exact He.
    - rewrite LN. apply H2.
    - rewrite (ex_hor _ _ _ _ _ _ _ _ H2). apply H1. }
  eapply safe_bind; [apply (intersect_all_safe a eps cmp ccmp min_x max_x SP CO tr TR_flip TR_trans y _ hz fuel _ IN0)|].
  intros s3 Es3 [H3 Q3]. pose proof (intersect_all_wk _ _ _ _ _ _ _ _ _ Es3) as ((_ & NE3 & NX3 & _) & _).
  assert (GL : goodline a y (sw_line s3)).
  { split; [|apply members_nodup, H3]. eapply Forall_impl; [|apply (in_ok _ _ _ _ _ _ _ H3)]. intros e (_ & X & _). exact X. }
  destruct (compute_changed_spec a eps cmp ccmp lower upper pph sort_by SP CO CC SH SM SB y (sw_line s3) (sw_need s3) Ny GL) with (s := s3) as (s4 & Es4 & H4).
  { rewrite (in_len _ _ _ _ _ _ _ H3). apply H3. }
  { intros k e He. split.
    - pose proof (in_ok _ _ _ _ _ _ _ H3) as X. rewrite Forall_forall in X. apply (X e (nth_error_In _ _ He)).
    - intros X. apply (in_path _ _ _ _ _ _ _ H3 k e k He X). unfold between. lia. }
  { apply H3. } { reflexivity. } { reflexivity. } { apply H3. }
  { rewrite (in_hor _ _ _ _ _ _ _ H3). unfold hz. apply Forall_forall. intros i Hi. apply filter_In in Hi. destruct Hi as [Hi Q].
    apply ENTERS in Hi. destruct Hi as [R _]. pose proof (registered_lt _ SP _ R) as Lt. split; [exact Lt|]. apply (sp_right _ SP _ Lt).
    destruct (slanted i); [discriminate|reflexivity]. }
  assert (FIN : next_line fuel s = Ok (Some s4)).
  { unfold SweepModel.next_line. rewrite Ey, (advance_spec _ _ _ H). cbn [rbind sw_next_enter sw_next_exit].
    fold (enters_at s y). fold s0. rewrite Es1. cbn [rbind]. rewrite NX1. fold (exits_at s y). fold s1'. rewrite Es2. cbn [rbind]. rewrite Es3. cbn [rbind]. rewrite Es4. reflexivity. }
  destruct (next_line_ahead _ _ _ _ _ _ _ _ _ _ _ _ _ _ _ enter_sorted exit_sorted (po_ahead _ _ H) FIN) as [_ AH].
  assert (Y4 : sw_y s4 = y) by (rewrite (cg_y _ _ _ _ _ _ _ _ _ H4); apply H3). rewrite Y4 in AH.
  assert (NE4 : sw_next_enter s4 = sw_next_enter s + length (enters_at s y)) by (rewrite (cg_ne _ _ _ _ _ _ _ _ _ H4); congruence).
  assert (NX4 : sw_next_exit s4 = sw_next_exit s + length (exits_at s y)) by (rewrite (cg_nx _ _ _ _ _ _ _ _ _ H4); congruence).
  rewrite Es4. cbn [rbind]. apply safe_ok. exists s4. split; [reflexivity|]. split; [exact Y4|].
  pose proof (cg_line _ _ _ _ _ _ _ _ _ H4) as ML.
  assert (UM : forall k e', nth_error (sw_line s4) k = Some e' -> exists e, nth_error (sw_line s3) k = Some e /\ unmark e' = unmark e).
  { intros k e' He'. destruct (mkl_at _ _ _ _ ML He') as (e & He & (X & _)). eauto. }
  assert (UMM : map unmark (sw_line s4) = map unmark (sw_line s3)).
    { apply nth_ext_error. intros n. rewrite !nth_error_map. destruct (nth_error (sw_line s4) n) as [e'|] eqn:E'.
      - destruct (UM _ _ E') as (e & -> & X). cbn. congruence.
      - apply nth_error_None in E'. rewrite (proj1 ML) in E'. apply nth_error_None in E'. rewrite E'. reflexivity. }
  assert (MM : members (sw_line s4) = members (sw_line s3)).
  {    assert (Z : forall l, members (map unmark l) = members l) by (intros l; unfold members; rewrite flat_map_concat_map, map_map, <- flat_map_concat_map; reflexivity).
    rewrite <- Z, UMM, Z. reflexivity. }
  assert (STEPH : STEP s y s4).
  { split; auto. exists (sw_line s2), s3. split; [exact H3|]. split; [exact H4|]. split; [exact Q3|].
    rewrite (ex_line _ _ _ _ _ _ _ _ H2). transitivity (old_segs (sw_line s1)); [|rewrite (en_old _ _ _ _ _ _ _ H1), carried_members; reflexivity].
    unfold old_segs. rewrite flat_map_concat_map, map_map, <- flat_map_concat_map. apply flat_map_ext. intros e. unfold old_of. rewrite xm_old, xm_seg.
    unfold xm. destruct (memb _ _); reflexivity. }
  assert (PATHH : exists sa s1 s2 s3, PATH fuel s y s4 sa s1 s2 s3).
  { exists (mkSW y (carried s) (sw_next_enter s) (sw_next_exit s) (sw_int s) [] [] []), s1, s2, s3. split; auto.
    - apply (advance_spec _ _ _ H).
    - rewrite NX1. exact EX0.
    - rewrite NX1. exact Es2.
    - apply (cg_int _ _ _ _ _ _ _ _ _ H4). }
  split; [|exact PATHH]. split; [|exact STEPH].
  split.
  - apply Forall_forall. intros e' He'. apply In_nth_error in He'. destruct He' as [k Hk]. destruct (UM _ _ Hk) as (e & He & U).
    pose proof (in_ok _ _ _ _ _ _ _ H3) as X. rewrite Forall_forall in X. specialize (X e (nth_error_In _ _ He)). destruct X as (_ & X).
    unfold unmark in U. injection U as U1 U2 U3 U4 U5 U6. unfold post_ok. rewrite U1, U2, U3, U6. exact X.
  - rewrite MM. apply H3.
  - intros i Hi. rewrite MM. apply H3, Hi.
  - intros k e' He' Q. destruct (UM _ _ He') as (e & He & U). unfold unmark in U. injection U as U1 U2 U3 U4 U5 U6. rewrite U2, U3 in Q.
    rewrite (cg_need _ _ _ _ _ _ _ _ _ H4). eapply (in_need _ _ _ _ _ _ _ H3); eassumption.
  - rewrite (cg_need _ _ _ _ _ _ _ _ _ H4), (proj1 ML), (in_len _ _ _ _ _ _ _ H3). apply H3.
  - intros k e' He' Q. destruct Q as [Q|Q]; [|eapply (cg_old _ _ _ _ _ _ _ _ _ H4); eassumption].
    destruct (UM _ _ He') as (e & He & U). unfold unmark in U. injection U as U1 U2 U3 U4 U5 U6. rewrite U2, U3 in Q.
    apply (cg_cov _ _ _ _ _ _ _ _ _ H4). eapply (in_need _ _ _ _ _ _ _ H3); eassumption.
  - rewrite (proj1 ML). apply H4.
  - rewrite (cg_int _ _ _ _ _ _ _ _ _ H4). apply H3.
  - exact AH.
  - rewrite NE4, firstn_add. apply Forall_app. split.
    + eapply Forall_impl; [|apply H]. cbn. intros; lia.
    + rewrite Ee, firstn_app, Nat.sub_diag, firstn_all. cbn [firstn]. rewrite app_nil_r. exact Le.
  - rewrite NX4, firstn_add. apply Forall_app. split.
    + eapply Forall_impl; [|apply H]. cbn. intros; lia.
    + rewrite Ex, firstn_app, Nat.sub_diag, firstn_all. cbn [firstn]. rewrite app_nil_r. exact Lx.
Qed.

Lemma next_line_step fuel b s : POST b s -> next_y a s = None \/
  exists y, next_y a s = Some y /\ (key b < key y)%Z /\
    safe (next_line fuel s) (fun r => exists s', r = Some s' /\ sw_y s' = y /\ POST y s' /\ STEP s y s').
Proof.
  intros H. destruct (next_line_full fuel b s H) as [E|(y & E & L & S)]; [left; exact E|right]. exists y. split; [exact E|]. split; [exact L|].
  eapply safe_impl; [exact S|]. intros r _ (s' & A1 & A2 & A3 & _). exists s'. auto.
Qed.

Lemma POST_init : POST fneginf (sweeper_new a).
Proof.
  split; unfold sweeper_new; cbn [sw_line sw_need sw_changed sw_int sw_next_enter sw_next_exit].
  - constructor.
  - constructor.
  - intros i (R & _ & L). exfalso. pose proof (registered_lt _ SP _ R) as Lt. destruct (sp_finite _ SP _ Lt) as [[_ F] _].
    pose proof (neginf_key _ F). unfold SweepSpec.start_y in L. lia.
  - intros [|k] e; discriminate.
  - constructor.
  - intros [|k] e; discriminate.
  - constructor.
  - split; [constructor|]. split; constructor.
  - split; [reflexivity|]. cbn [sw_next_enter sw_next_exit sw_int skipn]. split; [|split].
    + apply Forall_forall. intros [z i] HI. apply (sp_enter _ SP) in HI. destruct HI as [Lt ->]. destruct (sp_finite _ SP _ Lt) as [[_ F] _]. apply neginf_key, F.
    + apply Forall_forall. intros [z i] HI. apply (sp_exit _ SP) in HI. destruct HI as (R & _ & ->). pose proof (registered_lt _ SP _ R) as Lt.
      destruct (sp_finite _ SP _ Lt) as [_ [_ F]]. apply neginf_key, F.
    + split; [constructor|]. split; constructor.
  - constructor.
  - constructor.
Qed.
End S.
