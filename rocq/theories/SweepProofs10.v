(** Proofs about the sweep, part 10: whole sweeps. *)
From Coq Require Import List Bool ZArith Arith Lia Permutation Sorted.
From Verif Require Import F64 F64Arith TreeVecModel TreeVecSpec GeomModel SegmentsModel SegmentsSpec
  SegmentsProofs SegmentsProofs3 CurveOrderModel CurveOrderSpec CurveOrderProofs CurveOrderProofs2 CurveOrderProofs3
  SweepModel SweepSpec SweepProofs SweepProofs2 SweepProofs3 SweepProofs4 SweepProofs5 SweepProofs6 SweepProofs7 SweepProofs8.
Import ListNotations.

Lemma origins_mapi l : forall k, origins k l = mapi origin k l.
Proof. induction l; intros k; cbn; [reflexivity|f_equal; auto]. Qed.
Lemma mapi_slice {A R} (f : nat -> A -> R) l x y : mapi f x (firstn y (skipn x l)) = firstn y (skipn x (mapi f 0 l)).
Proof.
  apply nth_ext_error. intros n. destruct (Nat.lt_ge_cases n y) as [H|H].
  - rewrite nth_firstn by exact H. rewrite nth_skipn. destruct (nth_error l (x + n)) as [e|] eqn:E.
    + transitivity (Some (f (x + n) e)); [apply mapi_nth; exists e; split; [rewrite nth_firstn, nth_skipn by exact H; exact E|reflexivity]|].
      symmetry. apply mapi_nth. exists e. split; [exact E|reflexivity].
    + rewrite !(proj2 (nth_error_None _ _)); [reflexivity| |]; [rewrite mapi_length; apply nth_error_None, E|].
      rewrite mapi_length, firstn_length, skipn_length. apply nth_error_None in E. lia.
  - rewrite !(proj2 (nth_error_None _ _)); [reflexivity| |]; [rewrite firstn_length; lia|rewrite mapi_length, firstn_length; lia].
Qed.
Lemma NoDup_firstn {A} n (l : list A) : NoDup l -> NoDup (firstn n l).
Proof. rewrite <- (firstn_skipn n l) at 1. apply NoDup_app_l. Qed.
Lemma NoDup_skipn {A} n (l : list A) : NoDup l -> NoDup (skipn n l).
Proof. rewrite <- (firstn_skipn n l) at 1. apply NoDup_app_r. Qed.

Section S.
Variable a : arena.
Variable eps : f64.
Variables cmp ccmp : nat -> nat -> curve_order.
Variables min_x max_x : segment -> f64.
Variables lower upper : segment -> f64 -> f64 -> f64.
Variable pps : nat -> ((lentry -> bool) -> list lentry -> nat) * ((lentry -> bool) -> list lentry -> nat).
Variable sort_by : forall A : Type, (A -> A -> comparison) -> list A -> list A.
Notation sweep := (sweep a eps cmp ccmp min_x max_x lower upper pps sort_by).
Notation start_y := (start_y a).
Notation end_y := (end_y a).
Notation slanted := (slanted a).
Notation registered := (SweepSpec.registered a).
Notation live := (SweepSpec.live a).

Hypothesis SP : sweepable a.
Hypothesis CO : comparer_ok a cmp.
Hypothesis CC : comparer_ok a ccmp.
Hypothesis PPS : forall t, search_ok (fst (pps t)) /\ search_ok (snd (pps t)) /\ search_mono (snd (pps t)).
Hypothesis SB : forall A, sort_spec (sort_by A).
Variable tr : Prop.
Hypothesis TR_flip : tr -> forall i j, i <> j -> cmp j i = co_flip (cmp i j).
Hypothesis TR_trans : tr -> forall y i j k, nan y = false -> live y i -> live y j -> live y k ->
  eorder (cmp i j) y = Some Left -> eorder (cmp j k) y = Some Left -> eorder (cmp i k) y = Some Left.
Notation POST := (POST a cmp tr).
Notation STEP := (STEP a eps cmp lower upper tr).

Inductive chain : f64 -> sweeper -> list sweeper -> bool -> Prop :=
| cn_stop b s : chain b s [] false
| cn_done b s : next_y a s = None -> chain b s [] true
| cn_step b s s' l done : (key b < key (sw_y s'))%Z -> POST (sw_y s') s' -> STEP s (sw_y s') s' ->
    chain (sw_y s') s' l done -> chain b s (s' :: l) done.

Lemma run_chain fuel n : forall t b s, POST b s ->
  safe tr (sweep fuel n t s) (fun '(l, done) => chain b s l done).
Proof.
  induction n as [|n IH]; intros t b s H; cbn [SweepModel.sweep].
  - apply safe_ok. constructor.
  - destruct (PPS t) as (P1 & P2 & P3).
    destruct (next_line_step a eps cmp ccmp min_x max_x lower upper (fst (pps t)) (snd (pps t)) sort_by SP CO CC P1 P2 P3 SB tr TR_flip TR_trans fuel b s H) as [E|(y & Ey & By & HS)].
    + assert (EN : next_line a eps cmp ccmp min_x max_x lower upper (fst (pps t)) (snd (pps t)) sort_by fuel s = Ok None) by (unfold next_line; rewrite E; reflexivity).
      rewrite EN. cbn [rbind]. apply safe_ok. constructor. exact E.
    + eapply safe_bind; [exact HS|]. intros r _ (s' & -> & Es & HP & HT). eapply safe_bind; [apply IH; exact HP|].
      intros [l done] _ HC. apply safe_ok. subst y. econstructor; eassumption.
Qed.

Lemma chain_in b s l done s' : chain b s l done -> In s' l -> (key b < key (sw_y s'))%Z /\ POST (sw_y s') s' /\ exists p, STEP p (sw_y s') s'.
Proof.
  induction 1 as [| |b s s1 l done B P T C IH]; intros HI; [destruct HI|destruct HI|]. destruct HI as [<-|HI].
  - split; [exact B|]. split; [exact P|]. exists s. exact T.
  - destruct (IH HI) as (X1 & X2 & X3). split; [lia|]. auto.
Qed.
Lemma chain_next b s l done t s1 s2 : chain b s l done -> nth_error (s :: l) t = Some s1 -> nth_error (s :: l) (S t) = Some s2 -> STEP s1 (sw_y s2) s2.
Proof.
  intros H. revert t. induction H as [| |b s s' l done B P T C IH]; intros t H1 H2.
  - destruct t; discriminate.
  - destruct t; discriminate.
  - destruct t as [|t]; cbn in H1, H2; [injection H1 as <-; injection H2 as <-; exact T|]. apply (IH t); assumption.
Qed.
Lemma chain_heights b s l done : chain b s l done -> StronglySorted (fun x y => (key (sw_y x) < key (sw_y y))%Z) l.
Proof.
  induction 1 as [| |b s s' l done B P T C IH]; constructor; [exact IH|]. apply Forall_forall. intros x Hx.
  destruct (chain_in _ _ _ _ _ C Hx) as [X _]. exact X.
Qed.
Lemma sorted_unique l t t' s s' : StronglySorted (fun x y => (key (sw_y x) < key (sw_y y))%Z) l ->
  nth_error l t = Some s -> nth_error l t' = Some s' -> key (sw_y s) = key (sw_y s') -> t = t'.
Proof.
  intros H. revert t t'. induction H as [|x l Hs IH F]; intros t t' H1 H2 K; [destruct t; discriminate|].
  destruct t as [|t], t' as [|t']; cbn in H1, H2; [reflexivity| | |f_equal; eauto]; rewrite Forall_forall in F.
  - injection H1 as <-. apply nth_error_In, F in H2. lia.
  - injection H2 as <-. apply nth_error_In, F in H1. lia.
Qed.

Lemma chain_enter b s l i : chain b s l true -> POST b s -> registered i -> (key b < key (start_y i))%Z ->
  exists t s', nth_error l t = Some s' /\ key (sw_y s') = key (start_y i).
Proof.
  intros H. remember true as d eqn:Ed in H. revert Ed. induction H as [b s|b s E|b s s' l done B P T C IH]; intros Ed HP R K; [discriminate| |].
  - exfalso. destruct (next_y_none _ _ E) as (N1 & _). pose proof R as R0. apply in_map_iff in R. destruct R as ([z j] & <- & HI). pose proof HI as HI'. apply (sp_enter _ SP) in HI'. destruct HI' as [_ ->].
    pose proof (po_enter _ _ _ _ _ HP) as PE. rewrite Forall_forall in PE. cbn [snd] in *.
    rewrite <- (firstn_skipn (sw_next_enter s)) in HI. apply in_app_iff in HI. destruct HI as [HI|HI]; [apply PE in HI; cbn [fst] in HI; lia|].
    rewrite N1 in HI. destruct HI.
  - destruct (Z.lt_trichotomy (key (sw_y s')) (key (start_y i))) as [L|[L|L]].
    + destruct (IH Ed P R L) as (t & s2 & Ht & Hk). exists (S t), s2. auto.
    + exists 0, s'. auto.
    + exfalso. pose proof R as R0. apply in_map_iff in R. destruct R as ([z j] & <- & HI). pose proof HI as HI'. apply (sp_enter _ SP) in HI'. destruct HI' as [_ ->]. cbn [snd] in *.
      rewrite <- (firstn_skipn (sw_next_enter s)) in HI. apply in_app_iff in HI. destruct HI as [HI|HI].
      * pose proof (po_enter _ _ _ _ _ HP) as PE. rewrite Forall_forall in PE. apply PE in HI. cbn [fst] in HI. lia.
      * rewrite <- (firstn_skipn (length (enters_at a s (sw_y s'))) (skipn _ _)) in HI. apply in_app_iff in HI. destruct HI as [HI|HI].
        -- assert (HI2 : In j (map snd (enters_at a s (sw_y s')))).
           { unfold enters_at in *. assert (PR : forall y l, firstn (length (upto_y y l)) l = upto_y y l).
             { intros y l0. induction l0 as [|p l0 IHl]; cbn; [reflexivity|]. destruct (fgt (fst p) y); cbn; [reflexivity|f_equal; exact IHl]. }
             rewrite PR in HI. apply (in_map snd) in HI. exact HI. }
           apply (st_enters _ _ _ _ _ _ _ _ _ T) in HI2. destruct HI2. lia.
        -- rewrite <- skipn_add, <- (st_ne _ _ _ _ _ _ _ _ _ T) in HI. destruct (po_ahead _ _ _ _ _ P) as (_ & AE & _). rewrite Forall_forall in AE. apply AE in HI. cbn [fst] in HI. lia.
Qed.
Lemma chain_exit b s l i : chain b s l true -> POST b s -> registered i -> slanted i = true -> (key b < key (end_y i))%Z ->
  exists t s', nth_error l t = Some s' /\ key (sw_y s') = key (end_y i).
Proof.
  intros H. remember true as d eqn:Ed in H. revert Ed. induction H as [b s|b s E|b s s' l done B P T C IH]; intros Ed HP R S K; [discriminate| |].
  - exfalso. destruct (next_y_none _ _ E) as (_ & N1 & _). assert (HI : In (end_y i, i) (exit_ a)) by (apply (sp_exit _ SP); auto).
    pose proof (po_exit _ _ _ _ _ HP) as PE. rewrite Forall_forall in PE. cbn [snd] in *.
    rewrite <- (firstn_skipn (sw_next_exit s)) in HI. apply in_app_iff in HI. destruct HI as [HI|HI]; [apply PE in HI; cbn [fst] in HI; lia|].
    rewrite N1 in HI. destruct HI.
  - destruct (Z.lt_trichotomy (key (sw_y s')) (key (end_y i))) as [L|[L|L]].
    + destruct (IH Ed P R S L) as (t & s2 & Ht & Hk). exists (Datatypes.S t), s2. auto.
    + exists 0, s'. auto.
    + exfalso. assert (HI : In (end_y i, i) (exit_ a)) by (apply (sp_exit _ SP); split; [exact R|split; [exact S|reflexivity]]).
      rewrite <- (firstn_skipn (sw_next_exit s)) in HI. apply in_app_iff in HI. destruct HI as [HI|HI].
      * pose proof (po_exit _ _ _ _ _ HP) as PE. rewrite Forall_forall in PE. apply PE in HI. cbn [fst] in HI. lia.
      * rewrite <- (firstn_skipn (length (exits_at a s (sw_y s'))) (skipn _ _)) in HI. apply in_app_iff in HI. destruct HI as [HI|HI].
        -- assert (HI2 : In i (map snd (exits_at a s (sw_y s')))).
           { unfold exits_at in *. assert (PR : forall y l, firstn (length (upto_y y l)) l = upto_y y l).
             { intros y l0. induction l0 as [|p l0 IHl]; cbn; [reflexivity|]. destruct (fgt (fst p) y); cbn; [reflexivity|f_equal; exact IHl]. }
             rewrite PR in HI. apply (in_map snd) in HI. exact HI. }
           apply (st_exits _ _ _ _ _ _ _ _ _ T) in HI2. destruct HI2 as (_ & _ & HI2). lia.
        -- rewrite <- skipn_add, <- (st_nx _ _ _ _ _ _ _ _ _ T) in HI. destruct (po_ahead _ _ _ _ _ P) as (_ & _ & AE & _). rewrite Forall_forall in AE. apply AE in HI. cbn [fst] in HI. lia.
Qed.

(** ** What a line reports *)
Lemma post_members b s i : POST b s -> In i (members (sw_line s)) <-> live b i.
Proof.
  intros H. split; [|apply H]. intros HI. apply in_members_nth in HI. destruct HI as (k & e & He & S).
  pose proof (po_ok _ _ _ _ _ H) as PO. rewrite Forall_forall in PO. destruct (PO _ (nth_error_In _ _ He)) as [L M]. unfold has_seg in S.
  destruct (le_old_seg e) as [p|]; [|rewrite orb_false_r in S; nb; subst; exact L].
  apply orb_true_iff in S. destruct S as [S|S]; nb; subst; [exact L|apply M].
Qed.
Lemma post_new b s i : POST b s -> In i (new_segs (sw_line s)) <-> live b i /\ (key b < key (end_y i))%Z.
Proof. intros H. rewrite <- (carried_in _ _ SP _ b s i H), carried_members. reflexivity. Qed.
Lemma post_old b s i : POST b s -> In i (old_segs (sw_line s)) <-> live b i /\ (key (start_y i) < key b)%Z.
Proof.
  intros H. pose proof (po_ok _ _ _ _ _ H) as PO. rewrite Forall_forall in PO. unfold old_segs. rewrite in_flat_map. split.
  - intros (e & HI & Ho). destruct (PO _ HI) as [L M]. unfold old_of in Ho. destruct (le_old_seg e) as [p|].
    + destruct Ho as [<-|[]]. destruct M as (_ & _ & _ & M1 & M2 & _). auto.
    + destruct (le_enter e) eqn:Q; [destruct Ho|]. destruct Ho as [<-|[]]. split; [exact L|]. destruct M as [_ [_ M]]. destruct L as (_ & _ & L).
      destruct (Z.eq_dec (key (start_y (le_seg e))) (key b)) as [X|X]; [specialize (M X); congruence|lia].
  - intros [L K]. apply (po_live _ _ _ _ _ H) in L. apply in_members_nth in L. destruct L as (k & e & He & S). exists e. split; [eapply nth_error_In; exact He|].
    destruct (PO _ (nth_error_In _ _ He)) as [Le M]. unfold has_seg in S. unfold old_of. destruct (le_old_seg e) as [p|].
    + apply orb_true_iff in S. destruct S as [S|S]; nb; subst; [|left; reflexivity]. destruct M as (_ & _ & M & _). lia.
    + rewrite orb_false_r in S. nb. subst i. destruct (le_enter e) eqn:Q; [|left; reflexivity]. destruct M as [_ [M _]]. specialize (M eq_refl). lia.
Qed.
Lemma new_nodup l : NoDup (members l) -> NoDup (new_segs l).
Proof.
  intros H. apply members_nodup in H. unfold new_segs. induction l as [|e l IH]; cbn [filter map]; [constructor|]. inversion H; subst.
  destruct (negb (really_exits e)); [|auto]. cbn [map]. constructor; [|auto]. intros HI. apply H2. apply in_map_iff in HI. destruct HI as (z & <- & Hz). apply filter_In in Hz. apply in_map, Hz.
Qed.
Lemma old_incl l : incl (old_segs l) (members l).
Proof.
  intros x. unfold old_segs, members. rewrite !in_flat_map. intros (e & He & Hx). exists e. split; [exact He|]. unfold old_of in Hx.
  destruct (le_old_seg e); [right; exact Hx|]. destruct (le_enter e); [destruct Hx|]. destruct Hx as [<-|[]]. left. reflexivity.
Qed.
Lemma old_nodup l : NoDup (members l) -> NoDup (old_segs l).
Proof.
  induction l as [|e l IH]; [constructor|]. rewrite members_cons. intros H. destruct (nodup_app_parts _ _ H) as (H1 & H2 & H3).
  change (old_segs (e :: l)) with (old_of e ++ old_segs l). unfold old_of. destruct (le_old_seg e) as [p|].
  - cbn. constructor; [|auto]. intros HI. apply (H3 p); [right; left; reflexivity|]. apply old_incl, HI.
  - destruct (le_enter e); cbn; [auto|]. constructor; [|auto]. intros HI. apply (H3 (le_seg e)); [left; reflexivity|]. apply old_incl, HI.
Qed.

Lemma step_horiz p y s i : STEP p y s -> In i (sw_horiz s) <-> registered i /\ slanted i = false /\ key (start_y i) = key y.
Proof.
  intros T. destruct (st_int _ _ _ _ _ _ _ _ _ T) as (L0 & s1 & HI & HC & _).
  assert (P : Permutation (sw_horiz s) (filter (fun i => negb (slanted i)) (map snd (enters_at a p y)))).
  { rewrite <- (in_hor _ _ _ _ _ _ _ HI). symmetry. apply HC. }
  split.
  - intros H. eapply Permutation_in in H; [|exact P]. apply filter_In in H. destruct H as [H Q]. apply (st_enters _ _ _ _ _ _ _ _ _ T) in H.
    destruct H. split; [assumption|]. split; [destruct (slanted i); [discriminate|reflexivity]|assumption].
  - intros (R & S & K). eapply Permutation_in; [symmetry; exact P|]. apply filter_In. split; [|rewrite S; reflexivity]. apply (st_enters _ _ _ _ _ _ _ _ _ T). auto.
Qed.
Lemma step_horiz_nodup p y s : STEP p y s -> NoDup (sw_horiz s).
Proof.
  intros T. destruct (st_int _ _ _ _ _ _ _ _ _ T) as (L0 & s1 & HI & HC & _).
  assert (P : Permutation (sw_horiz s) (filter (fun i => negb (slanted i)) (map snd (enters_at a p y)))).
  { rewrite <- (in_hor _ _ _ _ _ _ _ HI). symmetry. apply HC. }
  eapply Permutation_NoDup; [symmetry; exact P|]. apply NoDup_filter. apply T.
Qed.
Lemma step_enters p y s i : POST y s -> STEP p y s -> enters_in a s i <-> registered i /\ key (start_y i) = key y.
Proof.
  intros H T. unfold enters_in. destruct (slanted i) eqn:S.
  2:{ rewrite (step_horiz _ _ _ _ T). tauto. }
  pose proof (po_ok _ _ _ _ _ H) as PO. rewrite Forall_forall in PO. split.
  - intros (e & HI & <- & Q). destruct (PO _ HI) as [L M]. split; [apply L|]. destruct (le_old_seg e); [apply M|]. apply M, Q.
  - intros [R K]. assert (L : live y i). { split; [exact R|]. split; [exact S|]. pose proof S as S'. apply (slanted_key _ SP _ R) in S'. lia. }
    apply (po_live _ _ _ _ _ H) in L. apply in_members_nth in L. destruct L as (k & e & He & Sg). exists e. split; [eapply nth_error_In; exact He|].
    destruct (PO _ (nth_error_In _ _ He)) as [Le M]. unfold has_seg in Sg. destruct (le_old_seg e) as [q|].
    + apply orb_true_iff in Sg. destruct Sg as [Sg|Sg]; nb; subst; [split; [reflexivity|apply M]|]. destruct M as (_ & _ & _ & _ & M & _). lia.
    + rewrite orb_false_r in Sg. nb. split; [exact Sg|]. apply M. congruence.
Qed.
Lemma post_exits y s i : POST y s -> exits_in s i <-> registered i /\ slanted i = true /\ key (end_y i) = key y.
Proof.
  intros H. unfold exits_in. pose proof (po_ok _ _ _ _ _ H) as PO. rewrite Forall_forall in PO. split.
  - intros (e & HI & Q). destruct (PO _ HI) as [L M]. destruct Q as [Q|(Q & <- & X)]; rewrite Q in M.
    + destruct M as (_ & _ & _ & (R & S & _) & _ & K & _). auto.
    + destruct L as (R & S & _). split; [exact R|]. split; [exact S|]. apply M, X.
  - intros (R & S & K). assert (L : live y i). { split; [exact R|]. split; [exact S|]. pose proof S as S'. apply (slanted_key _ SP _ R) in S'. lia. }
    apply (po_live _ _ _ _ _ H) in L. apply in_members_nth in L. destruct L as (k & e & He & Sg). exists e. split; [eapply nth_error_In; exact He|].
    destruct (PO _ (nth_error_In _ _ He)) as [Le M]. unfold has_seg in Sg. destruct (le_old_seg e) as [q|].
    + apply orb_true_iff in Sg. destruct Sg as [Sg|Sg]; nb; [|left; congruence]. subst i. destruct M as (_ & _ & M & _). apply (slanted_key _ SP _ R) in S. lia.
    + rewrite orb_false_r in Sg. nb. right. split; [reflexivity|]. split; [exact Sg|]. apply M. congruence.
Qed.

Lemma mkl_origins L l' : mkl L l' -> mapi origin 0 l' = mapi origin 0 L.
Proof.
  intros [Ll M]. apply nth_ext_error. intros n. destruct (nth_error L n) as [e|] eqn:E.
  - destruct (nth_error l' n) as [e'|] eqn:E'; [|apply nth_error_None in E'; assert (n < length L) by (apply nth_error_Some; congruence); lia].
    transitivity (Some (origin n e')); [apply mapi_nth; exists e'; auto|]. symmetry. apply mapi_nth. exists e. split; [exact E|].
    destruct (M _ _ _ E E') as (_ & [X|[X1 X2]] & _); unfold origin; cbn [Nat.add]; [rewrite X; reflexivity|rewrite X1, X2; reflexivity].
  - rewrite !(proj2 (nth_error_None _ _)); [reflexivity| |]; rewrite mapi_length; apply nth_error_None in E; lia.
Qed.
Lemma mke_origin k e e' : mke k e e' -> origin k e' = origin k e.
Proof. intros (_ & [X|[X1 X2]] & _); unfold origin; [rewrite X; reflexivity|rewrite X1, X2; reflexivity]. Qed.

Lemma step_intervals p y s : POST y s -> STEP p y s -> sw_y s = y -> intervals_ok a eps lower upper s.
Proof.
  intros HP T HY. destruct (st_int _ _ _ _ _ _ _ _ _ T) as (L0 & s1 & HI & HC & _ & _).
  pose proof (cg_line _ _ _ _ _ _ _ _ _ HC) as ML. pose proof (proj1 ML) as LL.
  assert (BND : forall c, In c (sw_changed s) -> fst (ci_segs c) <= snd (ci_segs c) <= length (sw_line s)).
  { intros c Hc. rewrite LL. pose proof (cg_wf _ _ _ _ _ _ _ _ _ HC) as X. rewrite Forall_forall in X. apply X, Hc. }
  assert (WF : Forall ci_wf (sw_changed s)) by (apply Forall_forall; intros c Hc; apply BND in Hc; unfold ci_wf; lia).
  assert (AP := cg_apart _ _ _ _ _ _ _ _ _ HC).
  assert (COV : forall k, covered k (sw_changed s) <-> exists c, In c (sw_changed s) /\ in_interval k c) by (intros k; apply Exists_exists).
  (* an entry and its origin are in one interval *)
  assert (SAME : forall k e, nth_error (sw_line s) k = Some e -> origin k e <> k -> exists c, In c (sw_changed s) /\ in_interval k c /\ in_interval (origin k e) c).
  { intros k e' He' D. destruct (mkl_at _ _ _ _ ML He') as (e & He & M). rewrite (mke_origin _ _ _ M) in *.
    assert (OI : le_old_idx e <> None) by (intros X; apply D; unfold origin; rewrite X; reflexivity).
    assert (ALL : forall j, between k (origin k e) j -> covered j (sw_changed s)).
    { intros j Hj. apply (cg_cov _ _ _ _ _ _ _ _ _ HC). eapply (in_path _ _ _ _ _ _ _ HI); eassumption. }
    destruct (Nat.le_gt_cases k (origin k e)) as [O|O].
    - destruct (covered_run (sw_changed s) k (origin k e) AP WF O) as (c & C1 & C2 & C3); [intros j Hj; apply ALL; left; exact Hj|]. eauto.
    - destruct (covered_run (sw_changed s) (origin k e) k AP WF ltac:(lia)) as (c & C1 & C2 & C3); [intros j Hj; apply ALL; right; exact Hj|]. eauto. }
  split; auto.
  - intros k e He Q. apply COV. destruct Q as [Q|[Q|Q]].
    + eapply (po_cov _ _ _ _ _ HP); [exact He|left; rewrite Q; reflexivity].
    + eapply (po_cov _ _ _ _ _ HP); [exact He|left; rewrite Q; apply orb_true_r].
    + apply COV. destruct (SAME _ _ He Q) as (c & C1 & C2 & _). eauto.
  - intros c Hc. pose proof (BND _ Hc) as B. rewrite origins_mapi, mapi_slice, (mkl_origins _ _ ML).
    set (x := fst (ci_segs c)) in *. set (z := snd (ci_segs c)) in *.
    assert (ND : NoDup (mapi origin 0 (sw_line s1))).
    { eapply Permutation_NoDup; [symmetry; apply (in_perm _ _ _ _ _ _ _ HI)|]. apply seq_NoDup. }
    apply NoDup_Permutation_bis.
    + apply NoDup_firstn, NoDup_skipn, ND.
    + rewrite seq_length, firstn_length, skipn_length, mapi_length. lia.
    + intros o Ho. apply In_nth_error in Ho. destruct Ho as [n Hn]. assert (n < z - x).
      { assert (X : n < length (firstn (z - x) (skipn x (mapi origin 0 (sw_line s1))))) by (apply nth_error_Some; congruence). rewrite firstn_length in X. lia. }
      rewrite nth_firstn, nth_skipn in Hn by assumption. rewrite <- (mkl_origins _ _ ML) in Hn. apply mapi_nth in Hn. destruct Hn as (e & He & ->). cbn [Nat.add] in *. apply in_seq.
      destruct (Nat.eq_dec (origin (x + n) e) (x + n)) as [->|D]; [lia|].
      destruct (SAME _ _ He D) as (d & D1 & D2 & D3).
      assert (d = c) as ->. { eapply (apart_unique (sw_changed s) d c (x + n) AP WF D1 Hc); unfold in_interval in *; fold x z; lia. }
      unfold in_interval in D3. fold x z in D3. lia.
  - intros BX c k e Hc Hk He. apply (cg_full _ _ _ _ _ _ _ _ _ HC) with (k := k); [|apply COV; eauto|exact He].
    intros i j e1 f1 Hij H1 H2. rewrite HY in BX.
    destruct (nth_error (sw_line s) i) as [e1'|] eqn:E1; [|apply nth_error_None in E1; assert (i < length (sw_line s1)) by (apply nth_error_Some; congruence); lia].
    destruct (nth_error (sw_line s) j) as [f1'|] eqn:E2; [|apply nth_error_None in E2; assert (j < length (sw_line s1)) by (apply nth_error_Some; congruence); lia].
    specialize (BX i j e1' f1' Hij E1 E2). destruct ML as [_ ML]. destruct (ML _ _ _ H1 E1) as (U1 & _). destruct (ML _ _ _ H2 E2) as (U2 & _).
    assert (S1 : le_seg e1' = le_seg e1) by (apply (f_equal le_seg) in U1; exact U1). assert (S2 : le_seg f1' = le_seg f1) by (apply (f_equal le_seg) in U2; exact U2).
    rewrite S1, S2 in BX. exact BX.
  - apply HC.
  - intros n Hn. destruct (cg_hor _ _ _ _ _ _ _ _ _ HC n Hn) as (d & q & D1 & D2 & D3). exists d, q. split; [exact D1|]. split; [exact D2|]. split; [exact D3|].
    intros c' q' C1 C2 C3. eapply (cg_huniq _ _ _ _ _ _ _ _ _ HC c' d); eassumption.
  - intros c q. apply (cg_hbound _ _ _ _ _ _ _ _ _ HC).
Qed.

(** The line, listed by origin, continues the previous one. *)
Lemma step_continues p y s : STEP p y s -> exists L0, length L0 = length (sw_line s) /\
  (forall k e, nth_error (sw_line s) k = Some e -> nth_error L0 (origin k e) = Some (unmark e)) /\
  old_segs L0 = new_segs (sw_line p).
Proof.
  intros T. destruct (st_int _ _ _ _ _ _ _ _ _ T) as (L0 & s1 & HI & HC & _ & HO).
  pose proof (cg_line _ _ _ _ _ _ _ _ _ HC) as ML. exists (map unmark L0). split; [|split].
  - rewrite map_length, (proj1 ML). symmetry. apply HI.
  - intros k e' He'. destruct (mkl_at _ _ _ _ ML He') as (e & He & M). rewrite (mke_origin _ _ _ M).
    rewrite nth_error_map, (in_orig _ _ _ _ _ _ _ HI _ _ He). cbn. f_equal. destruct M as [M _]. rewrite M. reflexivity.
  - rewrite <- HO. unfold old_segs. rewrite flat_map_concat_map, map_map, <- flat_map_concat_map. reflexivity.
Qed.
(** How far the intervals reach. *)
Lemma reach_mkl L l' y x c : mkl L l' -> reach a eps lower upper y L x c -> reach a eps lower upper y l' x c.
Proof.
  intros M [(A & A1 & A2) (B & B1 & B2)]. pose proof (proj1 M) as LL.
  assert (AT : forall k e, nth_error L k = Some e -> exists e', nth_error l' k = Some e' /\ le_seg e' = le_seg e).
  { intros k e He. destruct (nth_error l' k) as [e'|] eqn:E; [|apply nth_error_None in E; assert (k < length L) by (apply nth_error_Some; congruence); lia].
    exists e'. split; [reflexivity|]. apply (mke_same a _ _ _ (proj2 M _ _ _ He E)). }
  split.
  - exists A. split; [exact A1|]. destruct A2 as [A2|(e & A2 & A3)]; [left; lia|right]. destruct (AT _ _ A2) as (e' & E1 & E2). exists e'. split; [exact E1|]. rewrite E2. exact A3.
  - exists B. split; [lia|]. destruct B2 as [B2|(e & B2 & B3)]; [left; exact B2|right]. destruct (AT _ _ B2) as (e' & E1 & E2). exists e'. split; [exact E1|]. rewrite E2. exact B3.
Qed.
Lemma step_reach p y s : POST y s -> STEP p y s ->
  (forall k e, nth_error (sw_line s) k = Some e -> own_end e = true -> exists d, In d (sw_changed s) /\ in_interval k d /\ reach a eps lower upper y (sw_line s) (end_pos a e) d) /\
  (forall n h, nth_error (sw_horiz s) n = Some h -> exists d q, In d (sw_changed s) /\ ci_hor d = Some q /\ fst q <= n < snd q /\
     forall x, fle (px (seg_start (seg_def a h))) x = true -> fle x (px (seg_end (seg_def a h))) = true -> reach a eps lower upper y (sw_line s) x d).
Proof.
  intros HP T. destruct (st_int _ _ _ _ _ _ _ _ _ T) as (L0 & s1 & HI & HC & _ & _). pose proof (cg_line _ _ _ _ _ _ _ _ _ HC) as ML. split.
  - intros k e He OE. destruct (mkl_at _ _ _ _ ML He) as (e1 & He1 & M). destruct (mke_same a _ _ _ M) as (S1 & S2 & S3).
    assert (In k (sw_need s1)). { rewrite <- (cg_need _ _ _ _ _ _ _ _ _ HC). eapply (po_need _ _ _ _ _ HP); [exact He|]. unfold own_end in OE. destruct (le_old_seg e); [discriminate|exact OE]. }
    destruct (cg_ends _ _ _ _ _ _ _ _ _ HC k e1) as (d & D1 & D2 & D3); [assumption|exact He1|congruence|]. exists d. split; [exact D1|]. split; [exact D2|]. rewrite S3. eapply reach_mkl; eassumption.
  - intros n h Hn. destruct (cg_hreach _ _ _ _ _ _ _ _ _ HC n h Hn) as (d & q & D1 & D2 & D3 & D4). exists d, q. do 3 (split; [assumption|]). intros x X1 X2. eapply reach_mkl; [exact ML|]. apply D4; assumption.
Qed.
Lemma step_at p y s : POST y s -> STEP p y s ->
  forall k e, nth_error (sw_line s) k = Some e -> own_end e = true -> exists d, In d (sw_changed s) /\ reach_at a eps lower upper y (sw_line s) k (end_pos a e) d.
Proof.
  intros HP T. destruct (st_int _ _ _ _ _ _ _ _ _ T) as (L0 & s1 & HI & HC & _ & _). pose proof (cg_line _ _ _ _ _ _ _ _ _ HC) as ML.
  intros k e He OE. destruct (mkl_at _ _ _ _ ML He) as (e1 & He1 & M). destruct (mke_same a _ _ _ M) as (S1 & S2 & S3).
  assert (In k (sw_need s1)). { rewrite <- (cg_need _ _ _ _ _ _ _ _ _ HC). eapply (po_need _ _ _ _ _ HP); [exact He|]. unfold own_end in OE. destruct (le_old_seg e); [discriminate|exact OE]. }
  destruct (cg_at _ _ _ _ _ _ _ _ _ HC k e1) as (d & D1 & (A & A1 & A2) & (B & B1 & B2)); [assumption|exact He1|congruence|]. exists d. split; [exact D1|]. rewrite S3. pose proof (proj1 ML) as LL.
  assert (AT : forall n f, nth_error (sw_line s1) n = Some f -> exists f', nth_error (sw_line s) n = Some f' /\ le_seg f' = le_seg f).
  { intros n f Hf. destruct (nth_error (sw_line s) n) as [f'|] eqn:E; [|apply nth_error_None in E; assert (n < length (sw_line s1)) by (apply nth_error_Some; congruence); lia].
    exists f'. split; [reflexivity|]. apply (mke_same a _ _ _ (proj2 ML _ _ _ Hf E)). }
  split.
  - exists A. split; [exact A1|]. destruct A2 as [A2|(f & A2 & A3)]; [left; lia|right]. destruct (AT _ _ A2) as (f' & E1 & E2). exists f'. split; [exact E1|]. rewrite E2. exact A3.
  - exists B. split; [exact B1|]. destruct B2 as [B2|(f & B2 & B3)]; [left; exact B2|right]. destruct (AT _ _ B2) as (f' & E1 & E2). exists f'. split; [exact E1|]. rewrite E2. exact B3.
Qed.
(** Two intervals that reach the same place are one. *)
Lemma reach_meet y l x x' c d : (forall i j e f, i <= j -> nth_error l i = Some e -> nth_error l j = Some f ->
    fle (fsub (lower (seg_def a (le_seg e)) y eps) eps) (fadd (upper (seg_def a (le_seg f)) y eps) eps) = true) -> nan x = false -> nan x' = false -> key x = key x' ->
  reach a eps lower upper y l x c -> reach a eps lower upper y l x' d -> ~ snd (ci_segs c) < fst (ci_segs d).
Proof.
  intros BX N N' K [(A & A1 & A2) _] [_ (B & B1 & B2)] LT. destruct A2 as [A2|(e & A2 & A3)]; [lia|]. destruct B2 as [B2|(f & B2 & B3)]; [lia|].
  specialize (BX A (B - 1) e f ltac:(lia) A2 B2). destruct (fle_nonnan _ _ BX). destruct B3 as [B3|B3]; fk; zb; lia.
Qed.
End S.
