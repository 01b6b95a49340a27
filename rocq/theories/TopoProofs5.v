(** Proofs about the positions of a range as the topology builder sees them. *)
From Coq Require Import List Bool ZArith Arith Lia Permutation Sorted.
From Verif Require Import F64 F64Arith TreeVecModel GeomModel SegmentsModel SegmentsSpec SegmentsProofs CurveOrderModel CurveOrderProofs SweepModel SweepSpec RangeModel RangeSpec RangeProofs4 RangeProofs5 TopoModel TopoSpec TopoProofs TopoProofs2 TopoProofs3 TopoProofs4.
Import ListNotations.

(** What is known about the views of a range. *)
Record views_of (evs : list oevent) (l : list view) : Prop := {
  vo_num : Forall ev_numbers evs;
  vo_nd : NoDup (map ev_seg evs);
  vo_sorted : StronglySorted (fun x z => (key x < key z)%Z) (map vw_x l);
  vo_at : Forall (fun v => nan (vw_x v) = false /\ exists e, In e evs /\ (key (vw_x v) = kl e \/ key (vw_x v) = kh e)) l;
  vo_all : forall e k, In e evs -> k = kl e \/ k = kh e -> exists v, In v l /\ key (vw_x v) = k;
  vo_sees : Forall (sees evs) l;
  vo_first : forall v l', l = v :: l' -> vw_in v = [];
  vo_next : forall i v v', nth_error l i = Some v -> nth_error l (S i) = Some v' -> vw_out v = vw_in v' }.

Section Views.
Variable evs : list oevent.
Variable l : list view.
Hypothesis V : views_of evs l.
Notation k0 e := (key (ev_x0 e)).
Notation k1 e := (key (ev_x1 e)).
Notation kx v := (key (vw_x v)).

Lemma ev_num e : In e evs -> ev_numbers e.
Proof. intros H. pose proof (vo_num _ _ V) as N. rewrite Forall_forall in N. apply N, H. Qed.
Lemma same_event e f : In e evs -> In f evs -> ev_seg e = ev_seg f -> e = f.
Proof.
  pose proof (vo_nd _ _ V) as ND. clear - ND. induction evs as [|g l0 IH]; [intros []|]. cbn in ND. inversion ND as [|? ? N ND']; subst. intros [->|He] [->|Hf] E; auto.
  - exfalso. apply N. rewrite E. apply in_map, Hf.
  - exfalso. apply N. rewrite <- E. apply in_map, He.
Qed.
Lemma nodup_filter_map (p : oevent -> bool) : NoDup (map ev_seg (filter p evs)).
Proof.
  pose proof (vo_nd _ _ V) as ND. clear - ND. induction evs as [|g l0 IH]; [constructor|]. cbn in ND. inversion ND as [|? ? N ND']; subst. cbn. destruct (p g); [|apply IH, ND'].
  cbn. constructor; [|apply IH, ND']. intros X. apply N. apply in_map_iff in X. destruct X as (f & E & Hf). apply filter_In in Hf. rewrite <- E. apply in_map, Hf.
Qed.
Lemma view_num v : In v l -> nan (vw_x v) = false.
Proof. intros H. pose proof (vo_at _ _ V) as A. rewrite Forall_forall in A. apply A, H. Qed.
Lemma view_sees v : In v l -> sees evs v.
Proof. intros H. pose proof (vo_sees _ _ V) as A. rewrite Forall_forall in A. apply A, H. Qed.

Lemma up_in v s : In v l -> (In s (vw_up v) <-> exists e, In e evs /\ ev_above e = true /\ k0 e = kx v /\ ev_seg e = s).
Proof.
  intros Hv. destruct (se_up _ _ (view_sees v Hv)) as (m & P & -> & _). rewrite in_map_iff. pose proof (view_num v Hv) as Nv. split.
  - intros (e & <- & He). rewrite P in He. apply filter_In in He. destruct He as [He Q]. exists e. apply andb_true_iff in Q. destruct Q as [Q1 Q2].
    destruct (ev_num e He) as [N0 _]. fk. zb. auto.
  - intros (e & He & A & K & <-). exists e. split; [reflexivity|]. rewrite P. apply filter_In. split; [exact He|]. rewrite A. destruct (ev_num e He) as [N0 _]. fk. cbn [andb]. apply Z.eqb_eq, K.
Qed.
Lemma down_in v s : In v l -> (In s (vw_down v) <-> exists e, In e evs /\ ev_below e = true /\ k1 e = kx v /\ ev_seg e = s).
Proof.
  intros Hv. destruct (se_down _ _ (view_sees v Hv)) as (m & P & -> & _). rewrite in_map_iff. pose proof (view_num v Hv) as Nv. split.
  - intros (e & <- & He). rewrite P in He. apply filter_In in He. destruct He as [He Q]. exists e. apply andb_true_iff in Q. destruct Q as [Q1 Q2].
    destruct (ev_num e He) as [_ N1]. fk. zb. auto.
  - intros (e & He & A & K & <-). exists e. split; [reflexivity|]. rewrite P. apply filter_In. split; [exact He|]. rewrite A. destruct (ev_num e He) as [_ N1]. fk. cbn [andb]. apply Z.eqb_eq, K.
Qed.
Lemma up_nodup v : In v l -> NoDup (vw_up v).
Proof. intros Hv. destruct (se_up _ _ (view_sees v Hv)) as (m & P & -> & _). rewrite P. apply nodup_filter_map. Qed.
Lemma down_nodup v : In v l -> NoDup (vw_down v).
Proof. intros Hv. destruct (se_down _ _ (view_sees v Hv)) as (m & P & -> & _). rewrite P. apply nodup_filter_map. Qed.
Lemma out_in v q : In v l -> (In q (vw_out v) <-> exists e, In e evs /\ (kl e <= kx v < kh e)%Z /\ q = rightward e).
Proof.
  intros Hv. rewrite (se_out _ _ (view_sees v Hv)), in_map_iff. pose proof (view_num v Hv) as Nv. split.
  - intros (e & <- & He). apply filter_In in He. destruct He as [He Q]. exists e. apply andb_true_iff in Q. destruct Q as [Q1 Q2].
    destruct (lo_kl e (ev_num e He)) as [N0 K0]. destruct (hi_kh e (ev_num e He)) as [N1 K1]. fk. zb. rewrite <- K0, <- K1. auto.
  - intros (e & He & [A B] & ->). exists e. split; [reflexivity|]. apply filter_In. split; [exact He|].
    destruct (lo_kl e (ev_num e He)) as [N0 K0]. destruct (hi_kh e (ev_num e He)) as [N1 K1]. fk. rewrite K0, K1. apply andb_true_iff. split; [apply Z.leb_le, A|apply Z.ltb_lt, B].
Qed.
Lemma out_nodup v : In v l -> NoDup (map fst (vw_out v)).
Proof. intros Hv. rewrite (se_out _ _ (view_sees v Hv)), map_map. cbn [rightward fst]. apply nodup_filter_map. Qed.

Lemma ups_in s : In s (ups l) <-> exists e, In e evs /\ ev_above e = true /\ ev_seg e = s.
Proof.
  unfold ups. rewrite in_concat. split.
  - intros (u & Hu & Hs). apply in_map_iff in Hu. destruct Hu as (v & <- & Hv). apply up_in in Hs; [|exact Hv]. destruct Hs as (e & H1 & H2 & _ & H3). eauto.
  - intros (e & He & A & <-). assert (X : k0 e = kl e \/ k0 e = kh e) by (unfold kl, kh; lia). destruct (vo_all _ _ V e (k0 e) He X) as (v & Hv & K).
    exists (vw_up v). split; [apply in_map, Hv|]. apply up_in; [exact Hv|]. exists e. auto.
Qed.
Lemma downs_in s : In s (downs l) <-> exists e, In e evs /\ ev_below e = true /\ ev_seg e = s.
Proof.
  unfold downs. rewrite in_concat. split.
  - intros (u & Hu & Hs). apply in_map_iff in Hu. destruct Hu as (v & <- & Hv). apply down_in in Hs; [|exact Hv]. destruct Hs as (e & H1 & H2 & _ & H3). eauto.
  - intros (e & He & A & <-). assert (X : k1 e = kl e \/ k1 e = kh e) by (unfold kl, kh; lia). destruct (vo_all _ _ V e (k1 e) He X) as (v & Hv & K).
    exists (vw_down v). split; [apply in_map, Hv|]. apply down_in; [exact Hv|]. exists e. auto.
Qed.
Lemma nodup_concat {A} (f : view -> list A) (m : list view) : (forall v, In v m -> NoDup (f v)) ->
  StronglySorted (fun x z => (key x < key z)%Z) (map vw_x m) -> (forall v v' s, In v m -> In v' m -> In s (f v) -> In s (f v') -> kx v = kx v') -> NoDup (concat (map f m)).
Proof.
  induction m as [|v m IH]; intros N S D; [constructor|]. cbn [map concat]. inversion S as [|? ? S' F]; subst. apply nodup_app. split; [apply N; left; reflexivity|]. split.
  - apply IH; [intros; apply N; right; assumption|exact S'|intros u u' s Hu Hu'; apply D; right; assumption].
  - intros s Hs X. apply in_concat in X. destruct X as (u & Hu & Hs'). apply in_map_iff in Hu. destruct Hu as (v' & <- & Hv').
    rewrite Forall_map, Forall_forall in F. specialize (F v' Hv'). specialize (D v v' s (or_introl eq_refl) (or_intror Hv') Hs Hs'). lia.
Qed.
Lemma ups_nodup : NoDup (ups l).
Proof.
  apply nodup_concat; [apply up_nodup|apply V|]. intros v v' s Hv Hv' H1 H2. apply up_in in H1, H2; [|assumption|assumption].
  destruct H1 as (e & He & _ & K & E). destruct H2 as (f & Hf & _ & K' & E'). assert (e = f) by (apply same_event; [assumption|assumption|congruence]). subst f. congruence.
Qed.
Lemma downs_nodup : NoDup (downs l).
Proof.
  apply nodup_concat; [apply down_nodup|apply V|]. intros v v' s Hv Hv' H1 H2. apply down_in in H1, H2; [|assumption|assumption].
  destruct H1 as (e & He & _ & K & E). destruct H2 as (f & Hf & _ & K' & E'). assert (e = f) by (apply same_event; [assumption|assumption|congruence]). subst f. congruence.
Qed.
Lemma last_out v : In v l -> (forall v', In v' l -> (kx v' <= kx v)%Z) -> vw_out v = [].
Proof.
  intros Hv M. destruct (vw_out v) as [|q m] eqn:E; [reflexivity|]. assert (X : In q (vw_out v)) by (rewrite E; left; reflexivity).
  apply out_in in X; [|exact Hv]. destruct X as (e & He & [_ B] & _). destruct (vo_all _ _ V e (kh e) He (or_intror eq_refl)) as (v' & Hv' & K). specialize (M v' Hv'). lia.
Qed.
Lemma views_chained : chained [] l.
Proof.
  assert (G : forall m m0, l = m0 ++ m -> forall inn, (forall v m', m = v :: m' -> vw_in v = inn) -> (m = [] -> inn = []) -> chained inn m).
  { induction m as [|v m IH]; intros m0 E inn H0 H1; cbn [chained]; [apply H1; reflexivity|]. split; [eapply H0; reflexivity|].
    apply (IH (m0 ++ [v])).
    - rewrite <- app_assoc. exact E.
    - intros v' m' ->. symmetry. apply (vo_next _ _ V (length m0)); rewrite E.
      + rewrite nth_error_app2, Nat.sub_diag by lia. reflexivity.
      + rewrite nth_error_app2 by lia. replace (S (length m0) - length m0) with 1 by lia. reflexivity.
    - intros ->. apply last_out; [rewrite E; apply in_or_app; right; left; reflexivity|]. intros v' Hv'. rewrite E in Hv'. apply in_app_iff in Hv'. destruct Hv' as [Hv'|[<-|[]]]; [|lia].
      pose proof (vo_sorted _ _ V) as S. rewrite E, map_app in S. clear - S Hv'. induction m0 as [|u m0 IH]; [destruct Hv'|]. cbn in S. inversion S as [|? ? S' F]; subst.
      destruct Hv' as [->|Hv']; [|apply IH; assumption]. rewrite Forall_forall in F. apply Z.lt_le_incl, F, in_or_app. right. left. reflexivity. }
  apply (G l []); [reflexivity| |auto]. intros v m' E. eapply vo_first; [exact V|exact E].
Qed.
Lemma out_seg v s : In v l -> In s (map fst (vw_out v)) -> exists e, In e evs /\ ev_seg e = s.
Proof. intros Hv H. apply in_map_iff in H. destruct H as (q & <- & Hq). apply out_in in Hq; [|exact Hv]. destruct Hq as (e & He & _ & ->). exists e. auto. Qed.
End Views.

(** *** One range *)
Section Range.
Context {W T : Type}.
Variable ops : wops W T.
Variable a : arena.
Variable tag : list T.
Variable sort_by : forall A : Type, (A -> A -> comparison) -> list A -> list A.
Implicit Types t : topo W.
Notation TI := (TI a).
Notation none := (fun _ : nat => @None nat).

(** The open segments after a range. *)
Definition reopen (O : nat -> option nat) (evs : list oevent) (l : list view) (rs : list vrec) (s : nat) : option nat :=
  if memn s (map ev_seg evs) then assoc (combine (downs l) (odowns rs)) s else O s.

Lemma odowns_length N O oin l : length (odowns (vrecs N O oin l)) = length (downs l).
Proof. revert N oin. induction l as [|v l IH]; intros N oin; [reflexivity|]. cbn. unfold odowns, downs in *. cbn. rewrite !app_length, seq_length, IH. reflexivity. Qed.

Lemma range_loop y evs l : views_of evs l -> (forall e, In e evs -> usable a tag (ev_seg e)) ->
  forall w west t R O, TI t R none O none -> (forall e, In e evs -> (O (ev_seg e) <> None <-> ev_above e = true)) ->
  let N := length (t_wind t) in let rs := vrecs N O [] l in
  exists t', views_loop ops a tag y l w west None t = Ok (vlast None N l, t') /\
    TI t' (R ++ map vring rs) none (reopen O evs l rs) none /\
    grown t t' (vwinds ops a tag w l) (vwests west N l) (vorig l) (vpos a l) (map (fun v => mkPoint y (vw_x v)) l).
Proof.
  intros V US w west t R O I HO N rs.
  destruct (loop_ok ops a tag y l w west None t R [] O none) as (t' & E & I' & G).
  { eapply TI_ext; [exact I| | |]; intros s; reflexivity. }
  { exists []. split; [apply (views_chained _ _ V)|reflexivity]. }
  { constructor. } { apply (ups_nodup _ _ V). }
  { intros s Hs. apply (ups_in _ _ V) in Hs. destruct Hs as (e & He & A & <-). apply HO; assumption. }
  { apply (downs_nodup _ _ V). }
  { intros s Hs. split; [reflexivity|]. apply (downs_in _ _ V) in Hs. destruct Hs as (e & He & _ & <-). apply US, He. }
  { apply Forall_forall. intros v Hv. split; [apply (out_nodup _ _ V), Hv|]. intros s Hs. destruct (out_seg _ _ V v s Hv Hs) as (e & He & <-). apply US, He. }
  cbn [map] in *. fold N in E, I', G. fold rs in I'. exists t'. split; [exact E|]. split; [|exact G].
  (* old and new queues together *)
  assert (Q : forall s, opens none none (reopen O evs l rs) s = opens none (drop_f O (ups l)) (add_f none (combine (downs l) (odowns rs))) s).
  { intros s. unfold opens, reopen, add_f, drop_f. cbn [ol app]. destruct (memn s (map ev_seg evs)) eqn:M.
    - apply memn_spec, in_map_iff in M. destruct M as (e & <- & He). destruct (memn (ev_seg e) (ups l)) eqn:MU.
      + destruct (assoc _ _); reflexivity.
      + apply memn_false in MU. assert (A : O (ev_seg e) = None).
        { destruct (O (ev_seg e)) eqn:E'; [|reflexivity]. exfalso. apply MU. apply (ups_in _ _ V). exists e. split; [exact He|]. split; [|reflexivity]. apply HO; [exact He|congruence]. }
        rewrite A. destruct (assoc _ _); reflexivity.
    - apply memn_false in M. assert (MU : memn s (ups l) = false).
      { apply memn_false. intros X. apply (ups_in _ _ V) in X. destruct X as (e & He & _ & <-). apply M, in_map, He. }
      assert (MD : assoc (combine (downs l) (odowns rs)) s = None).
      { apply assoc_none. rewrite map_fst_combine by apply odowns_length. intros X. apply (downs_in _ _ V) in X. destruct X as (e & He & _ & <-). apply M, in_map, He. }
      rewrite MU, MD. cbn [ol]. rewrite app_nil_r. reflexivity. }
  assert (Q2 : forall s o, reopen O evs l rs s = Some o <-> drop_f O (ups l) s = Some o \/ add_f none (combine (downs l) (odowns rs)) s = Some o).
  { intros s o. pose proof (in_opens none none (reopen O evs l rs) s o) as A. pose proof (in_opens none (drop_f O (ups l)) (add_f none (combine (downs l) (odowns rs))) s o) as B.
    rewrite Q in A. rewrite A in B. clear - B. destruct B as [B1 B2]. split.
    - intros H. destruct B1 as [X|X]; [right; right; exact H|discriminate|exact X].
    - intros H. destruct B2 as [X|[X|X]]; [right; exact H|discriminate|discriminate|exact X]. }
  destruct I' as [LI RI]. split.
  - destruct LI. constructor; try assumption.
    + intros s Ls. rewrite (li_open s Ls). f_equal. change (opens none (drop_f O (ups l)) (add_f none (combine (downs l) (odowns rs))) s = opens none (reopen O evs l rs) none s).
      rewrite <- Q. unfold opens. cbn [ol app]. rewrite app_nil_r. reflexivity.
    + intros s o [X|[X|X]]; [discriminate| |discriminate]. apply li_own. right. apply Q2, X.
    + intros s. cbn [ol app]. rewrite app_nil_r. destruct (reopen O evs l rs s); cbn; repeat constructor. intros [].
  - eapply rings_live; [|exact RI]. intros h. unfold placed_half.
    assert (X : opened none (drop_f O (ups l)) (add_f none (combine (downs l) (odowns rs))) (h_idx h) <-> opened none (reopen O evs l rs) none (h_idx h)); [|rewrite X; reflexivity].
    unfold opened. split; intros (s & H); exists s.
    + right. left. apply Q2. destruct H as [H|H]; [discriminate|exact H].
    + destruct H as [H|[H|H]]; [discriminate| |discriminate]. right. apply Q2, H.
Qed.
Lemma assoc_some_iff l m s : length m = length l -> (assoc (combine l m) s <> None <-> In s l).
Proof.
  intros L. pose proof (assoc_none (combine l m) s) as H. rewrite map_fst_combine in H by exact L. destruct (assoc (combine l m) s); split; intros X; try congruence.
  - destruct (in_dec Nat.eq_dec s l) as [Y|Y]; [exact Y|]. apply H in Y. discriminate.
  - exfalso. apply (proj1 H); [reflexivity|exact X].
Qed.
Lemma reopen_iff O evs l N s : views_of evs l -> (reopen O evs l (vrecs N O [] l) s <> None <->
  (exists e, In e evs /\ ev_seg e = s /\ ev_below e = true) \/ (~ In s (map ev_seg evs) /\ O s <> None)).
Proof.
  intros V. unfold reopen. destruct (memn s (map ev_seg evs)) eqn:M.
  - apply memn_spec in M. rewrite assoc_some_iff by apply odowns_length. rewrite (downs_in _ _ V). split; [intros (e & H1 & H2 & H3); left; eauto|].
    intros [(e & H1 & H2 & H3)|[X _]]; [eauto|contradiction].
  - apply memn_false in M. split; [auto|]. intros [(e & H1 & <- & _)|[_ X]]; [exfalso; apply M, in_map, H1|exact X].
Qed.
End Range.
