(** Proofs about walking along a range. *)
From Coq Require Import List Bool ZArith Arith Lia Permutation Sorted.
From Verif Require Import F64 F64Arith TreeVecModel GeomModel SegmentsModel SegmentsSpec SegmentsProofs CurveOrderModel CurveOrderProofs
  SweepModel SweepSpec RangeModel RangeSpec RangeProofs RangeProofs2 RangeProofs3.
Import ListNotations.

Definition kl (e : oevent) : Z := Z.min (key (ev_x0 e)) (key (ev_x1 e)).
Definition kh (e : oevent) : Z := Z.max (key (ev_x0 e)) (key (ev_x1 e)).
Lemma lo_kl e : ev_numbers e -> nan (ev_lo e) = false /\ key (ev_lo e) = kl e.
Proof. apply ev_lo_k. Qed.
Lemma hi_kh e : ev_numbers e -> nan (ev_hi e) = false /\ key (ev_hi e) = kh e.
Proof. apply ev_hi_k. Qed.

(** ** Fragments *)
Definition fr (e : oevent) : list hfrag := match hf_from e with Some h => [h] | None => [] end.
Lemma frags_fr l : frags l = flat_map fr l.
Proof. induction l as [|e l IH]; [reflexivity|]. cbn [frags flat_map]. unfold fr at 1. destruct (hf_from e); cbn [app]; rewrite IH; reflexivity. Qed.
Lemma fr_some e h : ev_numbers e -> hf_from e = Some h ->
  (kl e < kh e)%Z /\ nan (hf_start h) = false /\ nan (hf_end h) = false /\ key (hf_start h) = kl e /\ key (hf_end h) = kh e /\
  hf_seg h = ev_seg e /\ hf_sweep h = ev_sweep e /\ hf_old h = ev_old e /\ hf_first h = flt (ev_x0 e) (ev_x1 e) /\
  (if hf_first h then hf_cs h = ev_above e /\ hf_ce h = ev_below e /\ hf_start h = ev_x0 e /\ hf_end h = ev_x1 e
   else hf_cs h = ev_below e /\ hf_ce h = ev_above e /\ hf_start h = ev_x1 e /\ hf_end h = ev_x0 e).
Proof.
  intros [A B] H. unfold hf_from in H. destruct (feq (ev_x0 e) (ev_x1 e)) eqn:Q; [discriminate|]. injection H as <-.
  unfold kl, kh. fk. zb. destruct (Z.ltb_spec (key (ev_x0 e)) (key (ev_x1 e))); cbn; repeat split; try assumption; lia.
Qed.
Lemma fr_none e : ev_numbers e -> hf_from e = None -> kl e = kh e.
Proof. intros [A B] H. unfold hf_from in H. destruct (feq (ev_x0 e) (ev_x1 e)) eqn:Q; [|discriminate]. unfold kl, kh. fk. zb. lia. Qed.
Lemma fr_lt e : ev_numbers e -> (kl e < kh e)%Z -> exists h, hf_from e = Some h.
Proof. intros N L. destruct (hf_from e) eqn:H; [eauto|]. apply fr_none in H; [lia|exact N]. Qed.

Lemma flat_filter_drop p q l : (forall e, In e l -> ev_numbers e) -> (forall e, In e l -> (kl e < kh e)%Z -> p e = q e) ->
  flat_map fr (filter p l) = flat_map fr (filter q l).
Proof.
  induction l as [|e l IH]; intros N H; [reflexivity|]. cbn [filter].
  assert (IH' : flat_map fr (filter p l) = flat_map fr (filter q l)) by (apply IH; [intros; apply N|intros; apply H]; (assumption || (right; assumption))).
  destruct (hf_from e) as [h|] eqn:F.
  - destruct (fr_some e h (N _ (or_introl eq_refl)) F) as (L & _). rewrite (H e (or_introl eq_refl) L). destruct (q e); cbn [flat_map]; rewrite IH'; reflexivity.
  - assert (R : fr e = []) by (unfold fr; rewrite F; reflexivity). destruct (p e), (q e); cbn [flat_map]; rewrite ?R; exact IH'.
Qed.
Lemma flat_split p q r l : (forall e, In e l -> r e = p e || q e) -> (forall e, In e l -> p e && q e = false) ->
  Permutation (flat_map fr (filter p l) ++ flat_map fr (filter q l)) (flat_map fr (filter r l)).
Proof.
  induction l as [|e l IH]; intros H D; [constructor|]. cbn [filter].
  assert (IH' := IH (fun e He => H e (or_intror He)) (fun e He => D e (or_intror He))).
  rewrite (H e (or_introl eq_refl)). specialize (D e (or_introl eq_refl)). destruct (p e), (q e); try discriminate D; cbn [orb flat_map].
  - rewrite <- app_assoc. apply Permutation_app_head, IH'.
  - rewrite Permutation_app_swap_app. apply Permutation_app_head, IH'.
  - exact IH'.
Qed.
Lemma filter_filter {A} (p q : A -> bool) l : filter p (filter q l) = filter (fun x => q x && p x) l.
Proof. induction l as [|x l IH]; [reflexivity|]. cbn. destruct (q x); cbn; [destruct (p x)|]; rewrite IH; reflexivity. Qed.
Lemma filter_frags p q l : (forall e h, In e l -> hf_from e = Some h -> p h = q e) -> filter p (flat_map fr l) = flat_map fr (filter q l).
Proof.
  induction l as [|e l IH]; intros H; [reflexivity|]. cbn [flat_map filter]. rewrite filter_app, IH by (intros; apply H; [right|]; assumption).
  destruct (hf_from e) as [h|] eqn:F.
  - assert (R : fr e = [h]) by (unfold fr; rewrite F; reflexivity). rewrite R. cbn [filter app]. rewrite (H e h (or_introl eq_refl) F). destruct (q e); [cbn [flat_map]; rewrite R|]; reflexivity.
  - assert (R : fr e = []) by (unfold fr; rewrite F; reflexivity). rewrite R. destruct (q e); [cbn [flat_map]; rewrite R|]; reflexivity.
Qed.

(** ** Sorted lists *)
Lemma take_upto_spec x l : nan x = false -> Forall ev_numbers l -> StronglySorted (fun e f => (kl e <= kl f)%Z) l ->
  take_upto x l = (filter (fun e => (kl e <=? key x)%Z) l, filter (fun e => (key x <? kl e)%Z) l).
Proof.
  intros Nx N S. induction S as [|e l S IH F]; [reflexivity|]. inversion N as [|? ? Ne N']; subst. destruct (lo_kl e Ne) as [A B].
  cbn [take_upto filter]. rewrite fgt_key, B by assumption. destruct (Z.ltb_spec (key x) (kl e)) as [L|L].
  - replace (kl e <=? key x)%Z with false by (symmetry; apply Z.leb_gt; lia). rewrite Forall_forall in F. f_equal.
    + symmetry. clear - F L. induction l as [|f l IH]; [reflexivity|]. cbn. replace (kl f <=? key x)%Z with false; [apply IH; intros; apply F; right; assumption|].
      symmetry. apply Z.leb_gt. pose proof (F f (or_introl eq_refl)). lia.
    + f_equal. symmetry. clear - F L. induction l as [|f l IH]; [reflexivity|]. cbn. replace (key x <? kl f)%Z with true; [f_equal; apply IH; intros; apply F; right; assumption|].
      symmetry. apply Z.ltb_lt. pose proof (F f (or_introl eq_refl)). lia.
  - replace (kl e <=? key x)%Z with true by (symmetry; apply Z.leb_le; lia). rewrite (IH N'). reflexivity.
Qed.
Definition frag_n (h : hfrag) : Prop := nan (hf_start h) = false /\ nan (hf_end h) = false.
Lemma drain_spec x l : nan x = false -> Forall frag_n l -> StronglySorted (fun g h => (key (hf_end g) <= key (hf_end h))%Z) l ->
  drain x l = filter (fun h => (key x <? key (hf_end h))%Z) l.
Proof.
  intros Nx N S. unfold drain. induction S as [|e l S IH F]; [reflexivity|]. inversion N as [|? ? Ne N']; subst. destruct Ne as [Na Nb].
  cbn [drop_while filter]. rewrite fgt_key by assumption. destruct (Z.ltb_spec (key x) (key (hf_end e))) as [L|L]; cbn [negb].
  - f_equal. symmetry. rewrite Forall_forall in F. clear - F L. induction l as [|f l IH]; [reflexivity|]. cbn.
    replace (key x <? key (hf_end f))%Z with true; [f_equal; apply IH; intros; apply F; right; assumption|].
    symmetry. apply Z.ltb_lt. pose proof (F f (or_introl eq_refl)). lia.
  - apply IH, N'.
Qed.
Lemma sorted_filter {A} (R : A -> A -> Prop) p l : StronglySorted R l -> StronglySorted R (filter p l).
Proof.
  induction 1 as [|x l S IH F]; cbn; [constructor|]. destruct (p x); [|exact IH]. constructor; [exact IH|].
  rewrite Forall_forall in *. intros z Hz. apply F. apply filter_In in Hz. apply Hz.
Qed.
Lemma sorted_impl {A} (R R' : A -> A -> Prop) l : (forall x z, In x l -> In z l -> R x z -> R' x z) -> StronglySorted R l -> StronglySorted R' l.
Proof.
  intros H. induction 1 as [|x l S IH F]; constructor.
  - apply IH. intros; apply H; try (right; assumption). assumption.
  - rewrite Forall_forall in *. intros z Hz. apply H; [left; reflexivity|right; exact Hz|apply F, Hz].
Qed.

Section Walk.
Variable sort_by : forall A : Type, (A -> A -> comparison) -> list A -> list A.
Hypothesis SORT : forall A, sort_spec (sort_by A).
Variable evs : list oevent.
Hypothesis NUM : Forall ev_numbers evs.
Hypothesis SRT : ev_sorted evs.

Lemma num_in e : In e evs -> ev_numbers e.
Proof. rewrite Forall_forall in NUM. apply NUM. Qed.
Lemma sorted_kl : StronglySorted (fun e f => (kl e <= kl f)%Z) evs.
Proof.
  eapply sorted_impl; [|exact SRT]. intros e f He Hf H. apply num_in in He, Hf. apply ev_cmp_le in H; try assumption.
  destruct (lo_kl e He) as [_ A], (lo_kl f Hf) as [_ B]. lia.
Qed.

(** The state after everything up to [T] has been handled. *)
Definition pend (T : Z) : list oevent := filter (fun e => (T <? kl e)%Z) evs.
Definition span (T : Z) : list oevent := filter (fun e => (kl e <=? T)%Z && (T <? kh e)%Z) evs.
Record at_inv (T : Z) (r : srange) : Prop := {
  ai_ev : rg_events r = pend T;
  ai_act : Permutation (rg_active r) (flat_map fr (span T));
  ai_srt : StronglySorted (fun g h => (key (hf_end g) <= key (hf_end h))%Z) (rg_active r) }.

Lemma span_in T h : In h (flat_map fr (span T)) -> exists e, In e evs /\ hf_from e = Some h /\ (kl e <= T < kh e)%Z.
Proof.
  intros H. apply in_flat_map in H. destruct H as (e & He & Hh). apply filter_In in He. destruct He as [He Q].
  unfold fr in Hh. destruct (hf_from e) eqn:F; [|destruct Hh]. destruct Hh as [->|[]]. exists e. split; [exact He|]. split; [exact F|].
  apply andb_true_iff in Q. zb. lia.
Qed.
Lemma span_has T e : In e evs -> (kl e <= T < kh e)%Z -> exists h, hf_from e = Some h /\ In h (flat_map fr (span T)).
Proof.
  intros He L. destruct (fr_lt e (num_in e He)) as [h F]; [lia|]. exists h. split; [exact F|]. apply in_flat_map. exists e. split.
  - apply filter_In. split; [exact He|]. apply andb_true_iff. zb. lia.
  - unfold fr. rewrite F. left. reflexivity.
Qed.
Lemma act_n T r : at_inv T r -> Forall frag_n (rg_active r).
Proof.
  intros I. apply Forall_forall. intros h Hh. assert (Hi : In h (flat_map fr (span T))) by (rewrite <- (ai_act _ _ I); exact Hh). destruct (span_in _ _ Hi) as (e & He & F & _).
  destruct (fr_some e h (num_in e He) F) as (_ & A & B & _). split; assumption.
Qed.

(** The next position. *)
Definition next_stop (T X : Z) : Prop := (T < X)%Z /\ (exists e, In e evs /\ (X = kl e \/ X = kh e)) /\
  forall e, In e evs -> ((T < kl e)%Z -> (X <= kl e)%Z) /\ ((T < kh e)%Z -> (X <= kh e)%Z).

Lemma head_min T r : at_inv T r ->
  match rg_x r with
  | None => forall e, In e evs -> (kl e <= T)%Z /\ (kh e <= T)%Z
  | Some x => nan x = false /\ next_stop T (key x)
  end.
Proof.
  intros I. pose proof (act_n T r I) as AN. destruct I as [IE IA IS]. unfold rg_x.
  assert (KLH : forall e, (kl e <= kh e)%Z) by (intros e; unfold kl, kh; lia).
  assert (PE : forall e, In e evs -> (T < kl e)%Z -> In e (rg_events r)).
  { intros e He L. rewrite IE. apply filter_In. split; [exact He|]. zb. exact L. }
  assert (PA : forall e, In e evs -> (kl e <= T < kh e)%Z -> exists h, hf_from e = Some h /\ In h (rg_active r)).
  { intros e He L. destruct (span_has T e He L) as (h & F & Hi). exists h. split; [exact F|]. rewrite IA. exact Hi. }
  assert (EV : forall e l, rg_events r = e :: l -> In e evs /\ nan (ev_lo e) = false /\ key (ev_lo e) = kl e /\ (T < kl e)%Z /\
     forall f, In f evs -> (T < kl f)%Z -> (kl e <= kl f)%Z).
  { intros e l Q. assert (Hin : In e (pend T)) by (rewrite <- IE, Q; left; reflexivity). apply filter_In in Hin. destruct Hin as [Hin L].
    destruct (lo_kl e (num_in e Hin)) as [A B]. zb. split; [exact Hin|]. split; [exact A|]. split; [exact B|]. split; [exact L|].
    intros f Hf Lf. specialize (PE f Hf Lf). assert (SS := sorted_filter _ (fun e => (T <? kl e)%Z) _ sorted_kl). fold (pend T) in SS. rewrite <- IE, Q in SS.
    rewrite Q in PE. destruct PE as [->|PE]; [lia|]. inversion SS as [|? ? _ FF]; subst. rewrite Forall_forall in FF. apply FF, PE. }
  assert (AC : forall h l, rg_active r = h :: l -> nan (hf_end h) = false /\ (exists e, In e evs /\ key (hf_end h) = kh e) /\ (T < key (hf_end h))%Z /\
     forall f, In f evs -> (kl f <= T < kh f)%Z -> (key (hf_end h) <= kh f)%Z).
  { intros h l Q. assert (Hi : In h (flat_map fr (span T))) by (rewrite <- IA, Q; left; reflexivity). destruct (span_in _ _ Hi) as (e & He & F & L).
    destruct (fr_some e h (num_in e He) F) as (_ & _ & B & _ & K & _). split; [exact B|]. split; [exists e; auto|]. split; [lia|].
    intros f Hf Lf. destruct (PA f Hf Lf) as (g & Fg & Hg). destruct (fr_some f g (num_in f Hf) Fg) as (_ & _ & _ & _ & Kg & _).
    rewrite Q in Hg, IS. destruct Hg as [->|Hg]; [lia|]. inversion IS as [|? ? _ FF]; subst. rewrite Forall_forall in FF. specialize (FF g Hg). lia. }
  destruct (rg_active r) as [|h ha] eqn:QA; destruct (rg_events r) as [|e el] eqn:QE.
  - intros e He. destruct (Z.lt_ge_cases T (kl e)) as [L|L]; [destruct (PE e He L)|].
    destruct (Z.lt_ge_cases T (kh e)) as [L'|L']; [destruct (PA e He (conj L L')) as (? & _ & [])|]. lia.
  - destruct (EV _ _ eq_refl) as (He & A & B & L & M). split; [exact A|]. rewrite B. split; [exact L|]. split; [exists e; auto|].
    intros f Hf. split; [apply M, Hf|]. intros Lf. destruct (Z.lt_ge_cases T (kl f)) as [L'|L']; [specialize (M f Hf L'); specialize (KLH f); lia|].
    destruct (PA f Hf (conj L' Lf)) as (? & _ & []).
  - destruct (AC _ _ eq_refl) as (A & (e & He & B) & L & M). split; [exact A|]. split; [exact L|]. split; [exists e; auto|].
    intros f Hf. split; intros Lf; [destruct (PE f Hf Lf)|]. destruct (Z.lt_ge_cases T (kl f)) as [L'|L']; [destruct (PE f Hf L')|]. apply M; [exact Hf|lia].
  - destruct (EV _ _ eq_refl) as (He & A & B & L & M). destruct (AC _ _ eq_refl) as (A' & (g & Hg & B') & L' & M').
    destruct (fmin_nonnan _ _ A' A) as [N K]. split; [exact N|]. rewrite K. split; [lia|]. split.
    + destruct (Z.le_gt_cases (key (hf_end h)) (key (ev_lo e))); [exists g|exists e]; (split; [assumption|lia]).
    + intros f Hf. split; intros Lf; [specialize (M f Hf Lf); lia|]. destruct (Z.lt_ge_cases T (kl f)) as [Q|Q]; [specialize (M f Hf Q); specialize (KLH f); lia|].
      specialize (M' f Hf (conj Q Lf)). lia.
Qed.

Lemma hf_preorder l : Forall frag_n l -> preorder_on hf_cmp l.
Proof.
  intros F. rewrite Forall_forall in F. split.
  - intros x z _ _. apply cof_cmp_antisym.
  - intros x z w Ix Iz Iw. destruct (F x Ix), (F z Iz), (F w Iw). unfold hf_cmp. rewrite !cof_cmp_key by assumption. rewrite <- !Z.leb_le || idtac.
    destruct (Z.compare_spec (key (hf_end x)) (key (hf_end z))), (Z.compare_spec (key (hf_end z)) (key (hf_end w))), (Z.compare_spec (key (hf_end x)) (key (hf_end w))); intros P Q; try congruence; lia.
Qed.

(** Handling the next position. *)
Lemma advance T r x last : at_inv T r -> nan x = false -> next_stop T (key x) ->
  let (t, rest) := take_upto x (rg_events r) in
  t = filter (fun e => (kl e =? key x)%Z) evs /\
  at_inv (key x) (mkRG last (sort_by _ hf_cmp (drain x (rg_active r) ++ frags t)) rest).
Proof.
  intros I Nx (L & _ & M). pose proof (act_n T r I) as AN. destruct I as [IE IA IS].
  assert (NP : Forall ev_numbers (rg_events r)).
  { rewrite IE. unfold pend. apply Forall_forall. intros e He. apply filter_In in He. apply num_in, He. }
  assert (SS : StronglySorted (fun e f => (kl e <= kl f)%Z) (rg_events r)) by (rewrite IE; apply sorted_filter, sorted_kl).
  rewrite (take_upto_spec x _ Nx NP SS), IE. unfold pend. rewrite !filter_filter.
  assert (Et : filter (fun e => (T <? kl e)%Z && (kl e <=? key x)%Z) evs = filter (fun e => (kl e =? key x)%Z) evs).
  { apply filter_ext_in. intros e He. destruct (M e He) as [M1 _].
    destruct (Z.ltb_spec T (kl e)), (Z.leb_spec (kl e) (key x)), (Z.eqb_spec (kl e) (key x)); cbn; try reflexivity; lia. }
  split; [exact Et|].
  assert (P : Permutation (sort_by _ hf_cmp (drain x (rg_active r) ++ frags (filter (fun e => (T <? kl e)%Z && (kl e <=? key x)%Z) evs))) (flat_map fr (span (key x)))).
  { etransitivity; [symmetry; apply SORT|]. rewrite (drain_spec x _ Nx AN IS), frags_fr.
    assert (P1 : Permutation (filter (fun h => (key x <? key (hf_end h))%Z) (rg_active r)) (filter (fun h => (key x <? key (hf_end h))%Z) (flat_map fr (span T)))).
    { clear - IA. induction IA; cbn; repeat match goal with |- context [if ?b then _ else _] => destruct b end; try constructor; try assumption; try reflexivity. etransitivity; eassumption. }
    rewrite P1. rewrite (filter_frags _ (fun e => (key x <? kh e)%Z)).
    2: { intros e h He F. apply filter_In in He. destruct (fr_some e h (num_in e (proj1 He)) F) as (_ & _ & _ & _ & -> & _). reflexivity. }
    unfold span. rewrite filter_filter.
    rewrite (flat_filter_drop (fun e => (T <? kl e)%Z && (kl e <=? key x)%Z) (fun e => (kl e =? key x)%Z && (key x <? kh e)%Z)).
    3: { intros e He Lt. destruct (M e He) as [M1 _]. destruct (Z.ltb_spec T (kl e)), (Z.leb_spec (kl e) (key x)), (Z.eqb_spec (kl e) (key x)), (Z.ltb_spec (key x) (kh e)); cbn; try reflexivity; lia. }
    2: { apply num_in. }
    apply flat_split; intros e He; destruct (M e He) as [M1 M2];
      destruct (Z.leb_spec (kl e) T), (Z.ltb_spec T (kh e)), (Z.eqb_spec (kl e) (key x)), (Z.ltb_spec (key x) (kh e)), (Z.leb_spec (kl e) (key x)); cbn; try reflexivity; lia. }
  split; cbn [rg_events rg_active].
  - unfold pend. apply filter_ext_in. intros e He. destruct (Z.ltb_spec T (kl e)), (Z.ltb_spec (key x) (kl e)); cbn; try reflexivity; lia.
  - exact P.
  - assert (FN : Forall frag_n (sort_by _ hf_cmp (drain x (rg_active r) ++ frags (filter (fun e => (T <? kl e)%Z && (kl e <=? key x)%Z) evs)))).
    { eapply Permutation_Forall; [symmetry; exact P|]. apply Forall_forall. intros h Hh. destruct (span_in _ _ Hh) as (e & He & F & _).
      destruct (fr_some e h (num_in e He) F) as (_ & A & B & _). split; assumption. }
    eapply sorted_impl; [|apply SORT, hf_preorder].
    + intros g h Hg Hh Q. rewrite Forall_forall in FN. destruct (FN g Hg), (FN h Hh). unfold hf_cmp in Q. rewrite cof_cmp_key in Q by assumption.
      destruct (Z.compare_spec (key (hf_end g)) (key (hf_end h))); [lia|lia|congruence].
    + eapply Permutation_Forall; [symmetry; apply SORT|exact FN].
Qed.
End Walk.
