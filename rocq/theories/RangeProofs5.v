(** Proofs about walking along a range: the two ways of doing it. *)
From Coq Require Import List Bool ZArith Arith Lia Permutation Sorted.
From Verif Require Import F64 F64Arith TreeVecModel GeomModel SegmentsModel SegmentsSpec SegmentsProofs CurveOrderModel CurveOrderProofs
  SweepModel SweepSpec RangeModel RangeSpec RangeProofs RangeProofs2 RangeProofs3 RangeProofs4.
Import ListNotations.

Section Walk.
Variable sort_by : forall A : Type, (A -> A -> comparison) -> list A -> list A.
Hypothesis SORT : forall A, sort_spec (sort_by A).
Variable evs : list oevent.
Hypothesis NUM : Forall ev_numbers evs.
Hypothesis SRT : ev_sorted evs.
Notation num_in := (num_in evs NUM).
Notation at_inv := (at_inv evs).
Notation next_stop := (next_stop evs).

(** Number of stops (with multiplicity) beyond [T]. *)
Definition ahead (T : Z) : nat := length (filter (fun e => (T <? kl e)%Z) evs) + length (filter (fun e => (T <? kh e)%Z) evs).
Lemma filter_len_le {A} (p q : A -> bool) l : (forall x, In x l -> p x = true -> q x = true) -> length (filter p l) <= length (filter q l).
Proof.
  induction l as [|x l IH]; intros H; [reflexivity|]. cbn. specialize (IH (fun z Hz => H z (or_intror Hz))). pose proof (H x (or_introl eq_refl)).
  destruct (p x), (q x); cbn; try lia; discriminate (H0 eq_refl).
Qed.
Lemma filter_len_lt {A} (p q : A -> bool) l x : (forall x, In x l -> p x = true -> q x = true) -> In x l -> p x = false -> q x = true -> length (filter p l) < length (filter q l).
Proof.
  induction l as [|z l IH]; intros H Hx P Q; [destruct Hx|]. cbn. assert (H' := fun w Hw => H w (or_intror Hw)).
  destruct Hx as [->|Hx].
  - rewrite P, Q. cbn. pose proof (filter_len_le p q l H'). lia.
  - specialize (IH H' Hx P Q). pose proof (H z (or_introl eq_refl)) as Hz. destruct (p z), (q z); cbn; try lia; discriminate (Hz eq_refl).
Qed.
Lemma ahead_lt T X : next_stop T X -> ahead X < ahead T.
Proof.
  intros (L & (e & He & K) & _). unfold ahead.
  assert (A : length (filter (fun e => (X <? kl e)%Z) evs) <= length (filter (fun e => (T <? kl e)%Z) evs)).
  { apply filter_len_le. intros f _. zb. lia. }
  assert (B : length (filter (fun e => (X <? kh e)%Z) evs) <= length (filter (fun e => (T <? kh e)%Z) evs)).
  { apply filter_len_le. intros f _. zb. lia. }
  destruct K as [K|K].
  - assert (length (filter (fun e => (X <? kl e)%Z) evs) < length (filter (fun e => (T <? kl e)%Z) evs)); [|lia].
    apply (filter_len_lt _ _ _ e); [intros f _; zb; lia|exact He| |]; zb; lia.
  - assert (length (filter (fun e => (X <? kh e)%Z) evs) < length (filter (fun e => (T <? kh e)%Z) evs)); [|lia].
    apply (filter_len_lt _ _ _ e); [intros f _; zb; lia|exact He| |]; zb; lia.
Qed.
Lemma ahead_bound T : ahead T <= 2 * length evs.
Proof.
  assert (G : forall p, length (filter p evs) <= length evs).
  { intros p. clear. induction evs as [|e l IH]; [reflexivity|]. cbn. destruct (p e); cbn; lia. }
  unfold ahead. pose proof (G (fun e => (T <? kl e)%Z)). pose proof (G (fun e => (T <? kh e)%Z)). lia.
Qed.

Lemma stop_key x : stop evs x <-> nan x = false /\ exists e, In e evs /\ (key x = kl e \/ key x = kh e).
Proof.
  split.
  - intros (e & He & Q). destruct (num_in e He) as [A B].
    assert (N : nan x = false) by (destruct Q as [Q|Q]; apply (feq_nonnan _ _ Q)). split; [exact N|]. exists e. split; [exact He|].
    unfold kl, kh. destruct Q as [Q|Q]; fk; zb; lia.
  - intros (N & e & He & Q). destruct (num_in e He) as [A B]. exists e. split; [exact He|]. fk. zb. unfold kl, kh in Q. lia.
Qed.

(** ** events() *)
Lemma piece_same T u x e h : nan u = false -> key u = T -> nan x = false -> next_stop T (key x) -> In e evs -> hf_from e = Some h -> (kl e <= T < kh e)%Z ->
  ev_same (hf_piece u x h) (cut u x e).
Proof.
  intros Nu Ku Nx (Lt & _ & M) He F L. destruct (num_in e He) as [A B]. destruct (fr_some e h (conj A B) F) as (_ & NS & NE & KS & KE & Es & Ew & Eo & HF & Q).
  destruct (fmin_nonnan x (hf_end h) Nx NE) as [N1 K1]. destruct (M e He) as [_ M2]. specialize (M2 ltac:(lia)).
  assert (KX : key (fmin x (hf_end h)) = key x) by lia.
  unfold hf_piece, cut. rewrite <- HF. destruct (hf_first h) eqn:HH; destruct Q as (Q1 & Q2 & Q3 & Q4); unfold ev_same; cbn [ev_x0 ev_x1 ev_above ev_below ev_seg ev_sweep ev_old];
    rewrite Q1, Q2, Es, Ew, Eo; rewrite <- Q3, <- Q4; fk; rewrite KX; repeat split; try apply Z.eqb_refl; try apply andb_comm; try reflexivity.
Qed.

Lemma pieces_batch T r u x : at_inv T r -> nan u = false -> key u = T -> nan x = false -> next_stop T (key x) ->
  exists b, Permutation (map (hf_piece u x) (rg_active r)) b /\ Forall2 ev_same b (map (cut u x) (filter (fun e => fle (ev_lo e) u && flt u (ev_hi e)) evs)).
Proof.
  intros I Nu Ku Nx NS. exists (map (hf_piece u x) (flat_map fr (span evs T))). split; [apply Permutation_map, I|].
  assert (EQ : filter (fun e => fle (ev_lo e) u && flt u (ev_hi e)) evs = span evs T).
  { apply filter_ext_in. intros e He. destruct (lo_kl e (num_in e He)) as [A B], (hi_kh e (num_in e He)) as [C D]. fk. rewrite B, D, Ku. reflexivity. }
  rewrite EQ. clear EQ. assert (SUB : forall e, In e (span evs T) -> In e evs /\ (kl e <= T < kh e)%Z).
  { intros e He. apply filter_In in He. destruct He as [He Q]. apply andb_true_iff in Q. zb. split; [exact He|lia]. }
  induction (span evs T) as [|e l IH]; [constructor|]. cbn [flat_map map]. destruct (SUB e (or_introl eq_refl)) as [He L].
  destruct (fr_lt e (num_in e He)) as [h F]; [lia|]. unfold fr at 1. rewrite F. cbn [map app]. constructor.
  - eapply piece_same; eassumption.
  - apply IH. intros f Hf. apply SUB. right. exact Hf.
Qed.

Lemma walk_events_ok fuel : forall T r, at_inv T r -> ahead T < fuel ->
  (match rg_last r with Some u => nan u = false /\ key u = T | None => rg_active r = [] end) ->
  exists l, walk_events sort_by fuel r = Ok l /\
    StronglySorted (fun x z => flt x z = true) (map fst l) /\
    Forall (fun x => nan x = false /\ (T < key x)%Z /\ exists e, In e evs /\ (key x = kl e \/ key x = kh e)) (map fst l) /\
    (forall e k, In e evs -> k = kl e \/ k = kh e -> (T < k)%Z -> exists x, In x (map fst l) /\ key x = k) /\
    batches_ok evs (rg_last r) l.
Proof.
  induction fuel as [|fuel IH]; intros T r I A HL; [lia|]. cbn [walk_events].
  pose proof (head_min evs NUM SRT T r I) as HM. destruct (rg_x r) as [x|] eqn:X.
  - destruct HM as [Nx NS]. unfold rg_events_step. rewrite X.
    pose proof (advance sort_by SORT evs NUM SRT T r x (Some x) I Nx NS) as ADV. destruct (take_upto x (rg_events r)) as [t rest]. destruct ADV as [Et I'].
    set (r' := mkRG (Some x) _ rest) in *.
    assert (PB : exists pieces, match rg_active r with [] => Ok [] | _ :: _ => do! x0 := orerr ELastX (rg_last r) in Ok (map (hf_piece x0 x) (rg_active r)) end = Ok pieces /\
      exists b, Permutation pieces b /\ Forall2 ev_same b (match rg_last r with None => [] | Some u => map (cut u x) (filter (fun e => fle (ev_lo e) u && flt u (ev_hi e)) evs) end)).
    { destruct (rg_last r) as [u|] eqn:LA.
      - destruct HL as [Nu Ku]. destruct (pieces_batch T r u x I Nu Ku Nx NS) as (b & P & F). exists (map (hf_piece u x) (rg_active r)). split.
        + destruct (rg_active r); reflexivity.
        + exists b. auto.
      - rewrite HL. exists []. split; [reflexivity|]. exists []. auto. }
    destruct PB as (pieces & -> & b & Pb & Fb). cbn [rbind].
    destruct (IH (key x) r' I') as (l & -> & S1 & S2 & S3 & S4).
    { pose proof (ahead_lt T (key x) NS). lia. } { cbn. auto. }
    cbn [rbind]. eexists. split; [reflexivity|]. cbn [map fst batches_ok]. destruct NS as (Lt & Ex & M). split; [|split; [|split; [|split]]].
    + constructor; [exact S1|]. eapply Forall_impl; [|exact S2]. intros z (Nz & Lz & _). fk. zb. exact Lz.
    + constructor; [auto|]. eapply Forall_impl; [|exact S2]. cbn. intros z (Nz & Lz & Ez). split; [exact Nz|]. split; [lia|exact Ez].
    + intros e k He K L. destruct (M e He) as [M1 M2]. assert (key x <= k)%Z by (destruct K; subst k; auto).
      destruct (Z.eq_dec (key x) k) as [Q|Q]; [exists x; split; [left; reflexivity|exact Q]|].
      destruct (S3 e k He K ltac:(lia)) as (z & Hz & Kz). exists z. split; [right; exact Hz|exact Kz].
    + exists (b ++ filter (fun e => feq (ev_x0 e) (ev_x1 e)) t). split; [apply Permutation_app_tail, Pb|]. unfold batch_at. apply Forall2_app; [exact Fb|].
      rewrite Et, filter_filter.
      assert (EQ : filter (fun e => (kl e =? key x)%Z && feq (ev_x0 e) (ev_x1 e)) evs = filter (fun e => pointlike e && feq (ev_x0 e) x) evs).
      { apply filter_ext_in. intros e He. destruct (num_in e He) as [N0 N1]. unfold pointlike, kl. fk.
        destruct (Z.eqb_spec (key (ev_x0 e)) (key (ev_x1 e))), (Z.eqb_spec (key (ev_x0 e)) (key x)), (Z.eqb_spec (Z.min (key (ev_x0 e)) (key (ev_x1 e))) (key x)); cbn; try reflexivity; lia. }
      rewrite EQ. assert (SF : forall l : list oevent, (forall e, In e l -> ev_numbers e) -> Forall2 ev_same l l).
      { clear. induction l as [|e l IH]; intros H; constructor.
        - destruct (H e (or_introl eq_refl)) as [N0 N1]. repeat split; fk; apply Z.eqb_refl.
        - apply IH. intros f Hf. apply H. right. exact Hf. }
      apply SF. intros e He. apply filter_In in He. apply num_in, He.
    + exact S4.
  - exists []. split; [reflexivity|]. cbn. split; [constructor|]. split; [constructor|]. split; [|exact Logic.I].
    intros e k He K L. destruct (HM e He). destruct K; subst k; lia.
Qed.

Lemma new_inv : exists T, at_inv T (rg_new evs) /\ (forall e, In e evs -> (T < kl e)%Z /\ (T < kh e)%Z).
Proof.
  assert (G : exists T, forall e, In e evs -> (T < kl e)%Z).
  { clear. induction evs as [|e l [T IH]]; [exists 0%Z; intros e []|]. exists (Z.min T (kl e - 1)). intros f [<-|Hf]; [lia|]. specialize (IH f Hf). lia. }
  destruct G as [T G]. exists T. split.
  - split; cbn.
    + unfold pend. symmetry. clear - G. induction evs as [|e l IH]; [reflexivity|]. cbn. replace (T <? kl e)%Z with true by (symmetry; apply Z.ltb_lt, G; left; reflexivity).
      f_equal. apply IH. intros f Hf. apply G. right. exact Hf.
    + unfold span. replace (filter _ evs) with (@nil oevent); [constructor|]. symmetry. clear - G. induction evs as [|e l IH]; [reflexivity|]. cbn.
      replace (kl e <=? T)%Z with false by (symmetry; apply Z.leb_gt, G; left; reflexivity). apply IH. intros f Hf. apply G. right. exact Hf.
    + constructor.
  - intros e He. specialize (G e He). unfold kl, kh in *. lia.
Qed.

Theorem walk_events_complete : exists l, walk_events sort_by (S (2 * length evs)) (rg_new evs) = Ok l /\
  StronglySorted (fun x z => flt x z = true) (map fst l) /\
  (forall x, stop evs x <-> exists z, In z (map fst l) /\ feq z x = true) /\
  batches_ok evs None l.
Proof.
  destruct new_inv as (T & I & G). destruct (walk_events_ok (S (2 * length evs)) T (rg_new evs) I) as (l & E1 & E2 & E3 & E4 & E5).
  { pose proof (ahead_bound T). lia. } { reflexivity. }
  exists l. split; [exact E1|]. split; [exact E2|]. split; [|exact E5]. intros x. rewrite stop_key. rewrite Forall_forall in E3. split.
  - intros (N & e & He & K). destruct (G e He). destruct (E4 e (key x) He K) as (z & Hz & Kz); [destruct K; lia|]. exists z. split; [exact Hz|].
    destruct (E3 z Hz) as (Nz & _). fk. zb. exact Kz.
  - intros (z & Hz & Q). destruct (E3 z Hz) as (Nz & _ & e & He & K). destruct (feq_nonnan _ _ Q) as [_ N]. split; [exact N|]. fk. zb. exists e. rewrite <- Q. auto.
Qed.

(** ** increase_x() *)
Lemma increase_inv T r x : at_inv T r -> rg_x r = Some x -> at_inv (key x) (increase_x sort_by r) /\ rg_last (increase_x sort_by r) = rg_last r.
Proof.
  intros I X. pose proof (head_min evs NUM SRT T r I) as HM. rewrite X in HM. destruct HM as [Nx NS].
  unfold increase_x. rewrite X. pose proof (advance sort_by SORT evs NUM SRT T r x (rg_last r) I Nx NS) as ADV.
  destruct (take_upto x (rg_events r)) as [t rest]. split; [apply ADV|reflexivity].
Qed.

Lemma key_preorder l : preorder_on key_cmp l.
Proof.
  split.
  - intros x z _ _. unfold key_cmp. apply Nat.compare_antisym.
  - intros x z w _ _ _. unfold key_cmp. rewrite !Nat.compare_gt_iff. lia.
Qed.
(** Sorting segments with their indices. *)
Lemma keyed_ok {A} (p : A -> bool) (seg : A -> nat) (idx : A -> option nat) l : (forall x, In x l -> p x = true -> idx x <> None) ->
  exists k, keyed p seg idx l = Ok k /\ Forall2 (fun x q => seg x = fst q /\ idx x = Some (snd q)) (filter p l) k.
Proof.
  induction l as [|x l IH]; intros H; cbn [keyed filter]; [exists []; split; [reflexivity|constructor]|].
  destruct (IH (fun z Hz => H z (or_intror Hz))) as (k & K1 & K2). destruct (p x) eqn:P; [|exists k; auto].
  pose proof (H x (or_introl eq_refl) P) as Q. destruct (idx x) as [i|] eqn:Ix; [|congruence]. cbn [orerr rbind]. rewrite K1. cbn [rbind].
  exists ((seg x, i) :: k). split; [reflexivity|]. constructor; [auto|exact K2].
Qed.
Lemma pair_perm {A B} (R : A -> B -> Prop) l l' m : Forall2 R l m -> Permutation m l' -> exists k, Permutation l k /\ Forall2 R k l'.
Proof.
  intros F P. apply Permutation_sym in P. revert l F. induction P as [|x l1 l2 P IH|x z l1|l1 l2 l3 P1 IH1 P2 IH2]; intros l F.
  - inversion F; subst. exists []. auto.
  - inversion F as [|? ? l0 ? R1 F1]; subst. destruct (IH l0 F1) as (k & K1 & K2). exists (x0 :: k). split; [constructor; exact K1|constructor; assumption].
  - inversion F as [|? ? l0 ? R1 F1]; subst. inversion F1 as [|? ? l00 ? R2 F2]; subst. exists (x1 :: x0 :: l00). split; [constructor|repeat constructor; assumption].
  - destruct (IH2 l F) as (k & K1 & K2). destruct (IH1 k K2) as (k' & K3 & K4). exists k'. split; [etransitivity; eassumption|exact K4].
Qed.

Lemma forall2_filter {A B} (R : A -> B -> Prop) p q l m : Forall2 R l m -> (forall x z, In x l -> R x z -> p x = q z) -> Forall2 R (filter p l) (filter q m).
Proof.
  induction 1 as [|x z l m H F IH]; intros G; [constructor|]. cbn. rewrite (G x z (or_introl eq_refl) H).
  specialize (IH (fun x' z' I => G x' z' (or_intror I))). destruct (q z); [constructor; assumption|assumption].
Qed.
Lemma forall2_trans {A B C} (R : A -> B -> Prop) (S : B -> C -> Prop) (T : A -> C -> Prop) l m n : (forall x z w, R x z -> S z w -> T x w) -> Forall2 R l m -> Forall2 S m n -> Forall2 T l n.
Proof. intros H F. revert n. induction F as [|x z l m Q F IH]; intros n G; inversion G; subst; constructor; eauto. Qed.
Lemma perm_filter {A} (p : A -> bool) l m : Permutation l m -> Permutation (filter p l) (filter p m).
Proof. induction 1; cbn; repeat match goal with |- context [if ?b then _ else _] => destruct b end; try constructor; try assumption; try reflexivity. etransitivity; eassumption. Qed.

Lemma at_x T r x : at_inv T r -> nan x = false -> next_stop T (key x) -> rg_at x r = filter (fun e => (kl e =? key x)%Z) evs.
Proof.
  intros I Nx (Lt & _ & M). unfold rg_at. rewrite (ai_ev _ _ _ I).
  assert (EQ : filter (fun e => (kl e =? key x)%Z) evs = filter (fun e => (kl e =? key x)%Z) (pend evs T)).
  { unfold pend. rewrite filter_filter. apply filter_ext. intros e. destruct (Z.ltb_spec T (kl e)), (Z.eqb_spec (kl e) (key x)); cbn; try reflexivity; lia. }
  rewrite EQ. assert (SS : StronglySorted (fun e f => (kl e <= kl f)%Z) (pend evs T)) by (apply sorted_filter, sorted_kl; assumption).
  assert (G : forall e, In e (pend evs T) -> ev_numbers e /\ (key x <= kl e)%Z).
  { intros e He. apply filter_In in He. destruct He as [He Q]. zb. split; [apply num_in, He|]. apply M; assumption. }
  clear EQ. induction SS as [|e l SS IH F]; [reflexivity|]. cbn [take_while filter]. destruct (G e (or_introl eq_refl)) as [Ne Le]. destruct (lo_kl e Ne) as [A B]. fk. rewrite B.
  destruct (Z.eqb_spec (kl e) (key x)) as [Q|Q].
  - f_equal. apply IH. intros f Hf. apply G. right. exact Hf.
  - symmetry. rewrite Forall_forall in F. assert (G' : forall f, In f l -> (kl f =? key x)%Z = false) by (intros f Hf; specialize (F f Hf); zb; lia).
    clear - G'. induction l as [|f l IH]; [reflexivity|]. cbn. rewrite (G' f (or_introl eq_refl)). apply IH. intros g Hg. apply G'. right. exact Hg.
Qed.

(** The fragments of a state belong to events. *)
Lemma act_events T r : at_inv T r -> exists ea, Permutation ea (span evs T) /\ Forall2 (fun e h => hf_from e = Some h) ea (rg_active r).
Proof.
  intros I. assert (F : Forall2 (fun e h => hf_from e = Some h) (span evs T) (flat_map fr (span evs T))).
  { assert (SUB : forall e, In e (span evs T) -> In e evs /\ (kl e <= T < kh e)%Z).
    { intros e He. apply filter_In in He. destruct He as [He Q]. apply andb_true_iff in Q. zb. split; [exact He|lia]. }
    induction (span evs T) as [|e l IH]; [constructor|]. cbn [flat_map]. destruct (SUB e (or_introl eq_refl)) as [He L].
    destruct (fr_lt e (num_in e He)) as [h Q]; [lia|]. unfold fr at 1. rewrite Q. cbn [app]. constructor; [exact Q|].
    apply IH. intros f Hf. apply SUB. right. exact Hf. }
  destruct (pair_perm _ _ (rg_active r) _ F) as (ea & P & F'); [symmetry; apply I|]. exists ea. split; [symmetry; exact P|exact F'].
Qed.
Lemma span_in_evs T e : In e (span evs T) -> In e evs /\ (kl e <= T < kh e)%Z.
Proof. intros He. apply filter_In in He. destruct He as [He Q]. apply andb_true_iff in Q. zb. split; [exact He|lia]. Qed.

(** One side of [segments_at_x]. *)
Lemma side T r x (conn : oevent -> bool) (pos : oevent -> f64) (ph : f64 -> hfrag -> bool) (pe : f64 -> oevent -> bool) (ih : hfrag -> option nat) (ie : oevent -> option nat) :
  at_inv T r -> nan x = false -> next_stop T (key x) ->
  (forall e, pos e = ev_x0 e \/ pos e = ev_x1 e) ->
  (forall e, In e evs -> conn e = true -> ie e <> None) ->
  (forall e, In e evs -> pe x e = conn e && feq (pos e) x) ->
  (forall e h, In e evs -> hf_from e = Some h -> (kl e < key x)%Z -> ih h = ie e /\ ph x h = conn e && feq (pos e) x) ->
  exists k1 k2 l, keyed (ph x) hf_seg ih (rg_active r) = Ok k1 /\ keyed (pe x) ev_seg ie (rg_at x r) = Ok k2 /\
    Permutation l (filter (fun e => conn e && feq (pos e) x) evs) /\ map fst (sort_by _ key_cmp (k1 ++ k2)) = map ev_seg l /\
    StronglySorted (fun e f => exists i j, ie e = Some i /\ ie f = Some j /\ i <= j) l.
Proof.
  intros I Nx NS HP HI HPE HPH. destruct (act_events T r I) as (ea & Pa & Fa).
  assert (Ea : forall e, In e ea -> In e evs /\ (kl e <= T < kh e)%Z) by (intros e He; apply span_in_evs; rewrite <- Pa; exact He).
  pose proof NS as (Lt & _ & M).
  assert (HH : forall h, In h (rg_active r) -> exists e, In e ea /\ hf_from e = Some h).
  { clear - Fa. induction Fa as [|e h l m Q F IH]; intros g []; [subst; exists e; split; [left; reflexivity|exact Q]|]. destruct (IH g H) as (f & Hf & Qf). exists f. split; [right; exact Hf|exact Qf]. }
  destruct (keyed_ok (ph x) hf_seg ih (rg_active r)) as (k1 & E1 & F1).
  { intros h Hh P. destruct (HH h Hh) as (e & He & Q). destruct (Ea e He) as [Ie Le]. destruct (HPH e h Ie Q ltac:(lia)) as [-> R]. rewrite R in P. apply andb_true_iff in P. apply HI; [exact Ie|apply P]. }
  destruct (keyed_ok (pe x) ev_seg ie (rg_at x r)) as (k2 & E2 & F2).
  { rewrite (at_x T r x I Nx NS). intros e He P. apply filter_In in He. destruct He as [He _]. rewrite (HPE e He) in P. apply andb_true_iff in P. apply HI; [exact He|apply P]. }
  set (q := fun e => conn e && feq (pos e) x) in *.
  assert (G1 : Forall2 (fun e p => ev_seg e = fst p /\ ie e = Some (snd p)) (filter q ea) k1).
  { assert (X1 : Forall2 (fun e h => hf_from e = Some h) (filter q ea) (filter (ph x) (rg_active r))).
    { apply forall2_filter; [exact Fa|]. intros e h He Q. destruct (Ea e He) as [Ie Le]. symmetry. apply (HPH e h Ie Q). lia. }
    assert (X2 : Forall2 (fun e h => ev_seg e = hf_seg h /\ ie e = ih h) (filter q ea) (filter (ph x) (rg_active r))).
    { clear - X1 Ea HPH Lt NUM. assert (Sub : forall e, In e (filter q ea) -> In e ea) by (intros e He; apply filter_In in He; apply He).
      induction X1 as [|e h l m Q F IH]; [constructor|]. constructor.
      - destruct (Ea e (Sub e (or_introl eq_refl))) as [Ie Le]. destruct (HPH e h Ie Q ltac:(lia)) as [R _].
        destruct (fr_some e h (num_in e Ie) Q) as (_ & _ & _ & _ & _ & S & _). auto.
      - apply IH. intros f Hf. apply Sub. right. exact Hf. }
    eapply forall2_trans; [|exact X2|exact F1]. intros e h p [A B] [C D]. split; congruence. }
  assert (G2 : Forall2 (fun e p => ev_seg e = fst p /\ ie e = Some (snd p)) (filter (fun e => (kl e =? key x)%Z && q e) evs) k2).
  { rewrite (at_x T r x I Nx NS), filter_filter in F2. 
    assert (EQ : filter (fun e => (kl e =? key x)%Z && q e) evs = filter (fun e => (kl e =? key x)%Z && pe x e) evs).
    { apply filter_ext_in. intros e He. rewrite (HPE e He). reflexivity. }
    rewrite EQ. exact F2. }
  pose proof (Forall2_app G1 G2) as G.
  destruct (pair_perm _ _ (sort_by _ key_cmp (k1 ++ k2)) _ G) as (l & P & F); [apply SORT|].
  exists k1, k2, l. split; [exact E1|]. split; [exact E2|]. split; [|split].
  - rewrite <- P. rewrite (perm_filter q _ _ Pa). unfold span. rewrite filter_filter.
    assert (G' : forall l : list oevent, (forall e, In e l -> In e evs) -> Permutation (filter (fun e => (kl e <=? T)%Z && (T <? kh e)%Z && q e) l ++ filter (fun e => (kl e =? key x)%Z && q e) l) (filter q l)).
    { induction l0 as [|e l0 IH]; intros Sub; [constructor|]. cbn [filter]. specialize (IH (fun f Hf => Sub f (or_intror Hf))).
      destruct (q e) eqn:Q; rewrite ?andb_true_r, ?andb_false_r; [|exact IH].
      pose proof (Sub e (or_introl eq_refl)) as He. destruct (num_in e He) as [N0 N1]. destruct (M e He) as [M1 M2].
      assert (K : (kl e <= key x <= kh e)%Z).
      { unfold q in Q. apply andb_true_iff in Q. destruct Q as [_ Q]. unfold kl, kh. destruct (HP e) as [R|R]; rewrite R in Q; fk; zb; lia. }
      destruct (Z.eqb_spec (kl e) (key x)) as [Z1|Z1].
      - replace (kl e <=? T)%Z with false by (symmetry; apply Z.leb_gt; lia). cbn [andb]. rewrite <- Permutation_middle. constructor. exact IH.
      - replace (kl e <=? T)%Z with true by (symmetry; apply Z.leb_le; lia). replace (T <? kh e)%Z with true by (symmetry; apply Z.ltb_lt; lia). cbn [andb app]. constructor. exact IH. }
    apply G'. auto.
  - clear - F. induction F as [|e p l m [A _] F IH]; [reflexivity|]. cbn. rewrite A, IH. reflexivity.
  - assert (SK : StronglySorted (fun a b => key_cmp a b <> Gt) (sort_by _ key_cmp (k1 ++ k2))) by (apply SORT, key_preorder).
    clear - F SK. revert SK. induction F as [|e p l m [_ A] F IH]; intros SK; [constructor|]. inversion SK as [|? ? S1 S2]; subst. constructor; [apply IH, S1|].
    clear - A F S2. induction F as [|f q l m [_ B] F IH]; [constructor|]. inversion S2 as [|? ? S3 S4]; subst. constructor; [|apply IH, S4].
    exists (snd p), (snd q). split; [exact A|]. split; [exact B|]. unfold key_cmp in S3. rewrite Nat.compare_gt_iff in S3. lia.
Qed.

Hypothesis OLD : forall e, In e evs -> ev_above e = true -> ev_old e <> None.
Hypothesis NEW : forall e, In e evs -> ev_below e = true -> ev_sweep e <> None.

Lemma seen T r x : at_inv T r -> nan x = false -> next_stop T (key x) -> rg_x r = Some x ->
  exists up down, segments_at_x sort_by r = Ok (up, down) /\ sees evs (mkView x (horizontals r) up down (horizontals (increase_x sort_by r))).
Proof.
  intros I Nx NS X. unfold segments_at_x. rewrite X.
  destruct (side T r x ev_above ev_x0 hf_above_at ev_above_at hf_old ev_old I Nx NS) as (u1 & u2 & lu & E1 & E2 & U1 & U2 & U3).
  { auto. } { exact OLD. }
  { intros e He. destruct (num_in e He). unfold ev_above_at. fk. rewrite Z.eqb_sym. apply andb_comm. }
  { intros e h He F L. destruct (num_in e He). destruct (fr_some e h (num_in e He) F) as (_ & A & B & C & D & _ & _ & E & HF & Q). split; [exact E|].
    unfold hf_above_at. fk. rewrite C, D. replace (key x =? kl e)%Z with false by (symmetry; apply Z.eqb_neq; lia). cbn [andb orb].
    destruct (hf_first h) eqn:HH; destruct Q as (Q1 & Q2 & Q3 & Q4); cbn [negb].
    - rewrite !andb_false_r. cbn. symmetry. apply andb_false_iff. right. apply Z.eqb_neq. rewrite <- Q3. lia.
    - rewrite andb_true_r, Q2, <- D, Q4, Z.eqb_sym. apply andb_comm. }
  destruct (side T r x ev_below ev_x1 hf_below_at ev_below_at hf_sweep ev_sweep I Nx NS) as (d1 & d2 & ld & E3 & E4 & D1 & D2 & D3).
  { auto. } { exact NEW. }
  { intros e He. destruct (num_in e He). unfold ev_below_at. fk. rewrite Z.eqb_sym. apply andb_comm. }
  { intros e h He F L. destruct (num_in e He). destruct (fr_some e h (num_in e He) F) as (_ & A & B & C & D & _ & E & _ & HF & Q). split; [exact E|].
    unfold hf_below_at. fk. rewrite C, D. replace (key x =? kl e)%Z with false by (symmetry; apply Z.eqb_neq; lia). cbn [andb orb].
    destruct (hf_first h) eqn:HH; destruct Q as (Q1 & Q2 & Q3 & Q4); cbn [negb].
    - rewrite andb_true_r, Q2, <- D, Q4, Z.eqb_sym. apply andb_comm.
    - rewrite !andb_false_r. cbn. symmetry. apply andb_false_iff. right. apply Z.eqb_neq. rewrite <- Q3. lia. }
  rewrite E1, E3. cbn [rbind]. rewrite E2, E4. cbn [rbind]. eexists; eexists. split; [reflexivity|].
  assert (HZ : forall T' r' , at_inv T' r' -> Permutation (horizontals r') (map rightward (span evs T'))).
  { intros T' r' I'. destruct (act_events T' r' I') as (ea & Pa & Fa). rewrite <- Pa. unfold horizontals.
    assert (Sub : forall e, In e ea -> In e evs) by (intros e He; apply (span_in_evs T'); rewrite <- Pa; exact He).
    clear - Fa Sub NUM. induction Fa as [|e h l m Q F IH]; [constructor|]. cbn [map].
    destruct (fr_some e h (num_in e (Sub e (or_introl eq_refl))) Q) as (_ & _ & _ & _ & _ & S1 & _ & _ & S2 & _).
    unfold rightward at 1. rewrite S1, S2. constructor. apply IH. intros f Hf. apply Sub. right. exact Hf. }
  pose proof NS as (Lt & _ & M). split; cbn [vw_x vw_in vw_up vw_down vw_out].
  - rewrite (HZ T r I). apply Permutation_map. unfold span. 
    assert (EQ : filter (fun e => flt (ev_lo e) x && fle x (ev_hi e)) evs = filter (fun e => (kl e <=? T)%Z && (T <? kh e)%Z) evs); [|rewrite EQ; reflexivity].
    apply filter_ext_in. intros e He. destruct (lo_kl e (num_in e He)) as [A B], (hi_kh e (num_in e He)) as [C D]. fk. rewrite B, D. destruct (M e He) as [M1 M2].
    destruct (Z.ltb_spec (kl e) (key x)), (Z.leb_spec (key x) (kh e)), (Z.leb_spec (kl e) T), (Z.ltb_spec T (kh e)); cbn; try reflexivity; lia.
  - destruct (increase_inv T r x I X) as [I' _]. rewrite (HZ _ _ I'). apply Permutation_map. unfold span.
    assert (EQ : filter (fun e => fle (ev_lo e) x && flt x (ev_hi e)) evs = filter (fun e => (kl e <=? key x)%Z && (key x <? kh e)%Z) evs); [|rewrite EQ; reflexivity].
    apply filter_ext_in. intros e He. destruct (lo_kl e (num_in e He)) as [A B], (hi_kh e (num_in e He)) as [C D]. fk. rewrite B, D. reflexivity.
  - exists lu. auto.
  - exists ld. auto.
Qed.

Lemma walk_x_ok fuel : forall T r, at_inv T r -> ahead T < fuel ->
  exists l, walk_x sort_by fuel r = Ok l /\
    StronglySorted (fun x z => flt x z = true) (map vw_x l) /\
    Forall (fun x => nan x = false /\ (T < key x)%Z /\ exists e, In e evs /\ (key x = kl e \/ key x = kh e)) (map vw_x l) /\
    (forall e k, In e evs -> k = kl e \/ k = kh e -> (T < k)%Z -> exists x, In x (map vw_x l) /\ key x = k) /\
    Forall (sees evs) l /\ (forall v l', l = v :: l' -> vw_in v = horizontals r) /\
    (forall i v v', nth_error l i = Some v -> nth_error l (S i) = Some v' -> vw_out v = vw_in v').
Proof.
  induction fuel as [|fuel IH]; intros T r I A; [lia|]. cbn [walk_x].
  pose proof (head_min evs NUM SRT T r I) as HM. destruct (rg_x r) as [x|] eqn:X.
  - destruct HM as [Nx NS]. destruct (seen T r x I Nx NS X) as (up & down & -> & SE). cbn [rbind].
    destruct (increase_inv T r x I X) as [I' _].
    destruct (IH (key x) _ I') as (l & -> & S1 & S2 & S3 & S4 & S5 & S6). { pose proof (ahead_lt T (key x) NS). lia. }
    cbn [rbind]. eexists. split; [reflexivity|]. cbn [map vw_x]. destruct NS as (Lt & Ex & M). split; [|split; [|split; [|split; [|split]]]].
    + constructor; [exact S1|]. eapply Forall_impl; [|exact S2]. intros z (Nz & Lz & _). fk. zb. exact Lz.
    + constructor; [auto|]. eapply Forall_impl; [|exact S2]. cbn. intros z (Nz & Lz & Ez). split; [exact Nz|]. split; [lia|exact Ez].
    + intros e k He K L. destruct (M e He) as [M1 M2]. assert (key x <= k)%Z by (destruct K; subst k; auto).
      destruct (Z.eq_dec (key x) k) as [Q|Q]; [exists x; split; [left; reflexivity|exact Q]|].
      destruct (S3 e k He K ltac:(lia)) as (z & Hz & Kz). exists z. split; [right; exact Hz|exact Kz].
    + constructor; assumption.
    + intros v l' Q. injection Q as <- _. reflexivity.
    + intros [|i] v v' H1 H2; cbn [nth_error] in H1, H2.
      * injection H1 as <-. cbn. destruct l as [|w l']; [discriminate|]. injection H2 as <-. symmetry. eapply S5. reflexivity.
      * eapply S6; eassumption.
  - exists []. split; [reflexivity|]. cbn. split; [constructor|]. split; [constructor|]. split; [|split; [constructor|split; [discriminate|intros [|] v v'; discriminate]]].
    intros e k He K L. destruct (HM e He). destruct K; subst k; lia.
Qed.

Lemma walk_x_views fuel : 2 * length evs < fuel -> exists l, walk_x sort_by fuel (rg_new evs) = Ok l /\
  StronglySorted (fun x z => (key x < key z)%Z) (map vw_x l) /\
  Forall (fun v => nan (vw_x v) = false /\ exists e, In e evs /\ (key (vw_x v) = kl e \/ key (vw_x v) = kh e)) l /\
  (forall e k, In e evs -> k = kl e \/ k = kh e -> exists v, In v l /\ key (vw_x v) = k) /\
  Forall (sees evs) l /\ (forall v l', l = v :: l' -> vw_in v = []) /\
  (forall i v v', nth_error l i = Some v -> nth_error l (S i) = Some v' -> vw_out v = vw_in v').
Proof.
  intros F. destruct new_inv as (T & I & G). destruct (walk_x_ok fuel T (rg_new evs) I) as (l & E1 & E2 & E3 & E4 & E5 & E6 & E7).
  { pose proof (ahead_bound T). lia. }
  exists l. split; [exact E1|]. rewrite Forall_map in E3. rewrite Forall_forall in E3. split; [|split; [|split; [|auto]]].
  - assert (N : Forall (fun x => nan x = false) (map vw_x l)) by (apply Forall_map, Forall_forall; intros v Hv; apply (E3 v Hv)).
    clear - E2 N. induction (map vw_x l) as [|x m IH]; [constructor|]. inversion E2 as [|? ? E2' F]; subst. inversion N as [|? ? Nx N']; subst.
    constructor; [apply IH; assumption|]. rewrite Forall_forall in *. intros z Hz. specialize (F z Hz). specialize (N' z Hz). cbn beta in *. fk. zb. exact F.
  - apply Forall_forall. intros v Hv. destruct (E3 v Hv) as (X1 & _ & X2). auto.
  - intros e k He K. destruct (G e He). destruct (E4 e k He K) as (x & Hx & Kx); [destruct K; lia|]. apply in_map_iff in Hx. destruct Hx as (v & <- & Hv). eauto.
Qed.
Theorem walk_x_complete : exists l, walk_x sort_by (S (2 * length evs)) (rg_new evs) = Ok l /\
  StronglySorted (fun x z => flt x z = true) (map vw_x l) /\
  (forall x, stop evs x <-> exists z, In z (map vw_x l) /\ feq z x = true) /\
  Forall (sees evs) l /\ (forall v l', l = v :: l' -> vw_in v = []) /\
  (forall i v v', nth_error l i = Some v -> nth_error l (S i) = Some v' -> vw_out v = vw_in v').
Proof.
  destruct new_inv as (T & I & G). destruct (walk_x_ok (S (2 * length evs)) T (rg_new evs) I) as (l & E1 & E2 & E3 & E4 & E5 & E6 & E7).
  { pose proof (ahead_bound T). lia. }
  exists l. split; [exact E1|]. split; [exact E2|]. split; [|split; [exact E5|split; [exact E6|exact E7]]]. intros x. rewrite stop_key. rewrite Forall_forall in E3. split.
  - intros (N & e & He & K). destruct (G e He). destruct (E4 e (key x) He K) as (z & Hz & Kz); [destruct K; lia|]. exists z. split; [exact Hz|].
    destruct (E3 z Hz) as (Nz & _). fk. zb. exact Kz.
  - intros (z & Hz & Q). destruct (E3 z Hz) as (Nz & _ & e & He & K). destruct (feq_nonnan _ _ Q) as [_ N]. split; [exact N|]. fk. zb. exists e. rewrite <- Q. auto.
Qed.
End Walk.

(** The two usages do not mix: [increase_x] does not record the position. *)
Section Mixed.
Variable sort_by : forall A : Type, (A -> A -> comparison) -> list A -> list A.
Hypothesis SORT : forall A, sort_spec (sort_by A).
Variable evs : list oevent.
Hypothesis NUM : Forall ev_numbers evs.
Hypothesis SRT : ev_sorted evs.

Theorem mixed_panics x : rg_x (rg_new evs) = Some x ->
  (rg_events_step sort_by (increase_x sort_by (rg_new evs)) = Err ELastX <-> exists e, In e evs /\ pointlike e = false /\ feq (ev_lo e) x = true) /\
  (forall e, rg_events_step sort_by (increase_x sort_by (rg_new evs)) = Err e -> e = ELastX).
Proof.
  intros X. destruct (new_inv evs) as (T & I & G). pose proof (head_min evs NUM SRT T _ I) as HM. rewrite X in HM. destruct HM as [Nx NS].
  destruct (increase_inv sort_by SORT evs NUM SRT T _ x I X) as [I' L']. set (r' := increase_x sort_by (rg_new evs)) in *. cbn in L'.
  pose proof (head_min evs NUM SRT _ _ I') as HM'. unfold rg_events_step. pose proof (ai_act _ _ _ I') as PA.
  assert (HA : rg_active r' = [] <-> ~ exists e, In e evs /\ pointlike e = false /\ feq (ev_lo e) x = true).
  { split.
    - intros Q (e & He & P & F). pose proof (num_in evs NUM e He) as [N0 N1]. destruct (lo_kl e (conj N0 N1)) as [A B]. unfold pointlike in P. fk. zb.
      destruct (span_has evs NUM (key x) e He) as (h & _ & Hh); [unfold kl, kh in *; lia|]. rewrite <- PA, Q in Hh. destruct Hh.
    - intros N. destruct (rg_active r') as [|h l] eqn:Q; [reflexivity|]. exfalso. apply N.
      assert (Hi : In h (flat_map fr (span evs (key x)))) by (rewrite <- PA; left; reflexivity). destruct (span_in evs _ _ Hi) as (e & He & F & L).
      exists e. split; [exact He|]. pose proof (num_in evs NUM e He) as [N0 N1]. destruct (lo_kl e (conj N0 N1)) as [A B]. unfold pointlike. destruct NS as (Lt & _ & M).
      destruct (G e He). destruct (M e He) as [M1 _]. specialize (M1 ltac:(lia)). split; fk; zb; unfold kl, kh in *; lia. }
  rewrite L'. destruct (rg_x r') as [z|] eqn:X'.
  - destruct (rg_active r') as [|h l] eqn:Q; cbn [orerr rbind].
    + destruct (take_upto z (rg_events r')) as [t rest]. split; [|discriminate]. split; [discriminate|]. intros E. exfalso. apply (proj1 HA eq_refl E).
    + split; [|congruence]. split; [|reflexivity]. intros _. assert (In h (h :: l)) by (left; reflexivity).
      assert (Hi : In h (flat_map fr (span evs (key x)))) by (rewrite <- PA; left; reflexivity). destruct (span_in evs _ _ Hi) as (e & He & F & L).
      exists e. split; [exact He|]. pose proof (num_in evs NUM e He) as [N0 N1]. destruct (lo_kl e (conj N0 N1)) as [A B]. unfold pointlike. destruct NS as (Lt & _ & M).
      destruct (G e He). destruct (M e He) as [M1 _]. specialize (M1 ltac:(lia)). split; fk; zb; unfold kl, kh in *; lia.
  - split; [|discriminate]. split; [discriminate|]. intros E. exfalso. assert (Q : rg_active r' = []).
    { unfold rg_x in X'. destruct (rg_active r'); [reflexivity|]. destruct (rg_events r'); discriminate. }
    apply (proj1 HA Q E).
Qed.
End Mixed.
