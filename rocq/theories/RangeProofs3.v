(** Proofs about the output events of a range: a complete description. *)
From Coq Require Import List Bool ZArith Arith Lia Permutation Sorted.
From Verif Require Import F64 F64Arith TreeVecModel GeomModel SegmentsModel SegmentsSpec SegmentsProofs CurveOrderModel CurveOrderProofs
  SweepModel SweepSpec RangeModel RangeSpec RangeProofs RangeProofs2.
Import ListNotations.

Lemma nth_error_firstn {A} (l : list A) m k : k < m -> nth_error (firstn m l) k = nth_error l k.
Proof. revert m k. induction l as [|x l IH]; intros [|m] [|k] L; try lia; cbn; try reflexivity. apply IH. lia. Qed.
Lemma nth_error_skipn {A} (l : list A) m k : nth_error (skipn m l) k = nth_error l (m + k).
Proof. revert l. induction m as [|m IH]; intros l; [reflexivity|]. destruct l; [destruct k; reflexivity|]. cbn. apply IH. Qed.
Fixpoint numbered {A R} (g : nat -> A -> R) (k : nat) (l : list A) : list R :=
  match l with [] => [] | x :: l' => g k x :: numbered g (S k) l' end.
Lemma numbered_nth {A R} (g : nat -> A -> R) l : forall k i, nth_error (numbered g k l) i = option_map (g (k + i)) (nth_error l i).
Proof. induction l as [|x l IH]; intros k [|i]; cbn; try reflexivity; [f_equal; f_equal; lia|]. rewrite IH. replace (S k + i) with (k + S i) by lia. reflexivity. Qed.
Lemma numbered_length {A R} (g : nat -> A -> R) l : forall k, length (numbered g k l) = length l.
Proof. induction l; intros; cbn; auto. Qed.
(** A list indexed by a permutation. *)
Lemma numbered_perm {A R} (pos : A -> nat) (g : nat -> A -> R) (k : nat) (l : list A) (b : list R) :
  Permutation (map pos l) (seq 0 (length b)) ->
  (forall i x, nth_error l i = Some x -> nth_error b (pos x) = Some (g (k + i) x)) ->
  Permutation b (numbered g k l).
Proof.
  intros P H. assert (B : map Some b = map (nth_error b) (seq 0 (length b))).
  { clear. apply (nth_ext _ _ None None); [rewrite !map_length, seq_length; reflexivity|]. intros i Hi. rewrite map_length in Hi.
    rewrite (nth_indep (map _ (seq 0 (length b))) None (nth_error b 0)) by (rewrite map_length, seq_length; exact Hi).
    rewrite map_nth, seq_nth by exact Hi. cbn. destruct (nth_error b i) as [x|] eqn:X; [|apply nth_error_None in X; lia].
    rewrite (nth_indep _ None (Some x)) by (rewrite map_length; exact Hi). rewrite (map_nth Some). f_equal. apply nth_error_nth, X. }
  assert (Q : Permutation (map Some b) (map Some (numbered g k l))).
  { rewrite B. eapply Permutation_trans; [apply Permutation_map, Permutation_sym, P|]. rewrite map_map.
    assert (EQ : map (fun x => nth_error b (pos x)) l = map Some (numbered g k l)); [|rewrite EQ; reflexivity].
    clear - H. revert k H. induction l as [|x l IH]; intros k H; cbn [map numbered]; [reflexivity|]. f_equal.
    - rewrite (H 0 x eq_refl). f_equal. f_equal. lia.
    - apply IH. intros i z Hz. rewrite (H (S i) z Hz). f_equal. f_equal. lia. }
  apply Permutation_map_inv in Q. destruct Q as (b' & E1 & E2). assert (b = b') as ->; [|symmetry; exact E2].
  clear - E1. revert b' E1. induction b as [|x m IH]; intros [|z b'] E1; try discriminate; [reflexivity|].
  cbn in E1. injection E1 as -> E1. f_equal. apply IH, E1.
Qed.

Definition ev_num (e : oevent) : Prop := nan (ev_x0 e) = false /\ nan (ev_x1 e) = false.
Lemma ev_lo_k e : ev_num e -> nan (ev_lo e) = false /\ key (ev_lo e) = Z.min (key (ev_x0 e)) (key (ev_x1 e)).
Proof. intros [A B]. apply fmin_nonnan; assumption. Qed.
Lemma ev_hi_k e : ev_num e -> nan (ev_hi e) = false /\ key (ev_hi e) = Z.max (key (ev_x0 e)) (key (ev_x1 e)).
Proof. intros [A B]. apply fmax_nonnan; assumption. Qed.
Lemma ev_cmp_le x z : ev_num x -> ev_num z -> ev_cmp x z <> Gt <->
  (key (ev_lo x) < key (ev_lo z))%Z \/ (key (ev_lo x) = key (ev_lo z) /\ (key (ev_hi x) <= key (ev_hi z))%Z).
Proof.
  intros A B. destruct (ev_lo_k _ A) as [A1 _], (ev_lo_k _ B) as [B1 _], (ev_hi_k _ A) as [A2 _], (ev_hi_k _ B) as [B2 _].
  unfold ev_cmp. rewrite !cof_cmp_key by assumption.
  destruct (Z.compare_spec (key (ev_lo x)) (key (ev_lo z))) as [E|E|E]; [destruct (Z.compare_spec (key (ev_hi x)) (key (ev_hi z)))| |]; split; intros Q; try discriminate; try lia; exfalso; apply Q; reflexivity.
Qed.
Lemma ev_preorder l : Forall ev_num l -> preorder_on ev_cmp l.
Proof.
  intros F. rewrite Forall_forall in F. split.
  - intros x z _ _. unfold ev_cmp. rewrite (cof_cmp_antisym (ev_lo x)), (cof_cmp_antisym (ev_hi x)).
    destruct (cof_cmp (ev_lo x) (ev_lo z)); reflexivity.
  - intros x z w Ix Iz Iw. rewrite !ev_cmp_le by auto. lia.
Qed.

Section Desc.
Variable a : arena.
Variable eps : f64.
Variables lower upper : segment -> f64 -> f64 -> f64.
Variable at_y : segment -> f64 -> f64.
Variable sort_by : forall A : Type, (A -> A -> comparison) -> list A -> list A.
Hypothesis SORT : forall A, sort_spec (sort_by A).
Variable s : sweeper.
Variable c : cinterval.
Notation y := (sw_y s).
Notation start := (fst (ci_segs c)).
Notation end_ := (snd (ci_segs c)).
Notation E := (range_entries s c).
Notation n := (end_ - start).
Notation entry_ok := (entry_ok a eps lower upper at_y y).
Notation sx := (start_x a).
Notation ex := (end_x a).
Hypothesis BND : start <= end_ <= length (sw_line s).
Hypothesis PERM : Permutation (origins start E) (seq start n).
Hypothesis KNOWN : forall e, In e E -> le_old_idx e <> None.
Hypothesis ENT : Forall entry_ok E.

Lemma E_length : length E = n.
Proof. unfold range_entries. rewrite firstn_length, skipn_length. lia. Qed.
Lemma E_slice : slice (sw_line s) (ci_segs c) = Ok E.
Proof. unfold slice. replace (start <=? end_) with true by (symmetry; apply Nat.leb_le; lia). replace (end_ <=? length (sw_line s)) with true by (symmetry; apply Nat.leb_le; lia). reflexivity. Qed.
Lemma E_nth k e : nth_error E k = Some e -> nth_error (sw_line s) (start + k) = Some e.
Proof.
  intros H. assert (L : k < length E) by (apply nth_error_Some; congruence). rewrite E_length in L. unfold range_entries in H.
  rewrite nth_error_firstn, nth_error_skipn in H by exact L. exact H.
Qed.

(** Position of an entry of the range among the old ones. *)
Definition opos (e : lentry) : nat := match le_old_idx e with Some i => i - start | None => 0 end.
Lemma origins_known l : forall k, (forall e, In e l -> le_old_idx e <> None) -> origins k l = map (fun e => match le_old_idx e with Some i => i | None => 0 end) l.
Proof.
  induction l as [|e l IH]; intros k K; cbn; [reflexivity|]. rewrite IH by (intros; apply K; right; assumption). f_equal.
  unfold origin. pose proof (K e (or_introl eq_refl)). destruct (le_old_idx e); [reflexivity|congruence].
Qed.
Lemma opos_perm : Permutation (map opos E) (seq 0 n).
Proof.
  rewrite (origins_known E start KNOWN) in PERM.
  assert (H := Permutation_map (fun i => i - start) PERM). rewrite map_map in H.
  rewrite (map_ext_in _ opos) in H.
  - rewrite H. replace (map (fun i => i - start) (seq start n)) with (seq 0 n); [reflexivity|].
    generalize n as m. intros m. clear. apply (nth_ext _ _ 0 0).
    + rewrite map_length, !seq_length. reflexivity.
    + intros i Hi. rewrite seq_length in Hi. rewrite seq_nth by exact Hi. rewrite (nth_indep _ 0 (0 - start)) by (rewrite map_length, seq_length; exact Hi).
      rewrite (map_nth (fun i => i - start)), seq_nth by exact Hi. lia.
  - intros e He. unfold opos. destruct (le_old_idx e); [reflexivity|lia].
Qed.
Lemma old_idx_of e : In e E -> le_old_idx e = Some (start + opos e) /\ opos e < n.
Proof.
  intros He. assert (A : In (opos e) (seq 0 n)) by (rewrite <- opos_perm; apply in_map, He). apply in_seq in A.
  pose proof (KNOWN _ He) as K. unfold opos in *. destruct (le_old_idx e) as [i|] eqn:O; [|congruence].
  assert (B : In i (seq start n)).
  { rewrite <- PERM. rewrite (origins_known E start KNOWN). apply in_map_iff. exists e. rewrite O. auto. }
  apply in_seq in B. split; [f_equal; lia|lia].
Qed.
Lemma old_pos_of e : In e E -> old_pos start e = Ok (opos e).
Proof.
  intros He. destruct (old_idx_of e He) as [O L]. unfold old_pos. rewrite O. cbn [orerr rbind].
  replace (start <=? start + opos e) with true by (symmetry; apply Nat.leb_le; lia). f_equal. lia.
Qed.
Lemma opos_inj j k e f : nth_error E j = Some e -> nth_error E k = Some f -> opos e = opos f -> j = k.
Proof.
  intros A B H. assert (ND : NoDup (map opos E)) by (eapply Permutation_NoDup; [symmetry; apply opos_perm|apply seq_NoDup]).
  eapply (proj1 (NoDup_nth_error _) ND).
  - rewrite map_length. apply nth_error_Some. congruence.
  - rewrite !nth_error_map', A, B. cbn. congruence.
Qed.

(** [fill_old] arranges the entries by their old index, whatever the buffer contained. *)
Lemma fill_ok : forall l buf, (forall e, In e l -> In e E) -> NoDup (map opos l) -> length buf = n ->
  exists r, fill_old start l buf = Ok r /\ length r = n /\
    (forall e, In e l -> nth_error r (opos e) = Some e) /\
    (forall i, ~ In i (map opos l) -> nth_error r i = nth_error buf i).
Proof.
  induction l as [|e l IH]; intros buf Sub ND L; cbn [fill_old].
  - exists buf. split; [reflexivity|]. split; [exact L|]. split; [intros ? []|reflexivity].
  - rewrite (old_pos_of e (Sub _ (or_introl eq_refl))). cbn [rbind]. destruct (old_idx_of e (Sub _ (or_introl eq_refl))) as [_ Lo].
    destruct (upd_nth buf (opos e) e ltac:(lia)) as (b1 & -> & L1 & N1 & O1). cbn [orerr rbind].
    cbn [map] in ND. inversion ND as [|? ? NI ND']; subst.
    destruct (IH b1 (fun x Hx => Sub x (or_intror Hx)) ND' ltac:(lia)) as (r & -> & Lr & R1 & R2).
    exists r. split; [reflexivity|]. split; [exact Lr|]. split.
    + intros f [<-|If]; [|apply R1, If]. rewrite R2; [exact N1|exact NI].
    + intros i Hi. rewrite R2; [|intros X; apply Hi; right; exact X]. apply O1. intros ->. apply Hi. left. reflexivity.
Qed.
Lemma resize_length buf m : length (resize buf m) = m.
Proof. unfold resize. rewrite app_length, firstn_length, repeat_length. lia. Qed.
Lemma old_line_ok buf : exists r, fill_old start E (resize buf n) = Ok r /\ Permutation r E /\ length r = n /\
  (forall i e, nth_error r i = Some e <-> In e E /\ opos e = i).
Proof.
  destruct (fill_ok E (resize buf n) (fun e H => H)) as (r & -> & L & R1 & _).
  { eapply Permutation_NoDup; [symmetry; apply opos_perm|apply seq_NoDup]. } { apply resize_length. }
  assert (C : forall i e, nth_error r i = Some e <-> In e E /\ opos e = i).
  { intros i e. split.
    - intros H. assert (i < n) by (rewrite <- L; apply nth_error_Some; congruence).
      assert (I : In i (map opos E)) by (rewrite opos_perm; apply in_seq; lia). apply in_map_iff in I. destruct I as (f & Of & If).
      specialize (R1 _ If). rewrite Of, H in R1. injection R1 as ->. auto.
    - intros [I <-]. apply R1, I. }
  exists r. split; [reflexivity|]. split; [|split; [exact L|exact C]].
  assert (NE : NoDup E) by (eapply NoDup_map_inv with (f := opos), Permutation_NoDup; [symmetry; apply opos_perm|apply seq_NoDup]).
  apply NoDup_Permutation; [|exact NE|].
  - apply NoDup_nth_error. intros i j Hi Hij. destruct (nth_error r i) as [e|] eqn:A; [|apply nth_error_None in A; lia].
    symmetry in Hij. apply C in A, Hij. destruct A as [_ <-], Hij as [_ <-]. reflexivity.
  - intros e. split.
    + intros I. apply In_nth_error in I. destruct I as [i I]. apply C in I. apply I.
    + intros I. eapply nth_error_In. apply C. split; [exact I|reflexivity].
Qed.

(** ** The description *)
(** [X0 i] and [X1 k]: positions above the line by old index, below the line by new index. *)
Definition entry_events (X0 X1 : nat -> f64) (k : nat) (e : lentry) : list oevent :=
  if lone c then
    match le_old_seg e with
    | Some o => [mkEv (X1 k) true (X1 k) false o None (le_old_idx e); mkEv (X1 k) false (X1 k) true (le_seg e) (Some k) None]
    | None => [mkEv (X1 k) (negb (le_enter e)) (X1 k) (negb (le_exit e)) (le_seg e) (Some k) (le_old_idx e)]
    end
  else
    mkEv (if from_above e then X0 (start + opos e) else sx (le_old e)) (from_above e) (if le_exit e then ex (le_old e) else X1 k) (negb (le_exit e))
         (le_old e) (Some k) (le_old_idx e) ::
    match le_old_seg e with Some _ => [mkEv (sx (le_seg e)) false (X1 k) true (le_seg e) (Some k) None] | None => [] end.
Fixpoint entries_events (X0 X1 : nat -> f64) (k : nat) (l : list lentry) : list oevent :=
  match l with [] => [] | e :: l' => entry_events X0 X1 k e ++ entries_events X0 X1 (S k) l' end.
Definition hor_event (h : nat) : oevent := mkEv (sx h) false (ex h) false h None None.

Definition snap (e : oevent) : oevent :=
  mkEv (if ev_above e then ev_x0 e else sx (ev_seg e)) (ev_above e) (if ev_below e then ev_x1 e else ex (ev_seg e)) (ev_below e) (ev_seg e) (ev_sweep e) (ev_old e).
Lemma seg_at_ok i : i < arena_len a -> seg_at a i = Ok (seg_def a i).
Proof.
  intros L. unfold seg_at, seg_def. destruct (nth_error (segs a) i) as [g|] eqn:G; [|apply nth_error_None in G; unfold arena_len in L; lia].
  rewrite (nth_error_nth _ _ _ G). reflexivity.
Qed.
Lemma snap_ok l : Forall (fun e => ev_seg e < arena_len a) l -> snap_ends a l = Ok (map snap l).
Proof.
  induction l as [|e l IH]; intros F; cbn [snap_ends map]; [reflexivity|]. inversion F as [|? ? P F']; subst.
  rewrite (seg_at_ok _ P). cbn [rbind]. rewrite (IH F'). reflexivity.
Qed.
Lemma hor_ok l : Forall (fun h => h < arena_len a) l -> horizontal_events a l = Ok (map hor_event l).
Proof.
  induction l as [|e l IH]; intros F; cbn [horizontal_events map]; [reflexivity|]. inversion F as [|? ? P F']; subst.
  rewrite (seg_at_ok _ P). cbn [rbind]. rewrite (IH F'). reflexivity.
Qed.

Definition main_event (X0 X1 : nat -> f64) (k : nat) (e : lentry) : oevent :=
  mkEv (if from_above e then X0 (start + opos e) else sx (le_old e)) (from_above e) (if le_exit e then ex (le_old e) else X1 k) (negb (le_exit e))
       (le_old e) (Some k) (le_old_idx e).
Definition fresh_event (X1 : nat -> f64) (k : nat) (e : lentry) : list oevent :=
  match le_old_seg e with Some _ => [mkEv (sx (le_seg e)) false (X1 k) true (le_seg e) (Some k) None] | None => [] end.
Lemma entries_split X0 X1 l : lone c = false -> forall k,
  Permutation (numbered (main_event X0 X1) k l ++ concat (numbered (fresh_event X1) k l)) (entries_events X0 X1 k l).
Proof.
  intros L. induction l as [|e l IH]; intros k; cbn [numbered concat entries_events]; [constructor|].
  unfold entry_events. rewrite L. cbn [app]. constructor. fold (fresh_event X1 k e).
  rewrite <- IH. rewrite !app_assoc. apply Permutation_app_tail, Permutation_app_comm.
Qed.

(** The claims about positions. *)
Notation band_lo := (band_lo a eps lower y).
Notation band_hi := (band_hi a eps upper y).
Definition old_bands : Prop := forall e f, In e E -> In f E -> opos e < opos f -> fle (band_lo (le_old e)) (band_hi (le_old f)) = true.
Definition new_bands : Prop := bands_ordered a eps lower upper y (map le_seg E).
Definition meeting : Prop := forall e o, In e E -> le_old_seg e = Some o -> in_band a eps lower upper y o (at_y (seg_def a (le_seg e)) y).
Definition in_place : Prop := forall e, In e E -> in_band a eps lower upper y (le_seg e) (at_y (seg_def a (le_seg e)) y) /\ in_band a eps lower upper y (le_old e) (at_y (seg_def a (le_old e)) y).

Definition desc (X0 X1 : nat -> f64) : Prop :=
  (forall k, start <= k < end_ -> nan (X0 k) = false /\ nan (X1 k) = false) /\
  (forall e f, In e E -> In f E -> opos e < opos f -> fle (X0 (start + opos e)) (X0 (start + opos f)) = true) /\
  (forall j k e f, nth_error E j = Some e -> nth_error E k = Some f -> j < k -> fle (X1 (start + j)) (X1 (start + k)) = true) /\
  (in_place -> old_bands -> meeting -> forall e, In e E -> in_band a eps lower upper y (le_old e) (X0 (start + opos e))) /\
  (in_place -> new_bands -> forall j e, nth_error E j = Some e -> in_band a eps lower upper y (le_seg e) (X1 (start + j))).

Hypothesis HB : forall q, ci_hor c = Some q -> fst q <= snd q <= length (sw_horiz s).
Hypothesis HS : forall h, In h (range_horizontals s c) -> h < arena_len a /\ nan (sx h) = false /\ nan (ex h) = false.

Lemma lone_desc buf : lone c = true -> exists evs X, range_events a eps lower upper at_y sort_by s buf c = Ok (evs, buf) /\
  evs = entries_events X X start E ++ map hor_event (range_horizontals s c) /\ desc X X /\ StronglySorted (fun x z => ev_cmp x z <> Gt) evs.
Proof.
  intros L. unfold range_events. pose proof L as L'. unfold lone in L. rewrite L. apply andb_true_iff in L. destruct L as [L LH]. apply Nat.eqb_eq in L.
  assert (EE : exists e, E = [e] /\ nth_error (sw_line s) start = Some e).
  { pose proof E_length as EL. rewrite L in EL. destruct E as [|e [|]] eqn:Q; cbn in EL; try lia. exists e. split; [reflexivity|].
    assert (H := E_nth 0 e). rewrite Q, Nat.add_0_r in H. apply H. reflexivity. }
  destruct EE as (e & Ee & He). unfold single_seg, line_get. rewrite He. cbn [orerr rbind].
  assert (P : entry_ok e) by (rewrite Ee in ENT; inversion ENT; assumption). destruct P as (P1 & P2 & N1 & N2).
  destruct (placed_facts _ _ _ _ _ _ _ P1) as (x & -> & Hx & Nx & Nl & Nh & Bx). cbn [rbind]. rewrite Hx. cbn [rbind].
  exists (entry_events (fun _ => x) (fun _ => x) start e), (fun _ => x). split; [|split; [|split]].
  - unfold entry_events. rewrite L'. destruct (le_old_seg e); reflexivity.
  - rewrite Ee. cbn [entries_events]. unfold range_horizontals. destruct (ci_hor c); [discriminate|]. cbn. rewrite !app_nil_r. reflexivity.
  - assert (Ie : In e E) by (rewrite Ee; left; reflexivity).
    split; [auto|]. split; [|split; [|split]].
    + rewrite Ee. intros f g [<-|[]] [<-|[]]. lia.
    + rewrite Ee. intros [|j] [|k] f g A B; try discriminate A; try (destruct j; discriminate A); try (destruct k; discriminate B). lia.
    + intros IP OB ME f If. assert (f = e) as ->. { rewrite Ee in If. destruct If as [<-|[]]. reflexivity. }
      rewrite Bx. unfold le_old. destruct (le_old_seg e) as [o|] eqn:O; [apply (ME e o Ie O)|apply IP, Ie].
    + intros IP _ j f A. assert (f = e) as ->. { apply nth_error_In in A. rewrite Ee in A. destruct A as [<-|[]]. reflexivity. } rewrite Bx. apply IP, Ie.
  - unfold entry_events. rewrite L'. destruct (le_old_seg e); repeat constructor.
    unfold ev_cmp, ev_lo, ev_hi. cbn [ev_x0 ev_x1].
    assert (R : forall z, cof_cmp z z = Eq). { intros z. pose proof (cof_cmp_antisym z z) as Q. destruct (cof_cmp z z); [reflexivity|discriminate Q|discriminate Q]. }
    rewrite !R. discriminate.
Qed.

Lemma triples_nth ps bs k p e lo hi : nth_error ps k = Some p -> nth_error bs k = Some (e, lo, hi) -> nth_error (triples ps bs) k = Some (p, lo, hi).
Proof.
  revert bs k. induction ps as [|p0 ps IH]; intros [|b bs] [|k] A B; try discriminate.
  - cbn in A, B |- *. injection A as ->. injection B as ->. reflexivity.
  - cbn in A, B. apply (IH bs k A B).
Qed.
Lemma triples_inv ps bs k p lo hi : nth_error (triples ps bs) k = Some (p, lo, hi) -> nth_error ps k = Some p /\ exists e, nth_error bs k = Some (e, lo, hi).
Proof.
  revert bs k. induction ps as [|p0 ps IH]; intros [|b bs] [|k] A; try discriminate.
  - cbn in A. injection A as <- <- <-. destruct b as [[e lo] hi]. cbn. eauto.
  - cbn in A. apply (IH bs k A).
Qed.
Lemma triples_length ps bs : length ps = length bs -> length (triples ps bs) = length bs.
Proof. intros H. unfold triples. rewrite map_length, combine_length. lia. Qed.

(** Positions assigned inside feasible bands. *)
Lemma assigned (g : lentry -> nat) (l : list lentry) out prefs :
  Forall (fun e => placed a eps lower upper at_y y (g e)) l ->
  feasible a eps lower upper at_y g y l = Ok out -> length prefs = length out -> no_nan prefs ->
  length (assign fneginf (triples prefs out)) = length l /\ no_nan (assign fneginf (triples prefs out)) /\
  climbing (assign fneginf (triples prefs out)) /\
  ((forall e, In e l -> in_band a eps lower upper y (g e) (at_y (seg_def a (g e)) y)) -> bands_ordered a eps lower upper y (map g l) ->
     forall k e x, nth_error l k = Some e -> nth_error (assign fneginf (triples prefs out)) k = Some x -> in_band a eps lower upper y (g e) x).
Proof.
  intros F FE LP NP. destruct (feasible_ok a eps lower upper at_y y g l F) as (out' & E1 & Mo & Nb & Ib & Mono & Ne). rewrite FE in E1. injection E1 as <-.
  assert (Lo : length out = length l) by (rewrite <- Mo, map_length; reflexivity).
  assert (NT : Forall (fun t => nan (fst (fst t)) = false /\ nan (snd (fst t)) = false /\ nan (snd t) = false) (triples prefs out)).
  { apply Forall_forall. intros [[p lo] hi] I. apply In_nth_error in I. destruct I as [k I]. apply triples_inv in I. destruct I as (I1 & e & I2).
    unfold no_nan in NP. rewrite Forall_forall in NP, Nb. cbn. split; [apply NP; eapply nth_error_In, I1|]. apply (Nb (e, lo, hi)). eapply nth_error_In, I2. }
  split; [rewrite assign_length, triples_length by exact LP; exact Lo|]. split; [apply assign_nonnan; [reflexivity|exact NT]|].
  assert (HI : forall k p lo hi, nth_error (triples prefs out) k = Some (p, lo, hi) -> (key fneginf <= key hi)%Z).
  { intros k p lo hi H. apply triples_inv in H. destruct H as (_ & e & H). apply key_ge_ninf. rewrite Forall_forall in Nb. apply (Nb (e, lo, hi)). eapply nth_error_In, H. }
  assert (MN : forall j k p lo hi p' lo' hi', j <= k -> nth_error (triples prefs out) j = Some (p, lo, hi) -> nth_error (triples prefs out) k = Some (p', lo', hi') -> (key hi <= key hi')%Z).
  { intros j k p lo hi p' lo' hi' J H1 H2. apply triples_inv in H1, H2. destruct H1 as (_ & e1 & H1), H2 as (_ & e2 & H2). eapply Mono; eauto. }
  split; [apply (assign_climbing (triples prefs out) fneginf eq_refl NT HI MN)|].
  intros IB BO. destruct (assign_ok (triples prefs out) fneginf eq_refl NT) as [A1 _]; [|exact MN|].
  - intros k p lo hi H. apply triples_inv in H. destruct H as (_ & e & H). split; [|eapply Ne; eauto].
    apply key_ge_ninf. rewrite Forall_forall in Nb. apply (Nb (e, lo, hi)). eapply nth_error_In, H.
  - intros k e x Hk Hx.
    assert (exists p lo hi, nth_error (triples prefs out) k = Some (p, lo, hi) /\ nth_error out k = Some (e, lo, hi)) as (p & lo & hi & T1 & T2).
    { assert (Lk : k < length l) by (apply nth_error_Some; congruence).
      destruct (nth_error prefs k) as [p|] eqn:P; [|apply nth_error_None in P; lia].
      destruct (nth_error out k) as [[[e' lo] hi]|] eqn:O; [|apply nth_error_None in O; lia].
      exists p, lo, hi. assert (e' = e). { rewrite <- Mo, nth_error_map', O in Hk. cbn in Hk. congruence. } subst e'. split; [eapply triples_nth; eauto|reflexivity]. }
    destruct (A1 _ _ _ _ _ T1 Hx) as [_ Q]. destruct (Ib _ _ _ _ T2) as [Q1 Q2].
    assert (Pe : placed a eps lower upper at_y y (g e)) by (rewrite Forall_forall in F; apply F; eapply nth_error_In, Hk).
    destruct (placed_facts _ _ _ _ _ _ _ Pe) as (_ & _ & _ & _ & Nl & Nh & _).
    assert (Nx : nan x = false).
    { assert (NN := assign_nonnan (triples prefs out) fneginf eq_refl NT). unfold no_nan in NN. rewrite Forall_forall in NN. apply NN. eapply nth_error_In, Hx. }
    split; apply fle_of_key; (assumption || lia).
Qed.

Lemma num_fresh pos l : forall xs k, map (fun p => fst (fst p)) pos = l -> length xs = length l ->
  forall X1, (forall j x, nth_error xs j = Some x -> X1 (k + j) = x) ->
  Forall (fun e => le_seg e < arena_len a) l ->
  Forall (fun e => ev_seg e < arena_len a) (fresh pos xs k) /\ map snap (fresh pos xs k) = concat (numbered (fresh_event X1) k l).
Proof.
  revert l. induction pos as [|[[e lo] hi] pos IH]; intros l xs k <- L X1 HX F; cbn [map fst] in *; destruct xs as [|x xs]; try discriminate L.
  - split; [constructor|reflexivity].
  - cbn [fresh numbered concat]. inversion F as [|? ? P F']; subst.
    assert (K1 : forall j z, nth_error xs j = Some z -> X1 (S k + j) = z) by (intros j z Hj; rewrite <- (HX (S j) z Hj); f_equal; lia).
    destruct (IH _ xs (S k) eq_refl ltac:(cbn in L; lia) X1 K1 F') as [A B].
    split.
    + apply Forall_app. split; [|exact A]. unfold ev_fresh. destruct (le_old_seg e); repeat constructor. exact P.
    + rewrite map_app, B. f_equal. unfold ev_fresh, fresh_event. destruct (le_old_seg e); [|reflexivity]. cbn.
      rewrite <- (HX 0 x eq_refl), Nat.add_0_r. reflexivity.
Qed.

Lemma combine_nth_error {A B} (l : list A) : forall (m : list B) i x z, nth_error l i = Some x -> nth_error m i = Some z -> nth_error (combine l m) i = Some (x, z).
Proof. induction l as [|q l IH]; intros [|w m] [|i] x z H K; try discriminate; cbn in *; [congruence|]. eapply IH; eauto. Qed.

Lemma full_desc buf : lone c = false -> exists evs X0 X1, range_events a eps lower upper at_y sort_by s buf c = Ok (evs, E) /\
  Permutation evs (entries_events X0 X1 start E ++ map hor_event (range_horizontals s c)) /\ desc X0 X1 /\ StronglySorted (fun x z => ev_cmp x z <> Gt) evs.
Proof.
  intros L. unfold range_events. unfold lone in L. rewrite L.
  replace (end_ <? start) with false by (symmetry; apply Nat.ltb_ge; lia). rewrite E_slice. cbn [rbind].
  destruct (old_line_ok buf) as (ol & -> & PO & LO & CO). cbn [rbind].
  assert (EOL : Forall entry_ok ol) by (eapply Permutation_Forall; [symmetry; exact PO|exact ENT]).
  assert (FO : Forall (fun e => placed a eps lower upper at_y y (le_old e)) ol) by (eapply Forall_impl; [|exact EOL]; intros e H; apply H).
  assert (FN : Forall (fun e => placed a eps lower upper at_y y (le_seg e)) E) by (eapply Forall_impl; [|exact ENT]; intros e H; apply H).
  destruct (feasible_ok a eps lower upper at_y y le_old ol FO) as (pos1 & E1 & M1 & _). rewrite E1. cbn [rbind].
  assert (EP1 : Forall (fun p => entry_ok (fst (fst p))) pos1).
  { rewrite <- M1 in EOL. rewrite Forall_map in EOL. exact EOL. }
  destruct (place_old_ok a eps lower upper at_y y pos1 fneginf EP1) as (pr1 & LP1 & NP1 & ->). cbn [rbind].
  destruct (assigned le_old ol pos1 pr1 FO E1 LP1 NP1) as (LX0 & NX0 & CL0 & BX0). set (x0s := assign fneginf (triples pr1 pos1)) in *.
  destruct (feasible_ok a eps lower upper at_y y le_seg E FN) as (pos2 & E2 & M2 & _). rewrite E2. cbn [rbind].
  assert (EP2 : Forall (fun p => entry_ok (fst (fst p))) pos2).
  { pose proof ENT as EN. rewrite <- M2 in EN. rewrite Forall_map in EN. exact EN. }
  set (B0 := map (fun '(p, x) => ev_up (fst (fst p)) x) (combine pos1 x0s)).
  assert (Lp1 : length pos1 = n) by (rewrite <- LO, <- M1, map_length; reflexivity).
  assert (LB0 : length B0 = n) by (unfold B0; rewrite map_length, combine_length; lia).
  assert (NB0 : forall e, In e E -> exists x, nth_error x0s (opos e) = Some x /\ nth_error B0 (opos e) = Some (ev_up e x)).
  { intros e He. assert (Ho : nth_error ol (opos e) = Some e) by (apply CO; auto).
    assert (Lt : opos e < n) by (rewrite <- LO; apply nth_error_Some; congruence).
    destruct (nth_error x0s (opos e)) as [x|] eqn:X; [|apply nth_error_None in X; lia]. exists x. split; [reflexivity|].
    destruct (nth_error pos1 (opos e)) as [p|] eqn:P; [|apply nth_error_None in P; lia].
    assert (fst (fst p) = e). { rewrite <- M1, nth_error_map', P in Ho. cbn in Ho. congruence. }
    unfold B0. rewrite nth_error_map'. assert (CB : nth_error (combine pos1 x0s) (opos e) = Some (p, x)).
    { apply combine_nth_error; assumption. }
    rewrite CB. cbn. congruence. }
  assert (NTH2 : forall k p, nth_error pos2 k = Some p -> nth_error E k = Some (fst (fst p))).
  { intros k p Hp. pose proof (nth_error_map' (fun p : lentry * f64 * f64 => fst (fst p)) pos2 k) as Q. rewrite M2, Hp in Q. exact Q. }
  unfold no_nan in NX0. rewrite Forall_forall in NX0.
  destruct (place_new_ok a eps lower upper at_y y start pos2 0 fneginf B0 []) as (pr2 & B' & LP2 & NP2 & LB' & PN & _ & UP).
  { exact EP2. }
  { intros k p Hp. apply NTH2 in Hp. apply nth_error_In in Hp. destruct (NB0 _ Hp) as (x & Hx & Hb).
    exists (opos (fst (fst p))), (ev_up (fst (fst p)) x). split; [apply old_pos_of, Hp|]. split; [exact Hb|]. split; [reflexivity|]. cbn. apply NX0. eapply nth_error_In, Hx. }
  { intros j k p q i N Hp Hq. apply NTH2 in Hp, Hq. rewrite (old_pos_of _ (nth_error_In _ _ Hp)), (old_pos_of _ (nth_error_In _ _ Hq)).
    intros [= <-] [= Q]. apply N. eapply opos_inj; [exact Hp|exact Hq|congruence]. }
  rewrite app_nil_r in PN. rewrite PN. cbn [rbind app]. rewrite Nat.add_0_r.
  destruct (assigned le_seg E pos2 pr2 FN E2 LP2 NP2) as (LX1 & NX1 & CL1 & BX1). set (x1s := assign fneginf (triples pr2 pos2)) in *.
  unfold no_nan in NX1. rewrite Forall_forall in NX1.
  set (X0 := fun i => nth (i - start) x0s fzero). set (X1 := fun i => nth (i - start) x1s fzero).
  assert (HX0 : forall i x, nth_error x0s i = Some x -> X0 (start + i) = x) by (intros i x H; unfold X0; replace (start + i - start) with i by lia; apply nth_error_nth, H).
  assert (HX1 : forall i x, nth_error x1s i = Some x -> X1 (start + i) = x) by (intros i x H; unfold X1; replace (start + i - start) with i by lia; apply nth_error_nth, H).
  assert (SEGS : Forall (fun e => le_seg e < arena_len a) E) by (eapply Forall_impl; [|exact FN]; intros e H; apply H).
  destruct (num_fresh pos2 E x1s start M2 LX1 X1 HX1 SEGS) as [SF MF].
  assert (NB' : forall k e, nth_error E k = Some e -> exists x0 x1, X0 (start + opos e) = x0 /\ X1 (start + k) = x1 /\ nth_error B' (opos e) = Some (set_below x1 (start + k) (ev_up e x0))).
  { intros k e He. destruct (NB0 e (nth_error_In _ _ He)) as (x0 & Hx0 & Hb).
    destruct (nth_error pos2 k) as [p|] eqn:P; [|apply nth_error_None in P; assert (k < length E) by (apply nth_error_Some; congruence); rewrite <- M2, map_length in *; lia].
    pose proof (NTH2 _ _ P) as Q. rewrite He in Q. injection Q as ->.
    destruct (nth_error x1s k) as [x1|] eqn:X; [|apply nth_error_None in X; assert (k < length E) by (apply nth_error_Some; congruence); lia].
    exists x0, x1. split; [apply HX0, Hx0|]. split; [apply HX1, X|].
    rewrite (UP k p (opos (fst (fst p))) (ev_up (fst (fst p)) x0) x1 P (old_pos_of _ (nth_error_In _ _ He)) Hb X). do 2 f_equal. lia. }
  assert (SB : Forall (fun e => ev_seg e < arena_len a) B').
  { apply Forall_forall. intros v Hv. apply In_nth_error in Hv. destruct Hv as [i Hv].
    assert (i < n) by (rewrite <- LB0, <- LB'; apply nth_error_Some; congruence).
    destruct (nth_error ol i) as [e|] eqn:Q; [|apply nth_error_None in Q; lia]. apply CO in Q. destruct Q as [Ie <-].
    apply In_nth_error in Ie. destruct Ie as [k Ie]. destruct (NB' k e Ie) as (? & ? & _ & _ & W). rewrite Hv in W. injection W as ->. cbn.
    rewrite Forall_forall in ENT. apply ENT. eapply nth_error_In, Ie. }
  rewrite snap_ok by (apply Forall_app; split; assumption). cbn [rbind].
  assert (HE : match ci_hor c with None => Ok [] | Some h => do! hs := slice (sw_horiz s) h in horizontal_events a hs end = Ok (map hor_event (range_horizontals s c))).
  { unfold range_horizontals in *. destruct (ci_hor c) as [q|]; [|reflexivity]. destruct (HB q eq_refl) as [Q1 Q2]. unfold slice.
    replace (fst q <=? snd q) with true by (symmetry; apply Nat.leb_le; lia). replace (snd q <=? length (sw_horiz s)) with true by (symmetry; apply Nat.leb_le; lia).
    cbn [andb rbind]. apply hor_ok. apply Forall_forall. intros h Hh. apply HS, Hh. }
  rewrite HE. cbn [rbind].
  assert (PB : Permutation (map snap B') (numbered (main_event X0 X1) start E)).
  { apply (numbered_perm opos).
    - rewrite map_length, LB', LB0. apply opos_perm.
    - intros k e He. destruct (NB' k e He) as (x0 & x1 & <- & <- & W). rewrite nth_error_map', W. cbn. unfold snap, main_event, set_below, ev_up. cbn.
      unfold above, from_above. f_equal. destruct (le_exit e); reflexivity. }
  assert (PE : Permutation (map snap (B' ++ fresh pos2 x1s start) ++ map hor_event (range_horizontals s c)) (entries_events X0 X1 start E ++ map hor_event (range_horizontals s c))).
  { apply Permutation_app_tail. rewrite map_app, MF, PB. apply entries_split. exact L. }
  assert (D : desc X0 X1).
  { assert (CLI : forall l i j x z, climbing l -> nth_error l i = Some x -> nth_error l j = Some z -> i < j -> fle x z = true).
    { clear. intros l i j x z CL. revert i j. induction CL as [|w l CL IH FF]; intros i j Hx Hz Lt; [destruct i; discriminate|].
      destruct i as [|i], j as [|j]; try lia; cbn in Hx, Hz.
      - injection Hx as <-. rewrite Forall_forall in FF. apply FF. eapply nth_error_In, Hz.
      - eapply IH; eauto. lia. }
    assert (Q : forall i g, nth_error E i = Some g -> exists x, nth_error x1s i = Some x).
    { intros i g Hg. destruct (nth_error x1s i) as [x|] eqn:X; [eauto|]. apply nth_error_None in X. assert (i < length E) by (apply nth_error_Some; congruence). lia. }
    split; [|split; [|split; [|split]]].
    - intros k Hk. assert (k - start < n) by lia. split.
      + destruct (nth_error x0s (k - start)) as [x|] eqn:X; [|apply nth_error_None in X; lia]. replace k with (start + (k - start)) by lia. rewrite (HX0 _ _ X). apply NX0. eapply nth_error_In, X.
      + destruct (nth_error x1s (k - start)) as [x|] eqn:X; [|apply nth_error_None in X; rewrite LX1, E_length in X; lia]. replace k with (start + (k - start)) by lia. rewrite (HX1 _ _ X). apply NX1. eapply nth_error_In, X.
    - intros e f He Hf Lt. destruct (NB0 e He) as (x & Hx & _). destruct (NB0 f Hf) as (z & Hz & _). rewrite (HX0 _ _ Hx), (HX0 _ _ Hz). eapply CLI; [exact CL0|exact Hx|exact Hz|exact Lt].
    - intros j k e f He Hf Lt. destruct (Q _ _ He) as (x & Hx). destruct (Q _ _ Hf) as (z & Hz). rewrite (HX1 _ _ Hx), (HX1 _ _ Hz). eapply CLI; [exact CL1|exact Hx|exact Hz|exact Lt].
    - intros IP OB _ e He.
      assert (BO : bands_ordered a eps lower upper y (map le_old ol)).
      { intros i j u v Hij Hu Hv. rewrite nth_error_map' in Hu, Hv. destruct (nth_error ol i) as [eu|] eqn:Qu; [|discriminate]. destruct (nth_error ol j) as [ev|] eqn:Qv; [|discriminate].
        cbn in Hu, Hv. injection Hu as <-. injection Hv as <-. apply CO in Qu, Qv. apply OB; [apply Qu|apply Qv|lia]. }
      destruct (NB0 e He) as (x & Hx & _). rewrite (HX0 _ _ Hx). eapply BX0; [|exact BO| |exact Hx]; [|apply CO; auto].
      intros g Ig. apply IP. eapply Permutation_in; [exact PO|exact Ig].
    - intros IP NB j e He. destruct (Q _ _ He) as (x & Hx). rewrite (HX1 _ _ Hx). eapply BX1; [|exact NB|exact He|exact Hx]. intros g Ig. apply IP, Ig. }
  eexists; exists X0, X1. split; [reflexivity|]. split; [etransitivity; [symmetry; apply SORT|exact PE]|]. split; [exact D|].
  apply SORT. apply ev_preorder.
  eapply Permutation_Forall; [symmetry; exact PE|]. apply Forall_app. split.
  - eapply Permutation_Forall; [apply entries_split, L|].
    assert (GE : forall k e, nth_error E k = Some e -> entry_ok e /\ nan (X1 (start + k)) = false /\ nan (X0 (start + opos e)) = false).
    { intros k e He. rewrite Forall_forall in ENT. split; [apply ENT; eapply nth_error_In, He|]. destruct D as (D & _).
      assert (k < n) by (rewrite <- E_length; apply nth_error_Some; congruence).
      pose proof (proj2 (old_idx_of e (nth_error_In _ _ He))). split; apply D; lia. }
    apply Forall_app. split.
    + apply Forall_forall. intros v Hv. apply In_nth_error in Hv. destruct Hv as [k Hv]. rewrite numbered_nth in Hv.
      destruct (nth_error E k) as [e|] eqn:He; cbn in Hv; [|discriminate]. injection Hv as <-. destruct (GE k e He) as ((Q1 & Q2 & Q3 & Q4) & Q5 & Q6).
      unfold ev_num, main_event. cbn. split.
      * unfold from_above, le_old. destruct (le_old_seg e); [exact Q6|]. destruct (le_enter e); [exact Q3|exact Q6].
      * destruct (le_exit e); [exact Q4|exact Q5].
    + apply Forall_forall. intros v Hv. apply in_concat in Hv. destruct Hv as (vs & Hvs & Hv). apply In_nth_error in Hvs. destruct Hvs as [k Hvs]. rewrite numbered_nth in Hvs.
      destruct (nth_error E k) as [e|] eqn:He; cbn in Hvs; [|discriminate]. injection Hvs as <-. destruct (GE k e He) as ((Q1 & Q2 & Q3 & Q4) & Q5 & Q6).
      unfold fresh_event in Hv. destruct (le_old_seg e); [|destruct Hv]. destruct Hv as [<-|[]]. split; assumption.
  - rewrite Forall_map. apply Forall_forall. intros h Hh. destruct (HS h Hh) as (_ & Q1 & Q2). split; assumption.
Qed.

Theorem range_desc buf : exists evs buf' X0 X1, range_events a eps lower upper at_y sort_by s buf c = Ok (evs, buf') /\
  Permutation evs (entries_events X0 X1 start E ++ map hor_event (range_horizontals s c)) /\ desc X0 X1 /\ StronglySorted (fun x z => ev_cmp x z <> Gt) evs.
Proof.
  destruct (lone c) eqn:L.
  - destruct (lone_desc buf L) as (evs & X & A & -> & B & C). exists (entries_events X X start E ++ map hor_event (range_horizontals s c)), buf, X, X. auto.
  - destruct (full_desc buf L) as (evs & X0 & X1 & A & B & C). exists evs, E, X0, X1. auto.
Qed.
End Desc.
