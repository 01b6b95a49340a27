(** The two segments of a corner are in one range. *)
From Coq Require Import List Bool ZArith Arith Lia Permutation Sorted.
From Verif Require Import F64 F64Arith TreeVecModel GeomModel SegmentsModel SegmentsSpec SegmentsProofs CurveOrderModel CurveOrderProofs SweepModel SweepSpec
  SweepProofs2 SweepProofs3 SweepProofs4 SweepProofs5 SweepProofs6 SweepProofs7 SweepProofs8 SweepProofs10 RangeModel RangeSpec RangeProofs3 RangeProofs4 RangeProofs5 PropsSweep PropsRange TopoModel TopoSpec TopoProofs6 TopoProofs7 WindSpec.
Import ListNotations.

Section Corner.
Context {T : Type}.
Variable tag : list T.
Variable a : arena.
Variable eps : f64.
Variables lower upper : segment -> f64 -> f64 -> f64.
Variable at_y : segment -> f64 -> f64.
Variable sort_by : forall A : Type, (A -> A -> comparison) -> list A -> list A.
Hypothesis SP : sweepable a.
Hypothesis CC : closed_contours a tag.
Variable s : sweeper.
Variable before : list lentry.
Hypothesis TL : tline a eps lower upper at_y sort_by s before.
Hypothesis IV : intervals_ok a eps lower upper s.
Hypothesis BX : boxes_ordered a eps lower upper (sw_y s) (sw_line s).
Hypothesis R1 : forall k e, nth_error (sw_line s) k = Some e -> own_end e = true -> exists d, In d (sw_changed s) /\ in_interval k d /\ reach a eps lower upper (sw_y s) (sw_line s) (end_pos a e) d.
Hypothesis R2 : forall n h, nth_error (sw_horiz s) n = Some h -> exists d q, In d (sw_changed s) /\ ci_hor d = Some q /\ fst q <= n < snd q /\
     forall x, fle (px (seg_start (seg_def a h))) x = true -> fle x (px (seg_end (seg_def a h))) = true -> reach a eps lower upper (sw_y s) (sw_line s) x d.
Notation y := (sw_y s).
Notation line := (sw_line s).
Notation reach := (reach a eps lower upper y line).

Lemma one_interval c d k : In c (sw_changed s) -> In d (sw_changed s) -> in_interval k c -> in_interval k d -> c = d.
Proof.
  intros Hc Hd [C1 C2] [D1 D2]. eapply (apart_unique (sw_changed s) c d k); try assumption; try lia; [apply (iv_apart _ _ _ _ _ IV)|].
  apply Forall_forall. intros z Hz. apply (iv_bounds _ _ _ _ _ IV) in Hz. unfold ci_wf. lia.
Qed.
(** The entry of a member. *)
Definition slot (i k : nat) : Prop := exists e, nth_error line k = Some e /\ In i (le_seg e :: match le_old_seg e with Some p => [p] | None => [] end).
Lemma slot_slanted i k : slot i k -> slanted a i = true.
Proof.
  intros (e & He & Hi). assert (X : In i (members line)) by (apply in_flat_map; exists e; split; [eapply nth_error_In, He|exact Hi]). apply (tl_all _ _ _ _ _ _ _ _ TL) in X. tauto.
Qed.
Lemma slot_range i k c : slot i k -> In c (sw_changed s) -> (In i (range_members s c) <-> in_interval k c).
Proof.
  intros SL Hc. pose proof (slot_slanted i k SL) as SI. destruct SL as (e & He & Hi). pose proof (iv_bounds _ _ _ _ _ IV c Hc) as B. unfold range_members. rewrite in_app_iff. unfold in_interval. split.
  - intros [H|H].
    + apply in_flat_map in H. destruct H as (f & Hf & Hf'). apply In_nth_error in Hf. destruct Hf as [n Hn]. unfold range_entries in Hn.
      assert (n < snd (ci_segs c) - fst (ci_segs c)). { assert (X : n < length (firstn (snd (ci_segs c) - fst (ci_segs c)) (skipn (fst (ci_segs c)) line))) by (apply nth_error_Some; congruence). rewrite firstn_length in X. lia. }
      rewrite nth_error_firstn in Hn by assumption. rewrite nth_error_skipn in Hn. assert (fst (ci_segs c) + n = k). { eapply (mem_pos a eps lower upper at_y sort_by s before TL); eassumption. } lia.
    + exfalso. assert (X : In i (sw_horiz s)). { unfold range_horizontals in H. destruct (ci_hor c) as [q|]; [|destruct H]. apply in_firstn in H. destruct H as (k' & _ & H). apply nth_error_In in H. apply in_skipn in H. destruct H as (k2 & _ & H). apply nth_error_In in H. exact H. }
      apply (tl_hor _ _ _ _ _ _ _ _ TL) in X. destruct X as (_ & X & _). congruence.
  - intros H. left. apply in_flat_map. exists e. split; [|exact Hi]. apply (nth_error_In _ (k - fst (ci_segs c))). unfold range_entries. rewrite nth_error_firstn, nth_error_skipn by lia. rewrite <- He. f_equal. lia.
Qed.

(** A segment with an end of its own at the height of the line, at [x]. *)
Definition home (i : nat) (x : f64) : Prop := exists d, In d (sw_changed s) /\ (forall c, In c (sw_changed s) -> (In i (range_members s c) <-> c = d)) /\ reach x d.
Lemma home_meet i j x x' c : nan x = false -> nan x' = false -> key x = key x' -> home i x -> home j x' -> In c (sw_changed s) ->
  (In i (range_members s c) <-> In j (range_members s c)).
Proof.
  intros N N' K (d & D1 & D2 & D3) (d' & E1 & E2 & E3) Hc. rewrite (D2 c Hc), (E2 c Hc). assert (d = d') as ->; [|tauto].
  pose proof (reach_meet a eps lower upper y line x x' d d' BX N N' K D3 E3) as X. pose proof (reach_meet a eps lower upper y line x' x d' d BX N' N (eq_sym K) E3 D3) as X'.
  destruct (in_split _ _ D1) as (l1 & l2 & E). pose proof (iv_apart _ _ _ _ _ IV) as AP. rewrite E in E1, AP. apply SSorted_app in AP. destruct AP as (_ & A2 & A3). inversion A2 as [|? ? _ A4]; subst.
  apply in_app_iff in E1. destruct E1 as [E1|[E1|E1]]; [|exact E1|]; exfalso.
  - specialize (A3 d' d E1 (or_introl eq_refl)). cbv beta in A3. lia.
  - rewrite Forall_forall in A4. apply A4 in E1. lia.
Qed.

(** The end points of [i] at the height of the line. *)
Lemma slanted_lt i : registered a i -> slanted a i = true -> (key (start_y a i) < key (end_y a i))%Z.
Proof. intros R S. apply (slanted_key a SP i R), S. Qed.
Lemma own_home i k e : nth_error line k = Some e -> le_old_seg e = None -> le_seg e = i ->
  (key (start_y a i) = key y -> home i (px (seg_start (seg_def a i)))) /\ (key (end_y a i) = key y -> home i (px (seg_end (seg_def a i)))).
Proof.
  intros He HO <-. pose proof (tl_ok _ _ _ _ _ _ _ _ TL) as OK. rewrite Forall_forall in OK. specialize (OK e (nth_error_In _ _ He)). unfold SweepProofs8.post_ok in OK. rewrite HO in OK. destruct OK as ((RG & SL & _) & OX & OE).
  pose proof (slanted_lt _ RG SL) as LT.
  assert (SLOT : slot (le_seg e) k) by (exists e; split; [exact He|left; reflexivity]).
  assert (H : own_end e = true -> home (le_seg e) (end_pos a e)).
  { intros O. destruct (R1 k e He O) as (d & D1 & D2 & D3). exists d. split; [exact D1|]. split; [|exact D3]. intros c Hc. rewrite (slot_range _ k c SLOT Hc). split; [intros X; eapply one_interval; eassumption|intros ->; exact D2]. }
  unfold own_end, end_pos in H. rewrite HO in H. split; intros K.
  - apply OE in K. rewrite K in H. apply H. reflexivity.
  - destruct (le_enter e) eqn:EN; [exfalso; assert (key (start_y a (le_seg e)) = key y) by (apply OE; reflexivity); lia|]. apply OX in K. rewrite K in H. apply H. reflexivity.
Qed.
Lemma hor_home i x : In i (sw_horiz s) -> fle (px (seg_start (seg_def a i))) x = true -> fle x (px (seg_end (seg_def a i))) = true -> home i x.
Proof.
  intros Hi X1 X2. apply In_nth_error in Hi. destruct Hi as [n Hn]. destruct (R2 n i Hn) as (d & q & D1 & D2 & D3 & D4). exists d. split; [exact D1|]. split; [|apply D4; assumption].
  assert (Ln : n < length (sw_horiz s)) by (apply nth_error_Some; congruence).
  intros c Hc. unfold range_members. rewrite in_app_iff. split.
  - intros [H|H].
    + exfalso. assert (M : In i (members line)). { apply in_flat_map in H. destruct H as (e & He & H). unfold range_entries in He. apply in_firstn in He. destruct He as (k & _ & He). apply nth_error_In in He. apply in_skipn in He. destruct He as (k' & _ & He). apply in_flat_map. exists e. split; [eapply nth_error_In, He|exact H]. }
      apply (tl_all _ _ _ _ _ _ _ _ TL) in M. apply nth_error_In in Hn. apply (tl_hor _ _ _ _ _ _ _ _ TL) in Hn. destruct Hn as (_ & Hn & _). destruct M as (_ & M & _). congruence.
    + unfold range_horizontals in H. destruct (ci_hor c) as [q'|] eqn:E; [|destruct H]. apply in_firstn in H. destruct H as (k & K1 & H). rewrite nth_error_skipn in H.
      assert (fst q' + k = n). { pose proof (tl_horiz _ _ _ _ _ _ _ _ TL) as ND. rewrite NoDup_nth_error in ND. apply ND; [apply nth_error_Some; congruence|congruence]. }
      destruct (iv_hor _ _ _ _ _ IV n Ln) as (c0 & q0 & _ & _ & _ & U). rewrite (U c q' Hc E); [|lia]. symmetry. apply (U d q D1 D2 D3).
  - intros ->. right. unfold range_horizontals. rewrite D2. apply in_firstn. exists (n - fst q). split; [lia|]. rewrite nth_error_skipn. rewrite <- Hn. f_equal. lia.
Qed.

(** A member of the line at a corner either has an end of its own, or shares its entry with the other segment of the corner. *)
Lemma nonnan_y : nan y = false. Proof. apply (tl_y _ _ _ _ _ _ _ _ TL). Qed.
Lemma reg_num i : registered a i -> nan (start_y a i) = false /\ nan (end_y a i) = false /\ nan (px (seg_start (seg_def a i))) = false /\ nan (px (seg_end (seg_def a i))) = false.
Proof. intros R. destruct (sp_finite _ SP _ (registered_lt _ SP _ R)) as [[F1 F2] [F3 F4]]. unfold start_y, end_y. repeat split; apply fin_nonnan; assumption. Qed.
Lemma down i : registered a i -> (key (start_y a i) <= key (end_y a i))%Z.
Proof. intros R. destruct (sp_down _ SP _ (registered_lt _ SP _ R)) as [D _]. destruct (reg_num i R) as (N1 & N2 & _). fk. zb. exact D. Qed.
Lemma has_slot i : registered a i -> slanted a i = true -> key (start_y a i) = key y \/ key (end_y a i) = key y -> exists k, slot i k.
Proof.
  intros R S K. pose proof (reg_num i R) as (N1 & N2 & _). pose proof nonnan_y. pose proof (down i R).
  assert (X : In i (members line)) by (apply (tl_all _ _ _ _ _ _ _ _ TL); split; [exact R|]; split; [exact S|]; split; fk; zb; lia).
  apply in_flat_map in X. destruct X as (e & He & Hi). apply In_nth_error in He. destruct He as [k He]. exists k, e. auto.
Qed.
Inductive kind (i : nat) : Prop :=
| own : (key (start_y a i) = key y -> home i (px (seg_start (seg_def a i)))) -> (key (end_y a i) = key y -> home i (px (seg_end (seg_def a i)))) -> kind i
| above q k : slot i k -> slot q k -> registered a q -> (key (start_y a i) < key y)%Z -> key (end_y a i) = key y -> key (start_y a q) = key y -> (key y < key (end_y a q))%Z -> sweep_prev a q = Ok (Some i) -> kind i
| below p k : slot p k -> slot i k -> registered a p -> (key (start_y a p) < key y)%Z -> key (end_y a p) = key y -> key (start_y a i) = key y -> (key y < key (end_y a i))%Z -> sweep_prev a i = Ok (Some p) -> kind i.
Lemma kind_of i : registered a i -> key (start_y a i) = key y \/ key (end_y a i) = key y -> kind i.
Proof.
  intros R K. destruct (slanted a i) eqn:S.
  - destruct (has_slot i R S K) as (k & e & He & Hi). pose proof (tl_ok _ _ _ _ _ _ _ _ TL) as OK. rewrite Forall_forall in OK. specialize (OK e (nth_error_In _ _ He)). unfold SweepProofs8.post_ok in OK. destruct (le_old_seg e) as [p|] eqn:EO.
    + destruct OK as ((RQ & SQ & _) & _ & _ & K1 & (RP & _) & K2 & K3 & SPV). pose proof (slanted_lt _ RQ SQ) as LT.
      assert (S1 : slot p k) by (exists e; split; [exact He|rewrite EO; right; left; reflexivity]). assert (S2 : slot (le_seg e) k) by (exists e; split; [exact He|left; reflexivity]).
      destruct Hi as [<-|[<-|[]]]; [eapply below with (p := p)|eapply above with (q := le_seg e)]; try eassumption; lia.
    + destruct Hi as [Hi|[]]. destruct (own_home i k e He EO Hi) as [A B]. apply own; assumption.
  - pose proof (registered_lt _ SP _ R) as L. assert (K0 : key (start_y a i) = key (end_y a i)).
    { destruct (sp_down _ SP _ L) as [D _]. destruct (reg_num i R) as (N1 & N2 & _). unfold slanted in S. fk. zb. lia. }
    destruct (reg_num i R) as (N1 & N2 & N3 & N4). pose proof nonnan_y as NY.
    assert (IH : In i (sw_horiz s)) by (apply (tl_hor _ _ _ _ _ _ _ _ TL); split; [exact R|]; split; [exact S|]; fk; zb; lia).
    pose proof (sp_right _ SP i L S) as RT. apply own; intros _; (apply hor_home; [exact IH| |]); fk; zb; lia.
Qed.

Lemma prev_links q p : sweep_prev a q = Ok (Some p) -> if orient a q then nth_error (contour_prev a) q = Some (Some p) else nth_error (contour_next a) q = Some (Some p).
Proof.
  unfold sweep_prev, orient. destruct (nth_error (orientation a) q) as [[|]|]; cbn; try discriminate; intros H.
  - destruct (nth_error (contour_prev a) q); [|discriminate]. cbn in H. congruence.
  - destruct (nth_error (contour_next a) q); [|discriminate]. cbn in H. congruence.
Qed.
Lemma point_eq_keys p q : point_eq p q = true -> key (px p) = key (px q) /\ key (py p) = key (py q).
Proof.
  intros H. unfold point_eq in H. apply andb_true_iff in H. destruct H as [H1 H2].
  destruct (feq_nonnan _ _ H1) as [N1 N2]. destruct (feq_nonnan _ _ H2) as [N3 N4]. fk. zb. lia.
Qed.
Theorem corners : forall c, In c (sw_changed s) -> corners_together a s c.
Proof.
  intros c Hc i j Ri Rj FO KY. pose proof nonnan_y as NY. destruct FO as (F1 & F2 & F3). apply point_eq_keys in F3. destruct F3 as [KX F3].
  destruct (reg_num i Ri) as (N1 & N2 & N3 & N4). destruct (reg_num j Rj) as (M1 & M2 & M3 & M4).
  assert (KI : key (py (seg_head a i)) = key y) by (destruct (feq_nonnan _ _ KY) as [Q1 Q2]; fk; zb; lia). clear KY. rewrite KI in F3. symmetry in F3.
  assert (SAME : forall k, slot i k -> slot j k -> (In i (range_members s c) <-> In j (range_members s c))).
  { intros k S1 S2. rewrite (slot_range i k c S1 Hc), (slot_range j k c S2 Hc). tauto. }
  assert (KI' : key (if orient a i then end_y a i else start_y a i) = key y) by (unfold seg_head in KI; destruct (orient a i); exact KI).
  assert (KJ' : key (if orient a j then start_y a j else end_y a j) = key y) by (unfold seg_tail in F3; destruct (orient a j); exact F3).
  (* the segments whose start is shared *)
  assert (BELOW : forall q p, registered a q -> sweep_prev a q = Ok (Some p) -> registered a p -> key (start_y a q) = key y -> (key (start_y a p) < key y)%Z -> key (end_y a p) = key y ->
    (orient a q = true /\ orient a p = true /\ follows a p q) \/ (orient a q = false /\ orient a p = false /\ follows a q p)).
  { intros q p Rq SV Rp K1 K2 K3. apply prev_links in SV. destruct (orient a q) eqn:OQ.
    - left. split; [reflexivity|]. destruct (cc_prev _ _ CC q Rq) as (i' & Ri' & FO & _). assert (i' = p). { destruct FO as (_ & X & _). congruence. } subst i'. split; [|exact FO].
      destruct FO as (_ & _ & X). apply point_eq_keys in X. destruct X as [_ X]. unfold seg_head, seg_tail in X. rewrite OQ in X. destruct (orient a p); [reflexivity|]. unfold start_y in *. lia.
    - right. split; [reflexivity|]. destruct (cc_next _ _ CC q Rq) as (i' & Ri' & FO & _). assert (i' = p). { destruct FO as (X & _). congruence. } subst i'. split; [|exact FO].
      destruct FO as (_ & _ & X). apply point_eq_keys in X. destruct X as [_ X]. unfold seg_head, seg_tail in X. rewrite OQ in X. destruct (orient a p); [|reflexivity]. unfold start_y in *. lia. }
  destruct (kind_of i Ri) as [HS HE|q k S1 S2 Rq K1 K2 K3 K4 SV|p k S1 S2 Rp K1 K2 K3 K4 SV].
  { destruct (orient a i); auto. }
  - destruct (kind_of j Rj) as [HS' HE'|q k S1 S2 Rq K1 K2 K3 K4 SV|p k S1 S2 Rp K1 K2 K3 K4 SV].
    { destruct (orient a j); auto. }
    + assert (A : home i (px (seg_head a i))) by (unfold seg_head; destruct (orient a i); auto). assert (B : home j (px (seg_tail a j))) by (unfold seg_tail; destruct (orient a j); auto).
      eapply home_meet; [| |exact KX|exact A|exact B|exact Hc]; [unfold seg_head; destruct (orient a i); assumption|unfold seg_tail; destruct (orient a j); assumption].
    + destruct (BELOW q j Rq SV Rj K3 K1 K2) as [(O1 & O2 & FO)|(O1 & O2 & FO)].
      * rewrite O2 in KJ'. lia.
      * destruct FO as (_ & X & _). assert (q = i) by congruence. subst q. apply (SAME k); assumption.
    + destruct (BELOW j p Rj SV Rp K3 K1 K2) as [(O1 & O2 & FO)|(O1 & O2 & FO)].
      * destruct FO as (_ & X & _). assert (p = i) by congruence. subst p. apply (SAME k); assumption.
      * rewrite O1 in KJ'. lia.
  - destruct (BELOW q i Rq SV Ri K3 K1 K2) as [(O1 & O2 & FO)|(O1 & O2 & FO)].
    + destruct FO as (X & _ & _). assert (q = j) by congruence. subst q. apply (SAME k); assumption.
    + rewrite O2 in KI'. lia.
  - destruct (BELOW i p Ri SV Rp K3 K1 K2) as [(O1 & O2 & FO)|(O1 & O2 & FO)].
    + rewrite O1 in KI'. lia.
    + destruct FO as (X & _ & _). assert (p = j) by congruence. subst p. apply (SAME k); assumption.
Qed.
End Corner.
