(** The order of the line, part 4: one step and the whole sweep. *)
From Coq Require Import List Bool ZArith Arith Lia Reals Lra Permutation Sorted.
From Verif Require Import F64 F64Arith TreeVecModel TreeVecSpec GeomModel SegmentsModel SegmentsSpec
  SegmentsProofs CurveOrderModel CurveOrderSpec CurveOrderProofs CurveOrderProofs2 CurveOrderProofs3
  SweepModel SweepSpec SweepProofs SweepProofs2 SweepProofs3 SweepProofs4 SweepProofs5 SweepProofs6 SweepProofs7 SweepProofs8 SweepProofs9 SweepProofs10
  OrderSpec OrderAbs OrderScan OrderProofs OrderProofs2.
Import ListNotations.

Section S.
Variable a : arena.
Variable eps : f64.
Variables cmp ccmp : nat -> nat -> curve_order.
Variables min_x max_x : segment -> f64.
Variables lower upper : segment -> f64 -> f64 -> f64.
Variables pp pph : (lentry -> bool) -> list lentry -> nat.
Variable X : nat -> f64 -> R.
Variable t : R.

Notation start_y := (start_y a).
Notation end_y := (end_y a).
Notation live := (SweepSpec.live a).
Notation registered := (SweepSpec.registered a).

Hypothesis SP : sweepable a.
Hypothesis CO : comparer_ok a cmp.
Hypothesis CC : comparer_ok a ccmp.
Hypothesis SO : search_ok pp.
Hypothesis SE : sees a eps cmp ccmp min_x max_x X t.
Variable tr : Prop.
Hypothesis TR_flip : tr -> forall i j, i <> j -> cmp j i = co_flip (cmp i j).
Hypothesis TR_trans : tr -> forall y i j k, nan y = false -> live y i -> live y j -> live y k ->
  eorder (cmp i j) y = Some Left -> eorder (cmp j k) y = Some Left -> eorder (cmp i k) y = Some Left.
Hypothesis TR : tr.
Notation INVS := (INVS a X t).
Notation act := (act a).
Notation POST := (POST a cmp tr).
Notation STEP := (STEP a eps cmp lower upper tr).
Notation PATH := (PATH a eps cmp ccmp min_x max_x pp tr).

Lemma int_act y e : nan y = false -> int_ok a y e -> act y (le_seg e) = negb (really_exits e).
Proof.
  intros N (_ & L & M). unfold really_exits. destruct (le_old_seg e) as [p|].
  - rewrite andb_false_r. apply act_key; [exact SP|exact N|exact L|]. destruct M as (_ & _ & M & _). destruct L as (R & S & _). apply (slanted_key _ SP _ R) in S. lia.
  - rewrite andb_true_r. destruct M as [M _]. destruct (le_exit e); cbn [negb].
    + destruct (act y (le_seg e)) eqn:A; [|reflexivity]. apply act_key in A; [|exact SP|exact N|exact L]. pose proof (proj1 M eq_refl). lia.
    + apply act_key; [exact SP|exact N|exact L|]. destruct L as (R & S & L). destruct (Z.eq_dec (key (end_y (le_seg e))) (key y)) as [K|K]; [apply M in K; discriminate|lia].
Qed.
Lemma new_segs_act y l : nan y = false -> Forall (int_ok a y) l -> new_segs l = filter (act y) (map le_seg l).
Proof.
  intros N F. unfold new_segs. induction F as [|e l He F IH]; [reflexivity|]. cbn [filter map]. rewrite (int_act y e N He).
  destruct (negb (really_exits e)); cbn [map]; [f_equal|]; exact IH.
Qed.
Lemma new_segs_unmark l l' : map unmark l' = map unmark l -> new_segs l' = new_segs l.
Proof.
  revert l. unfold new_segs. induction l' as [|e' l' IH]; intros [|e l] H; cbn [map] in H; try discriminate; [reflexivity|].
  pose proof (f_equal (hd (unmark e)) H) as H0. pose proof (f_equal (@tl _) H) as H1. cbn [hd tl] in H0, H1. cbn [filter].
  assert (E1 : really_exits e' = really_exits e /\ le_seg e' = le_seg e).
  { split; [exact (f_equal really_exits H0)|exact (f_equal le_seg H0)]. }
  destruct E1 as [-> E2]. destruct (negb (really_exits e)); cbn [map]; [rewrite E2; f_equal|]; apply IH; assumption.
Qed.

Lemma step_order fuel b s y s' sa s1 s2 s3 : POST b s -> STEP s y s' -> (key b < key y)%Z -> next_y a s = Some y ->
  PATH fuel s y s' sa s1 s2 s3 -> no_exit_at_crossing a eps cmp ccmp min_x max_x pp s ->
  INVS b (sw_int s) (new_segs (sw_line s)) -> INVS y (sw_int s') (new_segs (sw_line s')).
Proof.
  intros HP HT By Ey HA NX HI. destruct HA.
  assert (N : nan y = false) by apply pa_int2.
  assert (I0 : INVS y (sw_int sa) (map le_seg (sw_line sa))).
  { rewrite pa_line, pa_q0. apply (INVS_later a X t b); [lia|]. unfold carried. rewrite map_map. exact HI. }
  assert (I1 : INVS y (sw_int s1) (map le_seg (sw_line s1))).
  { refine (enter_all_order a eps cmp ccmp min_x max_x pp X t SP CO CC SO SE tr TR_flip y _ _ [] _ s1 pa_ent0 (st_enodup _ _ _ _ _ _ _ _ _ HT) pa_enters pa_enter _). exact I0. }
  assert (ND1 : NoDup (members (sw_line s1))) by apply pa_ent1.
  assert (L1 : Forall (fun e => live y (le_seg e)) (sw_line s1)) by apply (live_of_ent a y), pa_ent1.
  destruct (exit_all_order a eps cmp ccmp min_x max_x X t SP CO CC SE tr TR_flip y (sw_line s1) (sw_horiz s1) (exits_at a s y) ND1 L1 [] _ s2 pa_ext0 pa_exits pa_exit (SCN_nil _ _ _ _ _ _)) as [G SC].
  cbn [with_counts sw_int app] in G, SC.
  assert (I2 : INVS y (sw_int s2) (filter (act y) (map le_seg (sw_line s1)))).
  { apply (INVS_gaps a eps cmp ccmp min_x max_x X t SE y _ _ (map snd (exits_at a s y))); [eapply INVS_grows; eassumption|exact SC|].
    intros d Hd HD. apply (st_exits _ _ _ _ _ _ _ _ _ HT). apply in_map_iff in Hd. destruct Hd as (e & <- & He). rewrite Forall_forall in L1. specialize (L1 e He).
    split; [apply L1|]. split; [apply L1|]. destruct (Z.eq_dec (key (end_y (le_seg e))) (key y)) as [K|K]; [exact K|].
    assert (act y (le_seg e) = true); [|congruence]. apply act_key; [exact SP|exact N|exact L1|]. destruct L1 as (_ & _ & L1). lia. }
  assert (M2 : map le_seg (sw_line s2) = map le_seg (sw_line s1)).
  { rewrite (ex_line _ _ _ _ _ _ _ _ pa_ext2), map_map. apply map_ext. intros e. apply xm_seg. }
  rewrite <- M2 in I2. rewrite (new_segs_unmark _ _ pa_segs), pa_q3, (new_segs_act y _ N (in_ok _ _ _ _ _ _ _ pa_int3)).
  assert (UP : up_to_crossings a eps cmp ccmp min_x max_x pp s y = Ok s2).
  { unfold up_to_crossings. rewrite pa_advance. cbn [rbind]. rewrite pa_ne in *. fold (enters_at a s y). cbv zeta. rewrite pa_enter. cbn [rbind]. rewrite pa_nx1 in *. fold (exits_at a s y).
    rewrite pa_exit. reflexivity. }
  destruct (NX y s2 Ey UP) as [NE|NQ].
  - assert (AO : all_on a y (sw_line s2)).
    { apply Forall_forall. intros e He. pose proof (in_ok _ _ _ _ _ _ _ pa_int2) as F. rewrite Forall_forall in F. rewrite (int_act y e N (F e He)), (NE e He). reflexivity. }
    assert (FID : forall l, all_on a y l -> filter (act y) (map le_seg l) = map le_seg l).
    { intros l F. induction F as [|e l He F IH]; [reflexivity|]. cbn [map filter]. rewrite He, IH. reflexivity. }
    rewrite (FID _ AO) in I2.
    destruct (intersect_all_order a eps cmp ccmp min_x max_x X t SP CO CC SE tr TR_flip TR_trans TR y _ _ fuel s2 s3 pa_int2 AO pa_cross I2) as [I3 AO3].
    rewrite (FID _ AO3). exact I3.
  - assert (E32 : s3 = s2).
    { assert (Hq : match sw_int s2 with [] => True | ev :: _ => feq (ie_y ev) (sw_y s2) = false end).
      { pose proof (in_q _ _ _ _ _ _ _ pa_int2) as (_ & _ & Q3). rewrite (in_y _ _ _ _ _ _ _ pa_int2). destruct (sw_int s2) as [|ev evs]; [exact I|].
        specialize (NQ ev (or_introl eq_refl)). inversion Q3; subst. fk. zb. lia. }
      destruct fuel; cbn [intersect_all] in pa_cross; destruct (sw_int s2) as [|ev evs]; try congruence; rewrite Hq in pa_cross; congruence. }
    rewrite E32. exact I2.
Qed.

(** What the invariant says before the next line. *)
Lemma order_until s z : POST (sw_y s) s -> INVS (sw_y s) (sw_int s) (new_segs (sw_line s)) -> until_next a s z ->
  forall j k, comes_before (new_segs (sw_line s)) j k -> (X j z <= X k z + 2 * t)%R.
Proof.
  intros HP HI (Nz & Lz & NZ) j k (l1 & M & l2 & E).
  destruct (Rle_lt_dec (X j z) (X k z + 2 * t)) as [|AS]; [assumption|]. exfalso.
  assert (Ny : nan (sw_y s) = false) by apply (po_ahead _ _ _ _ _ HP).
  assert (Kz : (key (sw_y s) <= key z)%Z) by (fk; zb; lia).
  assert (LATE : (forall x, registered x -> slanted a x = true -> (key (sw_y s) < key (end_y x))%Z -> (key z < key (end_y x))%Z) /\ (forall ev, In ev (sw_int s) -> (key z < key (ie_y ev))%Z)).
  { destruct (next_y a s) as [y'|] eqn:EN.
    - destruct (next_y_spec _ _ _ _ (enter_sorted a SP) (exit_sorted a SP) (po_ahead _ _ _ _ _ HP) EN) as (N' & B' & FE & FX & (_ & QI & _)).
      specialize (NZ y' eq_refl). assert (key z < key y')%Z by (fk; zb; lia). split.
      + intros x R S K. destruct (end_split a cmp SP tr _ _ _ _ HP FX R S); lia.
      + intros ev Hev. rewrite Forall_forall in QI. specialize (QI _ Hev). unfold notabove in QI. lia.
    - destruct (next_y_none _ _ EN) as (_ & NE2 & NE3). split.
      + intros x R S K. assert (HIx : In (end_y x, x) (exit_ a)) by (apply (sp_exit _ SP); auto). rewrite <- (firstn_skipn (sw_next_exit s)), NE2, app_nil_r in HIx.
        pose proof (po_exit _ _ _ _ _ HP) as PE. rewrite Forall_forall in PE. apply PE in HIx. cbn [fst] in HIx. lia.
      + intros ev Hev. rewrite NE3 in Hev. destruct Hev. }
  destruct LATE as [LD LQ].
  destruct (HI z Nz Kz l1 j M k l2 E AS) as [(x & Hx & HD)|(u & i & N & k' & v & _ & _ & H)].
  - assert (HN : In x (new_segs (sw_line s))).
    { rewrite E. cbn [In] in Hx. rewrite in_app_iff in *. cbn [In] in *. rewrite in_app_iff in *. cbn [In]. intuition. }
    apply (post_new _ _ SP _ _ _ _ HP) in HN. destruct HN as [(R & S & _) K]. specialize (LD x R S K). unfold edone in HD. lia.
  - destruct H as [(x & _ & ev & Hev & K & _)|(x & _ & ev & Hev & K & _)]; specialize (LQ ev Hev); lia.
Qed.
End S.
