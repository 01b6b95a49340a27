(** Proofs about feasible bands. *)
From Coq Require Import List Bool ZArith Arith Lia Permutation Sorted.
From Verif Require Import F64 F64Arith TreeVecModel GeomModel SegmentsModel SegmentsSpec CurveOrderModel CurveOrderProofs
  SweepModel SweepSpec RangeModel RangeSpec.
Import ListNotations.

Ltac inv_ok H := repeat match type of H with
  | rbind ?r _ = Ok _ => let v := fresh "v" in let E := fresh "E" in destruct r as [v|] eqn:E; cbn [rbind] in H; [|discriminate H]
  end.

Lemma fmin_k x y : nan x = false -> nan y = false -> key (fmin x y) = Z.min (key x) (key y).
Proof. intros. apply fmin_nonnan; assumption. Qed.
Lemma fmax_k x y : nan x = false -> nan y = false -> key (fmax x y) = Z.max (key x) (key y).
Proof. intros. apply fmax_nonnan; assumption. Qed.
Lemma fmin_n x y : nan x = false -> nan y = false -> nan (fmin x y) = false.
Proof. intros. apply fmin_nonnan; assumption. Qed.
Lemma fmax_n x y : nan x = false -> nan y = false -> nan (fmax x y) = false.
Proof. intros. apply fmax_nonnan; assumption. Qed.
Lemma fle_of_key x y : nan x = false -> nan y = false -> (key x <= key y)%Z -> fle x y = true.
Proof. intros A B C. rewrite fle_key by assumption. apply Z.leb_le, C. Qed.
Lemma fle_to_key x y : fle x y = true -> nan x = false /\ nan y = false /\ (key x <= key y)%Z.
Proof. intros H. destruct (fle_nonnan _ _ H) as [A B]. rewrite fle_key in H by assumption. apply Z.leb_le in H. auto. Qed.

Section Bands.
Variable a : arena.
Variable eps : f64.
Variables lower upper : segment -> f64 -> f64 -> f64.
Variable at_y : segment -> f64 -> f64.
Variable y : f64.
Notation placed := (placed a eps lower upper at_y y).
Notation band_lo := (band_lo a eps lower y).
Notation band_hi := (band_hi a eps upper y).
Notation feas_forward := (feas_forward a eps lower at_y).
Notation feas_backward := (feas_backward a eps upper).
Notation feasible := (feasible a eps lower upper at_y).
Variable f : lentry -> nat.

Lemma placed_facts i : placed i -> exists x, seg_at a i = Ok (seg_def a i) /\ x_at at_y (seg_def a i) y = Ok x /\
  nan x = false /\ nan (band_lo i) = false /\ nan (band_hi i) = false /\ x = at_y (seg_def a i) y.
Proof.
  intros (L & S & E & B1 & B2 & B3). exists (at_y (seg_def a i) y).
  unfold seg_at, seg_def. destruct (nth_error (segs a) i) as [g|] eqn:G; [|apply nth_error_None in G; unfold arena_len in L; lia].
  rewrite (nth_error_nth _ _ _ G). split; [reflexivity|]. unfold start_y, end_y, seg_def in S, E. rewrite (nth_error_nth _ _ _ G) in S, E.
  unfold x_at. rewrite S, E. split; [reflexivity|]. unfold RangeSpec.band_lo, RangeSpec.band_hi, seg_def in *. rewrite (nth_error_nth _ _ _ G) in *. auto.
Qed.

Lemma forward_ok : forall l m mx mn, Forall (fun e => placed (f e)) l -> nan m = false -> nan mx = false -> nan mn = false ->
  exists r mx' mn', feas_forward f y l m mx mn = Ok (r, mx', mn') /\ map fst r = l /\ no_nan (map snd r) /\
    nan mx' = false /\ nan mn' = false /\
    (key mx <= key mx')%Z /\ (key mn' <= key mn)%Z /\
    (forall e, In e l -> (key mn' <= key (at_y (seg_def a (f e)) y) <= key mx')%Z) /\
    (l <> [] -> (key mn' <= key mx')%Z) /\
    (forall k e lo, nth_error r k = Some (e, lo) -> (key m <= key lo)%Z /\ (key (band_lo (f e)) <= key lo)%Z /\
       (key lo = key m \/ exists j e', j <= k /\ nth_error l j = Some e' /\ key lo = key (band_lo (f e')))) /\
    (forall j k e lo e' lo', j <= k -> nth_error r j = Some (e, lo) -> nth_error r k = Some (e', lo') -> (key lo <= key lo')%Z).
Proof.
  induction l as [|e l IH]; intros m mx mn F Nm Nx Nn; cbn [RangeModel.feas_forward].
  - exists [], mx, mn. split; [reflexivity|]. split; [reflexivity|]. split; [constructor|]. split; [assumption|]. split; [assumption|].
    split; [lia|]. split; [lia|]. split; [intros ? []|]. split; [congruence|]. split; [intros [|] ? ?; discriminate|]. intros [|] [|]; discriminate.
  - inversion F as [|? ? P F']; subst. destruct (placed_facts _ P) as (x & -> & Hx & Nxx & Nl & Nh & B). cbn [rbind]. rewrite Hx. cbn [rbind].
    unfold RangeSpec.band_lo in Nl. set (lo := lower (seg_def a (f e)) y eps) in *.
    destruct (IH (fmax m lo) (fmax mx x) (fmin mn x) F' (fmax_n _ _ Nm Nl) (fmax_n _ _ Nx Nxx) (fmin_n _ _ Nn Nxx))
      as (r & mx' & mn' & -> & Mf & NN & Nx' & Nn' & Lx & Ln & Lb & _ & Hk & Hj).
    cbn [rbind]. rewrite fmax_k in Lx by assumption. rewrite fmin_k in Ln by assumption.
    exists ((e, fmax m lo) :: r), mx', mn'. split; [reflexivity|]. cbn [map fst snd]. split; [congruence|].
    split; [constructor; [apply fmax_n; assumption|assumption]|]. split; [assumption|]. split; [assumption|].
    split; [lia|]. split; [lia|]. split.
    { intros e' [<-|I]; [|apply Lb, I]. rewrite <- B. lia. }
    split; [lia|]. split.
    + intros [|k] e' lo' Hn; cbn [nth_error] in Hn.
      * injection Hn as <- <-. rewrite fmax_k by assumption. unfold RangeSpec.band_lo. fold lo. split; [lia|]. split; [lia|].
        destruct (Z.max_spec (key m) (key lo)) as [[_ ->]|[_ ->]]; [right|left; reflexivity]. exists 0, e. cbn. auto.
      * destruct (Hk _ _ _ Hn) as (A & A2 & A3). rewrite fmax_k in A, A3 by assumption. split; [lia|]. split; [lia|].
        destruct A3 as [A3|(j & e1 & J1 & J2 & J3)]; [|right; exists (S j), e1; cbn; split; [lia|auto]].
        rewrite A3. destruct (Z.max_spec (key m) (key lo)) as [[_ ->]|[_ ->]]; [right|left; reflexivity]. exists 0, e. cbn. split; [lia|auto].
    + intros [|j] [|k] e1 l1 e2 l2 J H1 H2; cbn [nth_error] in H1, H2; try lia.
      * injection H1 as <- <-. injection H2 as <- <-. lia.
      * injection H1 as <- <-. destruct (Hk _ _ _ H2) as (A & _). exact A.
      * eapply Hj; [|exact H1|exact H2]. lia.
Qed.

Lemma backward_ok mx mn : nan mx = false -> nan mn = false -> forall l, Forall (fun p => placed (f (fst p)) /\ nan (snd p) = false) l ->
  exists r m, feas_backward f y l mx mn = Ok (r, m) /\ map (fun p => fst (fst p)) r = map fst l /\ nan m = false /\
    (key m = key finfinity \/ exists j e, nth_error (map fst l) j = Some e /\ key m = key (band_hi (f e))) /\
    (forall k e lo hi, nth_error r k = Some (e, lo, hi) -> exists lo0 m', nth_error l k = Some (e, lo0) /\ nan lo = false /\ nan hi = false /\
       key lo = Z.max (key lo0) (key mn) /\ key hi = Z.min m' (key mx) /\ (key m <= m' <= key (band_hi (f e)))%Z /\
         (m' = key finfinity \/ exists j e', k <= j /\ nth_error (map fst l) j = Some e' /\ m' = key (band_hi (f e')))) /\
    (forall j k e lo hi e' lo' hi', j <= k -> nth_error r j = Some (e, lo, hi) -> nth_error r k = Some (e', lo', hi') -> (key hi <= key hi')%Z).
Proof.
  intros Nx Nn. induction l as [|[e lo0] l IH]; intros F; cbn [RangeModel.feas_backward].
  - exists [], finfinity. split; [reflexivity|]. split; [reflexivity|]. split; [reflexivity|]. split; [left; reflexivity|].
    split; [intros [|] ? ? ?; discriminate|]. intros [|] [|]; discriminate.
  - inversion F as [|? ? [P N0] F']; subst. cbn [fst snd] in *. destruct (IH F') as (r & m & -> & Mf & Nm & Hm & Hk & Hj). cbn [rbind].
    destruct (placed_facts _ P) as (x & -> & _ & _ & _ & Nh & _). cbn [rbind]. fold (band_hi (f e)). set (hi := band_hi (f e)) in *.
    change (upper (seg_def a (f e)) y eps) with hi.
    set (m2 := fmin m hi). assert (N2 : nan m2 = false) by (apply fmin_n; assumption).
    assert (K2 : key m2 = Z.min (key m) (key hi)) by (apply fmin_k; assumption).
    exists ((e, fmax lo0 mn, fmin m2 mx) :: r), m2. split; [reflexivity|]. cbn [map fst]. split; [congruence|]. split; [exact N2|].
    assert (HM2 : key m2 = key finfinity \/ exists j e', nth_error (e :: map fst l) j = Some e' /\ key m2 = key (band_hi (f e'))).
    { rewrite K2. destruct (Z.min_spec (key m) (key hi)) as [[_ ->]|[_ ->]].
      - destruct Hm as [Hm|(j & e' & H1 & H2)]; [left; exact Hm|right; exists (S j), e'; auto].
      - right. exists 0, e. auto. }
    split; [exact HM2|]. split.
    + intros [|k] e1 l1 h1 H1; cbn [nth_error] in H1.
      * injection H1 as <- <- <-. exists lo0, (key m2). split; [reflexivity|]. split; [apply fmax_n; assumption|]. split; [apply fmin_n; assumption|].
        split; [apply fmax_k; assumption|]. split; [apply fmin_k; assumption|]. fold hi. split; [lia|].
        destruct HM2 as [HM2|(j & e' & A & B)]; [left; exact HM2|right; exists j, e'; split; [lia|auto]].
      * destruct (Hk _ _ _ _ H1) as (lo1 & m' & A1 & A2 & A3 & A4 & A5 & A6 & A7). exists lo1, m'. cbn [nth_error].
        do 5 (split; [assumption|]). split; [lia|]. destruct A7 as [A7|(j & e' & B0 & B1 & B2)]; [left; exact A7|].
        right. exists (S j), e'. cbn. split; [lia|auto].
    + intros [|j] [|k] e1 l1 h1 e2 l2 h2 J H1 H2; cbn [nth_error] in H1, H2; try lia.
      * injection H1 as <- <- <-. injection H2 as <- <- <-. lia.
      * injection H1 as <- <- <-. destruct (Hk _ _ _ _ H2) as (lo1 & m' & A1 & A2 & A3 & A4 & A5 & A6 & A7). rewrite fmin_k by assumption. lia.
      * eapply Hj; [|exact H1|exact H2]. lia.
Qed.

Lemma key_le_inf x : nan x = false -> (key x <= key finfinity)%Z.
Proof.
  intros N. assert (H : fle x finfinity = true).
  { unfold fle. destruct x as [[]|[]| |[]]; try reflexivity; discriminate. }
  rewrite fle_key in H by (assumption || reflexivity). apply Z.leb_le, H.
Qed.
Lemma key_ge_ninf x : nan x = false -> (key fneginf <= key x)%Z.
Proof.
  intros N. assert (H : fle fneginf x = true).
  { unfold fle. destruct x as [[]|[]| |[]]; try reflexivity; discriminate. }
  rewrite fle_key in H by (assumption || reflexivity). apply Z.leb_le, H.
Qed.

(** The bands are inside the tolerance bands and, if those are weakly ordered, not empty and in order. *)
Lemma feasible_ok l : Forall (fun e => placed (f e)) l ->
  exists out, feasible f y l = Ok out /\ map (fun p => fst (fst p)) out = l /\
    Forall (fun p => nan (snd (fst p)) = false /\ nan (snd p) = false) out /\
    (forall k e lo hi, nth_error out k = Some (e, lo, hi) -> (key (band_lo (f e)) <= key lo)%Z /\ (key hi <= key (band_hi (f e)))%Z) /\
    (forall j k e lo hi e' lo' hi', j <= k -> nth_error out j = Some (e, lo, hi) -> nth_error out k = Some (e', lo', hi') ->
       (key lo <= key lo')%Z /\ (key hi <= key hi')%Z) /\
    ((forall e, In e l -> in_band a eps lower upper y (f e) (at_y (seg_def a (f e)) y)) -> bands_ordered a eps lower upper y (map f l) ->
       forall k e lo hi, nth_error out k = Some (e, lo, hi) -> (key lo <= key hi)%Z).
Proof.
  intros F. unfold RangeModel.feasible.
  destruct (forward_ok l fneginf fneginf finfinity F eq_refl eq_refl eq_refl)
    as (r & mx & mn & -> & Mf & NN & Nx & Nn & _ & _ & Lb & Lne & Hk & Hj). cbn [rbind].
  destruct (backward_ok mx mn Nx Nn r) as (out & m & -> & Mo & Nm & _ & Gk & Gj).
  { rewrite <- Mf in F. rewrite Forall_map in F. unfold no_nan in NN. rewrite Forall_map in NN. rewrite Forall_forall in *. intros p Ip. split; auto. }
  cbn [rbind]. exists out. split; [reflexivity|]. split; [congruence|].
  assert (LN : forall k e lo hi, nth_error out k = Some (e, lo, hi) -> nan lo = false /\ nan hi = false).
  { intros k e lo hi H. destruct (Gk _ _ _ _ H) as (? & ? & _ & A & B & _). auto. }
  split. { apply Forall_forall. intros [[e lo] hi] I. apply In_nth_error in I. destruct I as [k I]. exact (LN _ _ _ _ I). }
  split; [|split].
  - intros k e lo hi H. destruct (Gk _ _ _ _ H) as (lo0 & m' & A1 & A2 & A3 & A4 & A5 & A6 & _). destruct (Hk _ _ _ A1) as (_ & B & _). lia.
  - intros j k e lo hi e' lo' hi' J H1 H2. split; [|eapply Gj; eauto].
    destruct (Gk _ _ _ _ H1) as (lo0 & m' & A1 & _ & _ & A4 & _). destruct (Gk _ _ _ _ H2) as (lo1 & m1 & B1 & _ & _ & B4 & _).
    pose proof (Hj _ _ _ _ _ _ J A1 B1). lia.
  - intros IB BO k e lo hi H. assert (Lb' : forall e, In e l -> (key (band_lo (f e)) <= key mx)%Z /\ (key mn <= key (band_hi (f e)))%Z /\ (key (band_lo (f e)) <= key (band_hi (f e)))%Z).
    { intros e0 I0. destruct (IB _ I0) as [B1 B2]. apply fle_to_key in B1, B2. specialize (Lb _ I0). lia. }
    clear Lb. rename Lb' into Lb. destruct (Gk _ _ _ _ H) as (lo0 & m' & A1 & A2 & A3 & A4 & A5 & A6 & A7). destruct (Hk _ _ _ A1) as (_ & _ & B).
    assert (Ie : In e l) by (rewrite <- Mf; apply in_map_iff; exists (e, lo0); split; [reflexivity|eapply nth_error_In, A1]).
    assert (Nl : (key mn <= key mx)%Z) by (apply Lne; intros E; rewrite E in Ie; contradiction).
    rewrite A4, A5. rewrite Mf in A7.
    assert (M1 : (key mn <= m')%Z).
    { destruct A7 as [->|(j & e' & _ & J & ->)]; [apply key_le_inf, Nn|]. apply Lb. eapply nth_error_In, J. }
    assert (M2 : (key lo0 <= key mx)%Z).
    { destruct B as [->|(j & e' & _ & J & ->)]; [apply key_ge_ninf, Nx|]. apply Lb. eapply nth_error_In, J. }
    assert (M3 : (key lo0 <= m')%Z).
    { destruct B as [->|(j & e1 & J & J1 & ->)].
      - destruct A7 as [->|(i & e2 & _ & _ & ->)]; [apply key_ge_ninf; reflexivity|].
        destruct (nan (band_hi (f e2))) eqn:N; [|apply key_ge_ninf, N]. destruct (RangeSpec.band_hi _ _ _ _ _); try discriminate N. cbn [key]. vm_compute. discriminate.
      - destruct A7 as [->|(i & e2 & I & I1 & ->)].
        + destruct (nan (band_lo (f e1))) eqn:N; [|apply key_le_inf, N]. destruct (RangeSpec.band_lo _ _ _ _ _); try discriminate N. cbn [key]. vm_compute. discriminate.
        + destruct (Nat.eq_dec j i) as [->|Nji].
          * rewrite J1 in I1. injection I1 as <-. apply Lb. eapply nth_error_In, J1.
          * assert (Q : fle (band_lo (f e1)) (band_hi (f e2)) = true).
            { eapply (BO j i); [lia| |]; apply map_nth_error; assumption. }
            apply fle_to_key in Q. lia. }
    lia.
Qed.

(** Clamping into such bands, never going back. *)
Lemma clamp_n p lo s hi : nan p = false -> nan lo = false -> nan s = false -> nan hi = false ->
  nan (clamp p lo s hi) = false /\ key (clamp p lo s hi) = Z.min (Z.max (Z.max (key p) (key lo)) (key s)) (key hi).
Proof.
  intros A B C D. unfold clamp. assert (N1 := fmax_n _ _ A B). assert (N2 := fmax_n _ _ N1 C).
  split; [apply fmin_n; assumption|]. rewrite fmin_k, !fmax_k by assumption. reflexivity.
Qed.
End Bands.
