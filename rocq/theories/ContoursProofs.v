(** Proofs about contours: turning round a point. *)
From Coq Require Import List Bool ZArith Arith Lia Permutation.
From Verif Require Import F64 TreeVecModel SegmentsModel SegmentsProofs SweepModel TopoModel TopoSpec TopoProofs TopoProofs2 TopoProofs7 TopoProofs10 ContoursModel ContoursSpec.
Import ListNotations.

Section Turn.
Context {W : Type}.
Variable t : topo W.
Variable inside : W -> bool.
Hypothesis WF : well_formed t.

Definition icw (h : half) : bool := match winding_cw t h with Some w => inside w | None => false end.
Definition iccw (h : half) : bool := match winding_ccw t h with Some w => inside w | None => false end.
Lemma icw_other h : icw (other_half h) = iccw h.
Proof. unfold icw, iccw, winding_cw, winding_ccw, other_half. cbn [h_idx h_first]. destruct (h_first h); reflexivity. Qed.
Lemma iccw_other h : iccw (other_half h) = icw h.
Proof. unfold icw, iccw, winding_cw, winding_ccw, other_half. cbn [h_idx h_first]. destruct (h_first h); reflexivity. Qed.
Lemma other_other h : other_half (other_half h) = h.
Proof. destruct h as [i b]. unfold other_half. cbn. rewrite negb_involutive. reflexivity. Qed.
Lemma inside_cw_iff h : inside_cw t inside h <-> icw h = true.
Proof. unfold inside_cw, icw. destruct (winding_cw t h); split; [intros (w' & [= ->] & H); exact H | intros H; eauto | intros (w & X & _); discriminate X | discriminate]. Qed.
Lemma inside_ccw_iff h : inside_ccw t inside h <-> iccw h = true.
Proof. unfold inside_ccw, iccw. destruct (winding_ccw t h); split; [intros (w' & [= ->] & H); exact H | intros H; eauto | intros (w & X & _); discriminate X | discriminate]. Qed.

Notation n := (length (t_wind t)).
Lemma present_lt h : present t h -> h_idx h < n.
Proof. unfold present. intros H. rewrite <- (wf_deleted _ WF). apply nth_error_Some. congruence. Qed.
Lemma lt_wind h : h_idx h < n -> exists w, nth_error (t_wind t) (h_idx h) = Some w.
Proof. intros H. destruct (nth_error (t_wind t) (h_idx h)) eqn:E; [eauto|]. apply nth_error_None in E. lia. Qed.
Lemma in_cw_ok h : h_idx h < n -> in_cw t inside h = Ok (icw h).
Proof. intros H. destruct (lt_wind h H) as (w & E). unfold in_cw, icw, winding_cw. rewrite E. reflexivity. Qed.
Lemma in_ccw_ok h : h_idx h < n -> in_ccw t inside h = Ok (iccw h).
Proof. intros H. destruct (lt_wind h H) as (w & E). unfold in_ccw, iccw, winding_ccw. rewrite E. reflexivity. Qed.
Lemma bdy_ok o : o < n -> bdy t inside o = Ok (negb (Bool.eqb (icw (first_half o)) (iccw (first_half o)))).
Proof. intros H. unfold bdy. rewrite in_cw_ok, in_ccw_ok by exact H. reflexivity. Qed.
Lemma boundary_iff o : boundary t inside o <-> present t (first_half o) /\ icw (first_half o) <> iccw (first_half o).
Proof.
  unfold boundary. rewrite inside_cw_iff, inside_ccw_iff. destruct (icw _), (iccw _); intuition congruence.
Qed.

(** The ends of the boundary segments, with the set on the left. *)
Definition bend (h : half) : Prop := present t h /\ icw h = true /\ iccw h = false.
Lemma bend_boundary h : bend h -> boundary t inside (h_idx h).
Proof.
  intros (P & A & B). apply boundary_iff. split; [exact P|]. destruct h as [i [|]]; cbn [h_idx].
  - change (mkHalf i true) with (first_half i) in *. congruence.
  - rewrite <- (icw_other (first_half i)), <- (iccw_other (first_half i)). unfold other_half, first_half. cbn. congruence.
Qed.
Lemma boundary_bend o : boundary t inside o -> exists h, bend h /\ h_idx h = o.
Proof.
  intros H. apply boundary_iff in H as (P & H). destruct (icw (first_half o)) eqn:A, (iccw (first_half o)) eqn:B; try congruence.
  - exists (first_half o). split; [split; auto | reflexivity].
  - exists (second_half o). split; [|reflexivity]. split; [exact P|].
    change (second_half o) with (other_half (first_half o)). rewrite icw_other, iccw_other. auto.
Qed.
Lemma bend_uniq h k : bend h -> bend k -> h_idx h = h_idx k -> h = k.
Proof.
  intros (_ & A & _) (_ & _ & B) E. destruct (half_dec h k) as [|N]; [assumption|]. exfalso.
  assert (h = other_half k) as ->.
  { destruct h as [i b], k as [j c]. cbn [h_idx] in E. subst j. unfold other_half. cbn. f_equal. destruct b, c; cbn; congruence. }
  rewrite icw_other in A. congruence.
Qed.

(** ** Rings *)
Definition step_ok (p : half * half) : Prop := linked t p /\ winding_cw t (fst p) = winding_ccw t (snd p).
Lemma ring_of h : present t h -> exists p m, Forall step_ok (pairs (h :: m ++ [h])) /\ NoDup (h :: m) /\
  (forall k, In k (h :: m) -> present t k /\ pt t k = Some p).
Proof.
  intros P. destruct (wf_rings _ WF) as (R & [RP RN RA RT RL] & RW).
  pose proof P as I. apply RA, in_concat in I as (r & Hr & Hh). apply In_nth_error in Hr as (p & Hr).
  apply in_split in Hh as (l1 & l2 & E). exists p, (l2 ++ l1). split; [|split].
  - rewrite <- cyclic_cons. rewrite Forall_forall. intros x I.
    change (h :: l2 ++ l1) with ((h :: l2) ++ l1) in I.
    apply (Permutation_in _ (cyclic_rot (h :: l2) l1)) in I. rewrite <- E in I.
    specialize (RL p r Hr). specialize (RW p r Hr). rewrite Forall_forall in RL, RW. split; [apply RL, I | apply RW, I].
  - assert (NoDup r) as N.
    { clear - RN Hr. revert p Hr. induction R as [|r0 R IH]; intros [|p] Hr; try discriminate; cbn in *; apply nodup_app in RN; destruct RN as (N1 & N2 & _); [injection Hr as <-; exact N1|eapply IH; eassumption]. }
    rewrite E in N. apply (Permutation_NoDup (Permutation_app_comm l1 (h :: l2))) in N. exact N.
  - intros k I. assert (In k r) as I'. { rewrite E. cbn in I. rewrite in_app_iff in *. cbn. tauto. }
    split; [apply RA; eapply nth_concat; eassumption | eapply RT; eassumption].
Qed.

Lemma step_in p : step_ok p -> icw (fst p) = iccw (snd p).
Proof. intros (_ & E). unfold icw, iccw. rewrite E. reflexivity. Qed.

(** Turning stops at a half-segment with the set on its counter-clockwise side only, after half-segments with the set on both sides. *)
Lemma turn_list m : forall x z, Forall step_ok (pairs (x :: m ++ [z])) -> icw x = true -> iccw z = false ->
  exists m1 k m2, m = m1 ++ k :: m2 /\ Forall (fun j => icw j = true /\ iccw j = true) m1 /\ iccw k = true /\ icw k = false.
Proof.
  induction m as [|y m IH]; intros x z H A B; cbn [app] in H; rewrite pairs_cons in H; inversion_clear H as [|? ? S H'].
  - apply step_in in S. cbn [fst snd] in S. congruence.
  - apply step_in in S. cbn [fst snd] in S. destruct (icw y) eqn:C.
    + destruct (IH y z H' C B) as (m1 & k & m2 & -> & F & K). exists (y :: m1), k, m2. split; [reflexivity|].
      split; [constructor; [split; congruence | exact F] | exact K].
    + exists [], y, m. split; [reflexivity|]. split; [constructor|]. split; congruence.
Qed.
Lemma turn_run m1 : forall x k m, Forall step_ok (pairs (x :: m1 ++ k :: m)) -> Forall (fun j => icw j = true /\ iccw j = true) m1 -> icw k = false ->
  (forall j, In j (m1 ++ [k]) -> h_idx j < n) ->
  exists y, cw t x = Some y /\ h_idx y < n /\ iccw y = icw x /\ forall fuel, length m1 < fuel -> turn t inside fuel y = Ok k.
Proof.
  induction m1 as [|y m1 IH]; intros x k m H F K V; cbn [app] in H; rewrite pairs_cons in H; inversion_clear H as [|? ? S H'].
  - pose proof (step_in _ S) as Q. cbn [fst snd] in Q. destruct S as ((L & _) & _). cbn [fst snd] in L.
    assert (h_idx k < n) as V' by (apply V; left; reflexivity).
    exists k. split; [exact L|]. split; [exact V'|]. split; [congruence|]. intros [|fuel] X; [cbn in X; lia|].
    cbn [turn]. rewrite in_cw_ok by exact V'. cbn [rbind]. rewrite K. reflexivity.
  - pose proof (step_in _ S) as Q. cbn [fst snd] in Q. destruct S as ((L & _) & _). cbn [fst snd] in L.
    assert (h_idx y < n) as V' by (apply V; left; reflexivity).
    inversion_clear F as [|? ? (FA & FB) F'].
    destruct (IH y k m H' F' K) as (z & CZ & _ & _ & T). { intros j I. apply V. right. exact I. }
    exists y. split; [exact L|]. split; [exact V'|]. split; [congruence|]. intros [|fuel] X; [cbn in X; lia|].
    cbn [turn]. rewrite in_cw_ok by exact V'. cbn [rbind]. rewrite FA. unfold cw in CZ.
    destruct (hv_get (t_nbrs t) y); [|discriminate]. cbn in CZ. injection CZ as CZ. cbn [orerr rbind]. rewrite CZ.
    apply T. cbn in X. lia.
Qed.

Lemma halves_bound (l : list half) N : NoDup l -> (forall h, In h l -> h_idx h < N) -> length l <= 2 * N.
Proof.
  intros ND V. replace (2 * N) with (length (flat_map (fun i => [first_half i; second_half i]) (seq 0 N))).
  - apply NoDup_incl_length; [exact ND|]. intros [i b] I. apply in_flat_map. exists i.
    split; [apply in_seq; specialize (V _ I); cbn in V; lia|]. destruct b; cbn; auto.
  - assert (forall s, length (flat_map (fun i => [first_half i; second_half i]) (seq s N)) = 2 * N) as G; [|apply G].
    clear. induction N as [|N IH]; intros s; [reflexivity|]. cbn [seq flat_map]. rewrite app_length, IH. cbn. lia.
Qed.

(** [after h k]: turning clockwise from the boundary end [h] leads to the boundary segment that begins with [k]. *)
Definition after (h k : half) : Prop := exists m1 p, Forall step_ok (pairs (h :: m1 ++ [k])) /\
  Forall (fun j => icw j = true /\ iccw j = true) m1 /\ pt t h = Some p /\ pt t k = Some p.

Lemma turn_spec h : bend h -> exists y k, cw t h = Some y /\ h_idx y < n /\ iccw y = true /\ turn t inside (2 * n) y = Ok k /\
  after h k /\ bend (other_half k) /\ h_idx k < n.
Proof.
  intros (P & A & B). destruct (ring_of h P) as (p & m & C & ND & R).
  destruct (turn_list m h h C A B) as (m1 & k & m2 & -> & F & K1 & K2).
  assert (C' : Forall step_ok (pairs (h :: m1 ++ k :: m2 ++ [h]))) by (rewrite <- app_assoc in C; exact C).
  assert (V : forall j, In j (m1 ++ [k]) -> h_idx j < n).
  { intros j I. apply present_lt, R. right. rewrite in_app_iff in *. cbn in *. tauto. }
  destruct (turn_run m1 h k _ C' F K2 V) as (y & CY & VY & IY & T).
  assert (L : length (h :: m1 ++ k :: m2) <= 2 * n).
  { apply halves_bound; [exact ND|]. intros j I. apply present_lt, R, I. }
  cbn [length] in L. rewrite app_length in L. cbn [length] in L.
  assert (Ik : In k (h :: m1 ++ k :: m2)) by (right; apply in_or_app; right; left; reflexivity).
  exists y, k. split; [exact CY|]. split; [exact VY|]. split; [congruence|]. split; [apply T; lia|]. split; [|split].
  - exists m1, p. split; [|split; [exact F|]].
    + change (h :: m1 ++ k :: m2 ++ [h]) with ((h :: m1) ++ k :: (m2 ++ [h])) in C'. rewrite pairs_app in C'. apply Forall_app in C' as (C' & _). exact C'.
    + split; [apply R; left; reflexivity | apply R, Ik].
  - split; [|rewrite icw_other, iccw_other; auto]. destruct (R k Ik) as (Q & _). exact Q.
  - apply present_lt, R, Ik.
Qed.

(** Turning back is unique. *)
Lemma pairs_rev_uniq m1 : forall m1' h h' k, Forall step_ok (pairs (h :: m1 ++ [k])) -> Forall step_ok (pairs (h' :: m1' ++ [k])) ->
  Forall (fun j => icw j = true /\ iccw j = true) m1 -> Forall (fun j => icw j = true /\ iccw j = true) m1' ->
  iccw h = false -> iccw h' = false -> h = h'.
Proof.
  induction m1 as [|x m1 IH] using rev_ind; intros m1' h h' k C C' F F' A A'.
  - destruct (last_case m1') as [->|(m & z & ->)].
    + cbn in C, C'. inversion_clear C as [|? ? ((_ & L) & _) _]. inversion_clear C' as [|? ? ((_ & L') & _) _]. cbn [fst snd] in *. congruence.
    + exfalso. cbn in C. inversion_clear C as [|? ? ((_ & L) & _) _]. cbn [fst snd] in L.
      rewrite <- app_assoc in C'. cbn [app] in C'. change (h' :: m ++ [z; k]) with ((h' :: m) ++ [z; k]) in C'. rewrite pairs_snoc in C'.
      apply Forall_app in C' as (_ & C'). inversion_clear C' as [|? ? ((_ & L') & _) _]. cbn [fst snd] in L'.
      apply Forall_app in F' as (_ & F'). inversion_clear F' as [|? ? (_ & Q) _]. congruence.
  - rewrite <- app_assoc in C. cbn [app] in C. change (h :: m1 ++ [x; k]) with ((h :: m1) ++ [x; k]) in C. rewrite pairs_snoc in C.
    apply Forall_app in C as (C & CX). inversion_clear CX as [|? ? ((_ & L) & _) _]. cbn [fst snd] in L.
    apply Forall_app in F as (F & FX). inversion_clear FX as [|? ? (_ & Q) _].
    destruct (last_case m1') as [->|(m & z & ->)].
    + exfalso. cbn in C'. inversion_clear C' as [|? ? ((_ & L') & _) _]. cbn [fst snd] in L'. congruence.
    + rewrite <- app_assoc in C'. cbn [app] in C'. change (h' :: m ++ [z; k]) with ((h' :: m) ++ [z; k]) in C'. rewrite pairs_snoc in C'.
      apply Forall_app in C' as (C' & CZ). inversion_clear CZ as [|? ? ((_ & L') & _) _]. cbn [fst snd] in L'.
      apply Forall_app in F' as (F' & _). assert (z = x) by congruence. subst z. apply (IH m h h' x); assumption.
Qed.
Lemma after_inj h h' k : bend h -> bend h' -> after h k -> after h' k -> h = h'.
Proof.
  intros (_ & _ & A) (_ & _ & A') (m & p & C & F & _) (m' & p' & C' & F' & _). apply (pairs_rev_uniq m m' h h' k); assumption.
Qed.
Lemma after_pt h k : after h k -> exists p, pt t h = Some p /\ pt t k = Some p.
Proof. intros (m & p & _ & _ & A & B). eauto. Qed.
End Turn.
