(** Proofs about the output events of a range. *)
From Coq Require Import List Bool ZArith Arith Lia Permutation Sorted.
From Verif Require Import F64 F64Arith TreeVecModel GeomModel SegmentsModel SegmentsSpec SegmentsProofs CurveOrderModel CurveOrderProofs
  SweepModel SweepSpec RangeModel RangeSpec RangeProofs.
Import ListNotations.

(** Positions chosen from left to right: preferred value, band. *)
Fixpoint assign (so_far : f64) (l : list (f64 * f64 * f64)) : list f64 :=
  match l with
  | [] => []
  | (p, lo, hi) :: l' => let x := clamp p lo so_far hi in x :: assign x l'
  end.
Definition triple (p : f64) (b : lentry * f64 * f64) : f64 * f64 * f64 := (p, snd (fst b), snd b).
Definition triples (ps : list f64) (bs : list (lentry * f64 * f64)) : list (f64 * f64 * f64) := map (fun '(p, b) => triple p b) (combine ps bs).

Lemma assign_length l : forall s, length (assign s l) = length l.
Proof. induction l as [|[[p lo] hi] l IH]; intros s; cbn; [reflexivity|]. rewrite IH. reflexivity. Qed.
Lemma assign_nonnan l : forall s, nan s = false -> Forall (fun t => nan (fst (fst t)) = false /\ nan (snd (fst t)) = false /\ nan (snd t) = false) l ->
  no_nan (assign s l).
Proof.
  induction l as [|[[p lo] hi] l IH]; intros s N F; cbn; [constructor|]. inversion F as [|? ? (A & B & C) F']; subst. cbn in A, B, C.
  destruct (clamp_n p lo s hi A B N C) as [D _]. constructor; [exact D|]. apply IH; assumption.
Qed.
(** Inside the bands and nondecreasing. *)
Lemma assign_ok l : forall s, nan s = false -> Forall (fun t => nan (fst (fst t)) = false /\ nan (snd (fst t)) = false /\ nan (snd t) = false) l ->
  (forall k p lo hi, nth_error l k = Some (p, lo, hi) -> (key s <= key hi)%Z /\ (key lo <= key hi)%Z) ->
  (forall j k p lo hi p' lo' hi', j <= k -> nth_error l j = Some (p, lo, hi) -> nth_error l k = Some (p', lo', hi') -> (key hi <= key hi')%Z) ->
  (forall k p lo hi x, nth_error l k = Some (p, lo, hi) -> nth_error (assign s l) k = Some x -> (key s <= key x)%Z /\ (key lo <= key x <= key hi)%Z) /\
  climbing (assign s l).
Proof.
  induction l as [|[[p lo] hi] l IH]; intros s N F H1 H2; cbn [assign].
  { split; [intros [|] ? ? ? ?; discriminate|constructor]. }
  inversion F as [|? ? (A & B & C) F']; subst. cbn in A, B, C. destruct (clamp_n p lo s hi A B N C) as [D E]. set (x := clamp p lo s hi) in *.
  destruct (H1 0 _ _ _ eq_refl) as [I1 I2].
  destruct (IH x D F') as [G1 G2].
  - intros k p' lo' hi' Hk. destruct (H1 (S k) _ _ _ Hk) as [J1 J2]. split; [|exact J2].
    pose proof (H2 0 (S k) _ _ _ _ _ _ ltac:(lia) eq_refl Hk). lia.
  - intros j k p1 lo1 hi1 p2 lo2 hi2 J A1 A2. eapply (H2 (S j) (S k)); [lia|exact A1|exact A2].
  - split.
    + intros [|k] p' lo' hi' x' K1 K2; cbn [nth_error] in K1, K2.
      * injection K1 as <- <- <-. injection K2 as <-. lia.
      * destruct (G1 _ _ _ _ _ K1 K2). lia.
    + constructor; [exact G2|]. apply Forall_forall. intros z Hz. apply In_nth_error in Hz. destruct Hz as [k Hz].
      assert (Lk : k < length l) by (rewrite <- (assign_length l x); apply nth_error_Some; congruence).
      destruct (nth_error l k) as [[[p' lo'] hi']|] eqn:K; [|apply nth_error_None in K; lia]. destruct (G1 _ _ _ _ _ K Hz) as [Q _].
      apply fle_of_key; [exact D| |exact Q].
      assert (NN := assign_nonnan l x D F'). unfold no_nan in NN. rewrite Forall_forall in NN. apply NN. eapply nth_error_In, Hz.
Qed.

(** Nondecreasing, also if a band is empty: the upper ends of the bands do not decrease. *)
Lemma assign_climbing l : forall s, nan s = false -> Forall (fun t => nan (fst (fst t)) = false /\ nan (snd (fst t)) = false /\ nan (snd t) = false) l ->
  (forall k p lo hi, nth_error l k = Some (p, lo, hi) -> (key s <= key hi)%Z) ->
  (forall j k p lo hi p' lo' hi', j <= k -> nth_error l j = Some (p, lo, hi) -> nth_error l k = Some (p', lo', hi') -> (key hi <= key hi')%Z) ->
  (forall k x, nth_error (assign s l) k = Some x -> (key s <= key x)%Z) /\ climbing (assign s l).
Proof.
  induction l as [|[[p lo] hi] l IH]; intros s N F H1 H2; cbn [assign].
  { split; [intros [|] ?; discriminate|constructor]. }
  inversion F as [|? ? (A & B & C) F']; subst. cbn in A, B, C. destruct (clamp_n p lo s hi A B N C) as [D E]. set (x := clamp p lo s hi) in *.
  pose proof (H1 0 _ _ _ eq_refl) as I1.
  destruct (IH x D F') as [G1 G2].
  - intros k p' lo' hi' Hk. pose proof (H1 (S k) _ _ _ Hk) as J1.
    pose proof (H2 0 (S k) _ _ _ _ _ _ ltac:(lia) eq_refl Hk). lia.
  - intros j k p1 lo1 hi1 p2 lo2 hi2 J A1 A2. eapply (H2 (S j) (S k)); [lia|exact A1|exact A2].
  - split.
    + intros [|k] x' K2; cbn [nth_error] in K2.
      * injection K2 as <-. lia.
      * pose proof (G1 _ _ K2). lia.
    + constructor; [exact G2|]. apply Forall_forall. intros z Hz. apply In_nth_error in Hz. destruct Hz as [k Hz]. pose proof (G1 _ _ Hz) as Q.
      apply fle_of_key; [exact D| |exact Q].
      assert (NN := assign_nonnan l x D F'). unfold no_nan in NN. rewrite Forall_forall in NN. apply NN. eapply nth_error_In, Hz.
Qed.

Section Events.
Variable a : arena.
Variable eps : f64.
Variables lower upper : segment -> f64 -> f64 -> f64.
Variable at_y : segment -> f64 -> f64.
Variable sort_by : forall A : Type, (A -> A -> comparison) -> list A -> list A.
Variable y : f64.
Notation placed := (placed a eps lower upper at_y y).

(** An entry whose segments are in place. *)
Definition entry_ok (e : lentry) : Prop := placed (le_seg e) /\ placed (le_old e) /\
  nan (px (seg_start (seg_def a (le_seg e)))) = false /\ nan (px (seg_end (seg_def a (le_old e)))) = false.

(** The event of an entry before the positions below are known. *)
Definition above (e : lentry) : bool := match le_old_seg e with Some _ => true | None => negb (le_enter e) end.
Definition ev_up (e : lentry) (x : f64) : oevent := mkEv x (above e) fzero (negb (le_exit e)) (le_old e) None (le_old_idx e).

Lemma place_old_ok pos : forall s, Forall (fun p => entry_ok (fst (fst p))) pos ->
  exists prefs, length prefs = length pos /\ no_nan prefs /\
    place_old a at_y y pos s = Ok (map (fun '(p, x) => ev_up (fst (fst p)) x) (combine pos (assign s (triples prefs pos)))).
Proof.
  induction pos as [|[[e lo] hi] pos IH]; intros s F; cbn [place_old].
  - exists []. split; [reflexivity|]. split; [constructor|reflexivity].
  - inversion F as [|? ? (P1 & P2 & N1 & N2) F']; subst. cbn [fst snd] in *.
    destruct (placed_facts _ _ _ _ _ _ _ P1) as (x1 & S1 & X1 & Nx1 & _). destruct (placed_facts _ _ _ _ _ _ _ P2) as (x2 & S2 & _ & Nx2 & _).
    assert (PR : exists p, nan p = false /\ (if le_exit e then do! g := seg_at a (le_old e) in Ok (px (seg_end g))
         else do! g := seg_at a (le_seg e) in if le_enter e then Ok (px (seg_start g)) else x_at at_y g y) = Ok p).
    { rewrite S1, S2. cbn [rbind]. destruct (le_exit e); [eauto|]. destruct (le_enter e); eauto. }
    destruct PR as (p & Np & ->). cbn [rbind]. destruct (IH (clamp p lo s hi) F') as (prefs & L & NN & ->). cbn [rbind].
    exists (p :: prefs). split; [cbn; lia|]. split; [constructor; assumption|]. reflexivity.
Qed.

(** The event of an entry once the positions below are known. *)
Definition set_below (x : f64) (i : nat) (e : oevent) : oevent :=
  mkEv (ev_x0 e) (ev_above e) x (ev_below e) (ev_seg e) (Some i) (ev_old e).
Definition ev_fresh (e : lentry) (x : f64) (i : nat) : list oevent :=
  match le_old_seg e with Some _ => [mkEv x false x true (le_seg e) (Some i) None] | None => [] end.

Fixpoint fresh (l : list (lentry * f64 * f64)) (xs : list f64) (i : nat) : list oevent :=
  match l, xs with
  | (e, _, _) :: l', x :: xs' => ev_fresh e x i ++ fresh l' xs' (S i)
  | _, _ => []
  end.

Lemma upd_nth {A} (l : list A) i v : i < length l -> exists l', upd l i v = Some l' /\ length l' = length l /\
  nth_error l' i = Some v /\ forall j, j <> i -> nth_error l' j = nth_error l j.
Proof.
  revert i. induction l as [|x l IH]; intros [|i] L; cbn in L; try lia; cbn [upd].
  - exists (v :: l). split; [reflexivity|]. split; [reflexivity|]. split; [reflexivity|]. intros [|j] N; [congruence|reflexivity].
  - destruct (IH i ltac:(lia)) as (l' & -> & A1 & A2 & A3). cbn. exists (x :: l'). split; [reflexivity|]. split; [cbn; lia|]. split; [exact A2|].
    intros [|j] N; [reflexivity|]. cbn. apply A3. lia.
Qed.
Lemma upd_app_l {A} (l t : list A) i v l' : upd l i v = Some l' -> upd (l ++ t) i v = Some (l' ++ t).
Proof.
  revert i l'. induction l as [|x l IH]; intros [|i] l' H; cbn [upd app] in *; try discriminate.
  - injection H as <-. reflexivity.
  - destruct (upd l i v) as [l1|] eqn:E; cbn in H; [|discriminate]. injection H as <-. cbn. rewrite (IH _ _ E). reflexivity.
Qed.

Variable start : nat.
Lemma place_new_ok pos : forall idx s B T,
  Forall (fun p => entry_ok (fst (fst p))) pos ->
  (forall k p, nth_error pos k = Some p -> exists i ev, old_pos start (fst (fst p)) = Ok i /\ nth_error B i = Some ev /\ ev_seg ev = le_old (fst (fst p)) /\ nan (ev_x0 ev) = false) ->
  (forall j k p q i, j <> k -> nth_error pos j = Some p -> nth_error pos k = Some q -> old_pos start (fst (fst p)) = Ok i -> old_pos start (fst (fst q)) <> Ok i) ->
  exists prefs B', length prefs = length pos /\ no_nan prefs /\ length B' = length B /\
    place_new a at_y y start pos idx s (B ++ T) = Ok (B' ++ T ++ fresh pos (assign s (triples prefs pos)) (start + idx)) /\
    (forall i, (forall k p, nth_error pos k = Some p -> old_pos start (fst (fst p)) <> Ok i) -> nth_error B' i = nth_error B i) /\
    (forall k p i ev x, nth_error pos k = Some p -> old_pos start (fst (fst p)) = Ok i -> nth_error B i = Some ev ->
       nth_error (assign s (triples prefs pos)) k = Some x -> nth_error B' i = Some (set_below x (start + idx + k) ev)).
Proof.
  induction pos as [|[[e lo] hi] pos IH]; intros idx s B T F HB ND; cbn [place_new].
  - exists [], B. split; [reflexivity|]. split; [constructor|]. split; [reflexivity|]. cbn. rewrite app_nil_r. split; [reflexivity|]. split; [reflexivity|].
    intros [|] ? ? ? ?; discriminate.
  - inversion F as [|? ? (P1 & P2 & N1 & N2) F']; subst. cbn [fst snd] in *.
    destruct (HB 0 _ eq_refl) as (i & ev & OP & Hev & Hs & Nev). cbn [fst] in OP, Hs. rewrite OP. cbn [rbind].
    assert (Li : i < length B) by (apply nth_error_Some; congruence).
    rewrite nth_error_app1, Hev by exact Li. cbn [orerr rbind]. rewrite Hs, Nat.eqb_refl. cbn [negb].
    destruct (placed_facts _ _ _ _ _ _ _ P1) as (x1 & S1 & X1 & Nx1 & _).
    assert (PR : exists p, nan p = false /\ (if fle lo (ev_x0 ev) && fle (ev_x0 ev) hi then Ok (ev_x0 ev) else do! g := seg_at a (le_seg e) in x_at at_y g y) = Ok p).
    { rewrite S1. cbn [rbind]. destruct (_ && _); eauto. }
    destruct PR as (p & Np & ->). cbn [rbind]. set (x := clamp p lo s hi).
    destruct (upd_nth B i (mkEv (ev_x0 ev) (ev_above ev) x (ev_below ev) (le_old e) (Some (start + idx)) (ev_old ev)) Li) as (B1 & U & LB & NB & OB).
    rewrite (upd_app_l _ T _ _ _ U). cbn [orerr rbind].
    assert (HB' : forall k q, nth_error pos k = Some q -> exists i0 ev0, old_pos start (fst (fst q)) = Ok i0 /\ nth_error B1 i0 = Some ev0 /\ ev_seg ev0 = le_old (fst (fst q)) /\ nan (ev_x0 ev0) = false).
    { intros k q Hq. destruct (HB (S k) _ Hq) as (i0 & ev0 & A1 & A2 & A3 & A4). exists i0, ev0. split; [exact A1|]. split; [|auto].
      rewrite OB; [exact A2|]. intros ->. eapply (ND 0 (S k)); [lia|reflexivity|exact Hq|exact OP|exact A1]. }
    assert (ND' : forall j k p q i, j <> k -> nth_error pos j = Some p -> nth_error pos k = Some q -> old_pos start (fst (fst p)) = Ok i -> old_pos start (fst (fst q)) <> Ok i).
    { intros j k q q' i0 N A1 A2. apply (ND (S j) (S k)); [lia|exact A1|exact A2]. }
    assert (RES : forall T', exists prefs B', length prefs = length pos /\ no_nan prefs /\ length B' = length B /\
      place_new a at_y y start pos (S idx) x (B1 ++ T') = Ok (B' ++ T' ++ fresh pos (assign x (triples prefs pos)) (S (start + idx))) /\
      (forall i0, (forall k q, nth_error ((e, lo, hi) :: pos) k = Some q -> old_pos start (fst (fst q)) <> Ok i0) -> nth_error B' i0 = nth_error B i0) /\
      (forall k q i0 ev0 x0, nth_error ((e, lo, hi) :: pos) k = Some q -> old_pos start (fst (fst q)) = Ok i0 -> nth_error B i0 = Some ev0 ->
         nth_error (x :: assign x (triples prefs pos)) k = Some x0 -> nth_error B' i0 = Some (set_below x0 (start + idx + k) ev0))).
    { intros T'. destruct (IH (S idx) x B1 T' F' HB' ND') as (prefs & B' & L & NN & LB' & PN & G1 & G2).
      exists prefs, B'. split; [exact L|]. split; [exact NN|]. split; [lia|]. split; [rewrite PN; do 3 f_equal; f_equal; lia|]. split.
      - intros i0 H0. rewrite G1; [apply OB|].
        + intros ->. apply (H0 0 _ eq_refl). exact OP.
        + intros k q Hq. apply (H0 (S k) _ Hq).
      - intros [|k] q i0 ev0 x0 K1 K2 K3 K4; cbn [nth_error] in K1, K4.
        + injection K1 as <-. injection K4 as <-. cbn [fst] in K2. rewrite OP in K2. injection K2 as <-. rewrite Hev in K3. injection K3 as <-.
          rewrite G1; [rewrite NB; unfold set_below; rewrite Hs; do 2 f_equal; f_equal; lia|].
          intros k q Hq E. eapply (ND 0 (S k)); [lia|reflexivity|exact Hq|exact OP|exact E].
        + rewrite (G2 k q i0 ev0 x0 K1 K2); [do 2 f_equal; lia| |exact K4].
          rewrite OB; [exact K3|]. intros ->. eapply (ND 0 (S k)); [lia|reflexivity|exact K1|exact OP|exact K2]. }
    destruct (le_old_seg e) as [os|] eqn:EO.
    + rewrite <- app_assoc. destruct (RES (T ++ [mkEv x false x true (le_seg e) (Some (start + idx)) None])) as (prefs & B' & L & NN & LB' & PN & G1 & G2).
      exists (p :: prefs), B'. split; [cbn; lia|]. split; [constructor; assumption|]. split; [exact LB'|]. split; [|split; assumption].
      rewrite PN. unfold triples. cbn [combine map triple fst snd assign fresh]. fold x. unfold ev_fresh. rewrite EO. rewrite <- app_assoc. reflexivity.
    + destruct (RES T) as (prefs & B' & L & NN & LB' & PN & G1 & G2).
      exists (p :: prefs), B'. split; [cbn; lia|]. split; [constructor; assumption|]. split; [exact LB'|]. split; [|split; assumption].
      rewrite PN. unfold triples. cbn [combine map triple fst snd assign fresh]. fold x. unfold ev_fresh. rewrite EO. reflexivity.
Qed.
End Events.
