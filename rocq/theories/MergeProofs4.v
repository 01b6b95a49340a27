(** Merging coincident segments: neighbours on the sweep line, and what comes between them. *)
From Coq Require Import List Bool ZArith Arith Lia Permutation Sorted.
From Verif Require Import F64 F64Arith TreeVecModel GeomModel SegmentsModel SegmentsSpec SegmentsProofs CurveOrderModel CurveOrderProofs SweepModel SweepSpec
  SweepProofs2 SweepProofs7 SweepProofs8 SweepProofs10 RangeModel RangeSpec RangeProofs3 RangeProofs4 RangeProofs5 PropsSweep PropsRange TopoModel TopoSpec TopoProofs TopoProofs2 TopoProofs3 TopoProofs4
  TopoProofs5 TopoProofs6 TopoProofs7 TopoProofs8 TopoProofs9 MergeSpec MergeProofs.
Import ListNotations.

(** *** Neighbours in a list *)
Definition adj {A} (l : list A) (i j : A) : Prop := exists l1 l2, l = l1 ++ i :: j :: l2.
Lemma adj_in {A} (l : list A) i j : adj l i j -> In i l /\ In j l.
Proof. intros (l1 & l2 & ->). split; apply in_or_app; right; [left|right; left]; reflexivity. Qed.
Lemma adj_left {A} (l m : list A) i j : adj l i j -> adj (l ++ m) i j.
Proof. intros (l1 & l2 & ->). exists l1, (l2 ++ m). rewrite <- app_assoc. reflexivity. Qed.
Lemma adj_right {A} (l m : list A) i j : adj m i j -> adj (l ++ m) i j.
Proof. intros (l1 & l2 & ->). exists (l ++ l1), l2. rewrite <- app_assoc. reflexivity. Qed.
Lemma adj_join {A} (l m : list A) i j : adj ((l ++ [i]) ++ j :: m) i j.
Proof. exists l, m. rewrite <- app_assoc. reflexivity. Qed.
Lemma adj_app {A} (l m : list A) i j : adj (l ++ m) i j -> adj l i j \/ adj m i j \/ exists l' m', l = l' ++ [i] /\ m = j :: m'.
Proof.
  intros (l1 & l2 & E). revert l E. induction l1 as [|x l1 IH]; intros l E; cbn in E.
  - destruct l as [|y l]; [right; left; exists [], l2; exact E|]. cbn in E. injection E as -> E. destruct l as [|z l].
    + right. right. exists [], l2. auto.
    + injection E as -> E. left. exists [], l. reflexivity.
  - destruct l as [|y l]; [right; left; exists (x :: l1), l2; exact E|]. cbn in E. injection E as -> E. destruct (IH l E) as [(p & q & ->)|[H|(p & q & -> & H)]].
    + left. exists (x :: p), q. reflexivity.
    + auto.
    + right. right. exists (x :: p), q. auto.
Qed.
Lemma adj_map {A B} (f : A -> B) l i j : adj l i j -> adj (map f l) (f i) (f j).
Proof. intros (l1 & l2 & ->). exists (map f l1), (map f l2). rewrite map_app. reflexivity. Qed.
Lemma adj_concat {A} (L : list (list A)) p v i j : NoDup (concat L) -> nth_error L p = Some v -> In i v -> In j v -> adj (concat L) i j -> adj v i j.
Proof.
  intros ND E Hi Hj AD. apply nth_error_split in E. destruct E as (L0 & L1 & -> & _). rewrite concat_app in *. cbn [concat] in *.
  apply TopoProofs.nodup_app in ND. destruct ND as (_ & ND & D1). apply TopoProofs.nodup_app in ND. destruct ND as (_ & _ & D2).
  apply adj_app in AD. destruct AD as [AD|[AD|(l' & m' & E1 & E2)]].
  - exfalso. apply (D1 i); [apply (adj_in _ _ _ AD)|apply in_or_app; left; exact Hi].
  - apply adj_app in AD. destruct AD as [AD|[AD|(l' & m' & E1 & E2)]]; [exact AD| |].
    + exfalso. apply (D2 i); [exact Hi|apply (adj_in _ _ _ AD)].
    + exfalso. apply (D2 j); [exact Hj|rewrite E2; left; reflexivity].
  - exfalso. apply (D1 i); [rewrite E1; apply in_or_app; right; left; reflexivity|apply in_or_app; left; exact Hi].
Qed.
Lemma adj_cyclic {A} (l m : list A) i j : adj m i j -> In (i, j) (cyclic (l ++ m)).
Proof. intros (l1 & l2 & ->). rewrite app_assoc. apply cyclic_two. Qed.
Lemma seq_adj : forall m n o, In o (seq n m) -> In (S o) (seq n m) -> adj (seq n m) o (S o).
Proof.
  intros m n o H1 H2. apply in_seq in H1, H2. exists (seq n (o - n)), (seq (S (S o)) (n + m - S (S o))).
  replace m with ((o - n) + (2 + (n + m - S (S o)))) at 1 by lia. rewrite seq_app. replace (n + (o - n)) with o by lia. reflexivity.
Qed.

(** *** Extremes *)
Lemma argmax (f : nat -> Z) : forall n a, 0 < n -> exists k, a <= k < a + n /\ forall m, a <= m < a + n -> (f m <= f k)%Z.
Proof.
  induction n as [|n IH]; intros a L; [lia|]. destruct n as [|n]; [exists a; split; [lia|]; intros m Lm; replace m with a by lia; lia|].
  destruct (IH a) as (k & K1 & K2); [lia|]. destruct (Z.le_gt_cases (f (a + S n)) (f k)).
  - exists k. split; [lia|]. intros m Lm. destruct (Nat.eq_dec m (a + S n)) as [->|N]; [exact H|]. apply K2. lia.
  - exists (a + S n). split; [lia|]. intros m Lm. destruct (Nat.eq_dec m (a + S n)) as [->|N]; [lia|]. specialize (K2 m ltac:(lia)). lia.
Qed.
Lemma argmin (f : nat -> Z) : forall n a, 0 < n -> exists k, a <= k < a + n /\ forall m, a <= m < a + n -> (f k <= f m)%Z /\ (m < k -> (f k < f m)%Z).
Proof.
  induction n as [|n IH]; intros a L; [lia|]. destruct n as [|n]; [exists a; split; [lia|]; intros m Lm; replace m with a by lia; lia|].
  destruct (IH a) as (k & K1 & K2); [lia|]. destruct (Z.le_gt_cases (f k) (f (a + S n))).
  - exists k. split; [lia|]. intros m Lm. destruct (Nat.eq_dec m (a + S n)) as [->|N]; [split; [exact H|lia]|]. apply K2. lia.
  - exists (a + S n). split; [lia|]. intros m Lm. destruct (Nat.eq_dec m (a + S n)) as [->|N]; [lia|]. specialize (K2 m ltac:(lia)). lia.
Qed.

Section Between.
Context {T : Type}.
Variable tag : list T.
Variable a : arena.
Hypothesis TAG : length tag = arena_len a.
Hypothesis ORI : length (orientation a) = arena_len a.
Variable eps : f64.
Variables lower upper : segment -> f64 -> f64 -> f64.
Variable at_y : segment -> f64 -> f64.
Variable sort_by : forall A : Type, (A -> A -> comparison) -> list A -> list A.
Hypothesis SP : sweepable a.
Hypothesis SIB : starts_in_box a eps lower upper.
Notation tline := (tline a eps lower upper at_y sort_by).
Notation st c := (fst (ci_segs c)).
Notation en c := (snd (ci_segs c)).
Notation lo i y := (fsub (lower (seg_def a i) y eps) eps).
Notation up i y := (fadd (upper (seg_def a i) y eps) eps).

(** The changed intervals of a line reach far enough from each end of a segment. *)
Definition reaches (s : sweeper) : Prop := forall k e, nth_error (sw_line s) k = Some e -> own_end e = true ->
  exists d, In d (sw_changed s) /\ reach_at a eps lower upper (sw_y s) (sw_line s) k (end_pos a e) d.

(** Segments that begin between two neighbours separate their boxes. *)
Lemma between s before c i j A C : tline s before -> In c (sw_changed s) -> reaches s ->
  old_segs (piece before (st c) (en c)) = [] -> new_segs (piece (sw_line s) (st c) (en c)) <> [] ->
  new_segs (firstn (st c) (sw_line s)) = A ++ [i] -> old_segs (skipn (en c) before) = j :: C -> fle (lo j (sw_y s)) (up i (sw_y s)) = false.
Proof.
  intros TL HC RE BO NB EA EC. pose proof (tl_bounds _ _ _ _ _ _ _ _ TL c HC) as BD. set (line := sw_line s) in *.
  assert (NE : st c < en c). { destruct (Nat.lt_ge_cases (st c) (en c)) as [L|L]; [exact L|]. exfalso. apply NB. unfold piece. replace (en c - st c) with 0 by lia. reflexivity. }
  (* the entries inside begin here *)
  assert (INS : forall k, st c <= k < en c -> exists e, nth_error line k = Some e /\ le_old_seg e = None /\ le_enter e = true).
  { intros k Lk. destruct (nth_error line k) as [e|] eqn:E; [|apply nth_error_None in E; lia]. exists e. split; [reflexivity|].
    assert (X : forall z, ~ In z (old_of e)). { intros z Z. assert (Y : In z (old_segs (piece line (st c) (en c)))). { unfold old_segs. apply in_flat_map. exists e. split; [apply in_piece; eauto|exact Z]. }
      apply (old_piece a eps lower upper at_y sort_by s before TL c z HC) in Y. rewrite BO in Y. exact Y. }
    unfold old_of in X. destruct (le_old_seg e) as [p|]; [exfalso; apply (X p); left; reflexivity|]. split; [reflexivity|]. destruct (le_enter e); [reflexivity|exfalso; apply (X (le_seg e)); left; reflexivity]. }
  set (f := fun k => match nth_error line k with Some e => key (px (seg_start (seg_def a (le_seg e)))) | None => 0%Z end).
  assert (BOX : forall k e, st c <= k < en c -> nth_error line k = Some e -> nan (px (seg_start (seg_def a (le_seg e)))) = false /\ end_pos a e = px (seg_start (seg_def a (le_seg e))) /\ f k = key (end_pos a e) /\
     fle (lo (le_seg e) (sw_y s)) (end_pos a e) = true /\ fle (end_pos a e) (up (le_seg e) (sw_y s)) = true /\ own_end e = true).
  { intros k e Lk E. destruct (INS k Lk) as (e' & E' & O1 & O2). rewrite E in E'. injection E' as <-. pose proof (tl_ok _ _ _ _ _ _ _ _ TL) as PO. rewrite Forall_forall in PO. specialize (PO e (nth_error_In _ _ E)).
    destruct PO as ((RG & SLT & _) & PO). rewrite O1 in PO. destruct PO as [_ PO]. apply PO in O2 as KY. destruct (sp_finite _ SP _ (registered_lt _ SP _ RG)) as [[F1 F2] _]. apply fin_nonnan in F1, F2.
    assert (FE : feq (start_y a (le_seg e)) (sw_y s) = true). { pose proof (tl_y _ _ _ _ _ _ _ _ TL) as Ny. unfold start_y in *. fk. zb. exact KY. }
    destruct (SIB _ _ RG SLT FE) as [B1 B2]. unfold end_pos, own_end. rewrite O1, O2. cbn [orb]. unfold f. rewrite E. repeat split; assumption. }
  assert (OWN : forall k e d, st c <= k < en c -> nth_error line k = Some e -> In d (sw_changed s) -> fst (ci_segs d) <= k < snd (ci_segs d) -> d = c).
  { intros k e d Lk E Hd Ld. pose proof (tl_apart _ _ _ _ _ _ _ _ TL) as SA; eapply sorted_apart; eassumption. }
  (* the right end *)
  assert (RJ : exists x, (forall k, st c <= k < en c -> (f k <= key x)%Z) /\ nan x = false /\ fle (lo j (sw_y s)) x = false).
  { destruct (argmax f (en c - st c) (st c)) as (k & K1 & K2); [lia|]. assert (Lk : st c <= k < en c) by lia. destruct (INS k Lk) as (e & E & _). destruct (BOX k e Lk E) as (N & EP & FK & _ & _ & OE).
    destruct (RE k e E OE) as (d & Hd & (Aa & A1 & A2) & (B & B1 & B2)). assert (d = c) by (apply (OWN k e d Lk E Hd); lia). subst d. exists (end_pos a e).
    split; [intros m Lm; rewrite <- FK; apply K2; lia|]. split; [rewrite EP; exact N|].
    assert (ej : exists e', nth_error line (en c) = Some e' /\ le_seg e' = j).
    { destruct (nth_error line (en c)) as [e'|] eqn:E'.
      - exists e'. split; [reflexivity|]. destruct (tl_gap _ _ _ _ _ _ _ _ TL (en c) e' E' (right_gap a tag _ _ _ _ _ TAG ORI _ _ _ TL HC)) as (G1 & G2 & G3 & _).
        rewrite (skipn_piece before (en c) (S (en c))), old_segs_app in EC by lia. unfold piece in EC. replace (S (en c) - en c) with 1 in EC by lia.
        assert (Q : firstn 1 (skipn (en c) before) = [unmark e']). { apply nth_error_split in G1. destruct G1 as (l1 & l2 & -> & L1). rewrite <- L1, skipn_app, skipn_all, Nat.sub_diag. reflexivity. }
        rewrite Q in EC. cbn [old_segs flat_map] in EC. rewrite old_unmark in EC. unfold old_of in EC. rewrite G2, G3 in EC. cbn in EC. injection EC as -> _. reflexivity.
      - exfalso. apply nth_error_None in E'. rewrite skipn_all2 in EC by (rewrite (tl_len _ _ _ _ _ _ _ _ TL); exact E'). discriminate. }
    destruct ej as (e' & E' & <-). destruct (Nat.eq_dec Aa (en c)) as [->|NA].
    - destruct A2 as [A2|(e2 & A2 & A3)]; [exfalso; fold line in A2; assert (en c < length line) by (apply nth_error_Some; congruence); lia|]. fold line in A2. rewrite E' in A2. injection A2 as <-. exact A3.
    - exfalso. assert (LA : st c <= Aa < en c) by lia. destruct (INS Aa LA) as (e2 & E2 & _). destruct (BOX Aa e2 LA E2) as (N2 & EP2 & FK2 & B3 & _ & _). destruct A2 as [A2|(e3 & A2 & A3)]; [fold line in A2; lia|]. fold line in A2. rewrite E2 in A2. injection A2 as <-.
      specialize (K2 Aa ltac:(lia)). rewrite FK2, FK in K2. destruct (fle_nonnan _ _ B3) as [N3 N4]. rewrite <- EP in N. fk. zb. lia. }
  (* the left end *)
  assert (LI : exists x k, st c <= k < en c /\ f k = key x /\ nan x = false /\ (nan (up i (sw_y s)) = false -> fle (up i (sw_y s)) x = true)).
  { destruct (argmin f (en c - st c) (st c)) as (k & K1 & K2); [lia|]. assert (Lk : st c <= k < en c) by lia. destruct (INS k Lk) as (e & E & _). destruct (BOX k e Lk E) as (N & EP & FK & _ & _ & OE).
    destruct (RE k e E OE) as (d & Hd & (Aa & A1 & A2) & (B & B1 & B2)). assert (d = c) by (apply (OWN k e d Lk E Hd); lia). subst d. exists (end_pos a e), k.
    split; [exact Lk|]. split; [exact FK|]. split; [rewrite EP; exact N|]. intros NU. rewrite <- EP in N.
    destruct (st c) as [|m] eqn:EM; [rewrite firstn_O in EA; destruct A; discriminate|].
    assert (ei : exists e', nth_error line m = Some e' /\ le_seg e' = i).
    { destruct (nth_error line m) as [e'|] eqn:E'; [|apply nth_error_None in E'; lia]. exists e'. split; [reflexivity|]. destruct (tl_gap _ _ _ _ _ _ _ _ TL m e' E' (left_gap a tag _ _ _ _ _ TAG ORI _ _ _ _ TL HC EM)) as (G1 & G2 & G3 & G4).
      rewrite (firstn_piece line m (S m)), new_segs_app in EA by lia. unfold piece in EA. replace (S m - m) with 1 in EA by lia.
      assert (Q : firstn 1 (skipn m line) = [e']). { apply nth_error_split in E'. destruct E' as (l1 & l2 & -> & L1). rewrite <- L1, skipn_app, skipn_all, Nat.sub_diag. reflexivity. }
      rewrite Q in EA. rewrite (new_segs_flat [e']) in EA. cbn [flat_map] in EA. unfold newl in EA. assert (RX : really_exits e' = false) by (unfold really_exits; rewrite G2, G4; reflexivity). rewrite RX in EA. cbn [app] in EA. apply app_inj_tail in EA. apply EA. }
    destruct ei as (e' & E' & <-). destruct (Nat.eq_dec B (S m)) as [->|NB'].
    - destruct B2 as [B2|(e2 & B2 & B3)]; [discriminate|]. cbn [Nat.sub] in B2. rewrite Nat.sub_0_r in B2. fold line in B2. rewrite E' in B2. injection B2 as <-. destruct B3 as [B3|B3]; [|exact B3]. fk. zb. lia.
    - exfalso. assert (LB : S m <= B - 1 < en c) by lia. destruct (INS (B - 1) LB) as (e2 & E2 & _). destruct (BOX (B - 1) e2 LB E2) as (N2 & EP2 & FK2 & _ & B4 & _). destruct B2 as [B2|(e3 & B2 & B3)]; [lia|]. fold line in B2. rewrite E2 in B2. injection B2 as <-.
      destruct (K2 (B - 1) ltac:(lia)) as [_ K3]. specialize (K3 ltac:(lia)). rewrite FK2, FK in K3. destruct (fle_nonnan _ _ B4) as [N3 N4]. destruct B3 as [B3|B3]; fk; zb; lia. }
  destruct RJ as (x & X1 & X2 & X3), LI as (z & k & Z1 & Z2 & Z3 & Z4). specialize (X1 k Z1). rewrite Z2 in X1.
  destruct (fle (lo j (sw_y s)) (up i (sw_y s))) eqn:FL; [|reflexivity]. exfalso. destruct (fle_nonnan _ _ FL) as [N1 N2]. specialize (Z4 N2). fk. zb. lia.
Qed.
End Between.
