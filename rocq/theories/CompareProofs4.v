(** Comparing curves: adding slop, and what the sweep needs of the comparisons. *)
From Coq Require Import List Bool ZArith Arith Lia.
From Verif Require Import F64 F64Arith TreeVecModel GeomModel SegmentsModel CurveOrderModel CurveOrderSpec CurveOrderProofs CurveOrderProofs2 CurveOrderProofs3
  SweepModel SweepSpec TopoModel ScanModel PosModel PosProofs CompareModel CompareSpec CompareArith CompareProofs CompareProofs2 CompareProofs3.
Import ListNotations.
Local Open Scope Z_scope.

(** No strict entry ends where the one before it does. *)
Fixpoint no_zero (p : f64) (R : list entry) : Prop :=
  match R with [] => True | e :: R' => (e_order e <> Ish -> key p < key (e_end e)) /\ no_zero (e_end e) R' end.
Lemma no_zero_app p R x : no_zero p R -> e_order x = Ish -> no_zero p (R ++ [x]).
Proof. revert p. induction R as [|e R IH]; intros p H X; cbn [app no_zero] in *; [split; [congruence|exact I]|]. destruct H as (H & H'). split; [exact H|apply IH; assumption]. Qed.
Lemma no_zero_interval p R : no_zero p R -> forall k s e o, interval (mkCO p R) k s e o -> o <> Ish -> key s < key e.
Proof.
  revert p. induction R as [|x R IH]; intros p H k s e o (A & B & C) NI; [destruct k; discriminate C|]. cbn [no_zero] in H. destruct H as (H & H').
  destruct k as [|k].
  - cbn in A, B, C. injection A as <-. injection B as <-. injection C as <-. apply H, NI.
  - apply (IH (e_end x) H' k s e o); [|exact NI]. split; [exact A|]. split; [exact B|exact C].
Qed.
Lemma no_zero_flat S0 E slop : nan S0 = false -> fin slop = true -> fle fzero slop = true -> forall L s p, chained E s L -> nan s = false -> key p <= key s -> no_zero p (flat_map (contrib S0 E slop) L).
Proof.
  intros NS Fs Gs. induction L as [|[[b e] o] L IH]; intros s p Ch Ns H; [exact I|]. cbn [chained] in Ch. destruct Ch as (-> & Ne & L1 & L2 & Ch). cbn [flat_map contrib].
  destruct (nse_ok S0 slop Fs Gs s Ns) as (N1 & K1). destruct (nee_ok E slop Fs Gs e Ne) as (N2 & K2).
  destruct (negb (order_eqb o Ish)); [|apply (IH e p Ch Ne); lia]. destruct (flt (nse S0 slop s) (nee E slop e)) eqn:F; [|apply (IH e p Ch Ne); lia].
  assert (F' : key (nse S0 slop s) < key (nee E slop e)) by (fk; zb; exact F).
  destruct (fne (nse S0 slop s) S0); cbn [app no_zero e_order e_end].
  - split; [congruence|]. split; [intros _; exact F'|]. apply (IH e); [exact Ch|exact Ne|exact K2].
  - split; [intros _; lia|]. apply (IH e); [exact Ch|exact Ne|exact K2].
Qed.

Lemma wf_height_range c h : table_wf c -> In h (heights c) -> nan h = false /\ key (co_start c) <= key h <= key (table_end c).
Proof.
  intros W H. assert (N : nan h = false). { destruct W as (_ & N & _). rewrite Forall_forall in N. apply N, H. } split; [exact N|].
  apply In_nth_error in H as (i & H). destruct (wf_last c W) as (n & s & o & Hn & (A & B & _)).
  assert (i < length (heights c))%nat by (apply nth_error_Some; congruence). assert (LH : length (heights c) = S (S n)) by (unfold heights; cbn [length]; rewrite map_length; congruence).
  split; [apply (wf_heights_mono c 0 i _ _ W); [lia|reflexivity|exact H]|]. apply (wf_heights_mono c i (S n) _ _ W); [lia|exact H|exact B].
Qed.

Lemma slop_table t slop r : table_wf t -> fin slop = true -> fgt slop fzero = true -> co_with_y_slop t slop = Some r ->
  table_wf r /\ co_start r = co_start t /\ feq (table_end r) (table_end t) = true /\
  (forall k s e o, interval r k s e o -> strict o -> zero_height s e -> key e <= key (co_start t)).
Proof.
  intros W Fs Ps E. assert (Gs : fle fzero slop = true). { pose proof (fin_nonnan _ Fs). assert (nan fzero = false) by reflexivity. fk. zb. lia. }
  destruct (with_y_slop_spec t slop W Fs Gs) as (r' & E' & W' & S' & T' & _). rewrite E in E'. injection E' as <-.
  split; [exact W'|]. split; [exact S'|]. split; [exact T'|]. pose proof (wf_start_nonnan t W) as NS. pose proof (wf_end_nonnan t W) as NE.
  intros k s e o Iv So Z. unfold zero_height in Z. destruct (wf_iter_nonnan _ _ _ _ _ W' Iv) as (Na & Nb). assert (Kz : key s = key e) by (fk; zb; exact Z).
  unfold co_with_y_slop in E. assert (feq slop fzero = false) as Fz. { pose proof (fin_nonnan _ Fs). assert (nan fzero = false) by reflexivity. fk. zb. lia. } rewrite Fz in E.
  destruct (last_opt (co_cmps t)) as [la|] eqn:El; [|discriminate]. rewrite <- (table_end_last _ _ El) in E. destruct (feq (co_start t) (table_end t)) eqn:Q.
  - injection E as <-. pose proof (interval_end_le _ _ _ _ _ W Iv). fk. zb. lia.
  - exfalso. rewrite slop_fold in E. cbn [app] in E. assert (NZ : no_zero (co_start t) (co_cmps r)).
    { pose proof (no_zero_flat (co_start t) (table_end t) slop NS Fs Gs (co_iter t) (co_start t) (co_start t) (wf_chained t W) NS (Z.le_refl _)) as NZ.
      destruct (last_opt (flat_map _ _)); [destruct (fne _ _)|]; injection E as <-; cbn [co_cmps]; try exact NZ; apply no_zero_app; solve [exact NZ|reflexivity]. }
    assert (Er : r = mkCO (co_start t) (co_cmps r)) by (destruct r; cbn in *; congruence). rewrite Er in Iv. pose proof (no_zero_interval _ _ NZ _ _ _ _ Iv So). lia.
Qed.

Section Compare.
Variable sub : cubic -> f64 -> f64 -> cubic.
Variable bbox : cubic -> f64 * f64.
Variable est : cubic -> parab.
Variable solve_x : cubic -> f64 -> f64.
Variables rot unrot : bool -> point -> point -> point.
Variables tolerance accuracy : f64.
Notation compare d := (intersect_cubics d sub bbox est solve_x rot unrot tolerance accuracy).

Lemma common_ok c0 c1 : tame_curve c0 -> tame_curve c1 ->
  tame (common_start c0 c1) /\ tame (common_end c0 c1) /\ key (common_start c0 c1) = Z.max (key (py (cb0 c0))) (key (py (cb0 c1))) /\ key (common_end c0 c1) = Z.min (key (py (cb3 c0))) (key (py (cb3 c1))).
Proof.
  intros (A & B) (C & D). pose proof (fin_nonnan _ (tame_fin _ A)) as NA. pose proof (fin_nonnan _ (tame_fin _ B)) as NB. pose proof (fin_nonnan _ (tame_fin _ C)) as NC. pose proof (fin_nonnan _ (tame_fin _ D)) as ND.
  destruct (fmax_nonnan _ _ NA NC) as (_ & K1). destruct (fmin_nonnan _ _ NB ND) as (_ & K2). split; [|split; [|split; assumption]].
  - unfold common_start, fmax. rewrite NA, NC. destruct (fle _ _); assumption.
  - unfold common_end, fmin. rewrite NB, ND. destruct (fle _ _); assumption.
Qed.

Lemma compare_good fuel c0 c1 t : tame_curve c0 -> tame_curve c1 -> compare true fuel c0 c1 = Ok t ->
  table_between (common_start c0 c1) (common_end c0 c1) t /\ fle (common_start c0 c1) (common_end c0 c1) = true.
Proof.
  intros H0 H1 E. destruct (common_ok c0 c1 H0 H1) as (T0 & T1 & _). pose proof (fin_nonnan _ (tame_fin _ T0)) as N0. pose proof (fin_nonnan _ (tame_fin _ T1)) as N1.
  unfold intersect_cubics in E. fold (common_start c0 c1) (common_end c0 c1) in E. set (y0 := common_start c0 c1) in *. set (y1 := common_end c0 c1) in *.
  ok E u E1. ok E r E2. ok E v E3. injection E as <-.
  assert (G : good y0 (key y1) r /\ key (table_end r) = key y1 /\ co_cmps r <> [] /\ key y0 <= key y1).
  { destruct (flt y0 y1) eqn:F.
    - assert (L : key y0 <= key y1) by (fk; zb; lia). destruct (rec_good sub bbox est solve_x rot unrot tolerance accuracy fuel c0 c1 y0 y1 y0 _ r T0 T1 L (good_new y0 (key y0) N0 (Z.le_refl _)) E2) as (A & B & C). auto.
    - destruct (feq y0 y1) eqn:F2.
      + assert (L : key y0 <= key y1) by (fk; zb; lia). ok E2 w E4. destruct (if _ : bool then _ else _) as (x0 & x1). destruct (push_good true y0 (key y0) _ y1 _ r (good_new y0 (key y0) N0 (Z.le_refl _)) N1 L E2) as (A & B & C). auto.
      + injection E2 as <-. discriminate E3. }
  destruct G as (G & K & NE & L). split; [|fk; zb; exact L]. split; [exact (good_wf _ _ _ G NE)|]. split; [apply G|]. pose proof (good_end_nonnan _ _ _ G). fk. zb. exact K.
Qed.

Lemma to_cubic_ends s : cb0 (to_cubic s) = seg_start s /\ cb3 (to_cubic s) = seg_end s.
Proof. destruct s; split; reflexivity. Qed.

Lemma table_for_slop a i j t slop r : (forall k, (k < arena_len a)%nat -> tame (start_y a k) /\ tame (end_y a k)) -> (i < arena_len a)%nat -> (j < arena_len a)%nat ->
  fin slop = true -> fgt slop fzero = true -> table_between (common_start (to_cubic (seg_def a i)) (to_cubic (seg_def a j))) (common_end (to_cubic (seg_def a i)) (to_cubic (seg_def a j))) t -> co_with_y_slop t slop = Some r -> table_for a i j r.
Proof.
  intros HT Hi Hj Fs Ps E ES. destruct (HT i Hi) as (Ti0 & Ti1). destruct (HT j Hj) as (Tj0 & Tj1).
  assert (C0 : tame_curve (to_cubic (seg_def a i))) by (destruct (to_cubic_ends (seg_def a i)) as (A & B); unfold tame_curve; rewrite A, B; split; assumption).
  assert (C1 : tame_curve (to_cubic (seg_def a j))) by (destruct (to_cubic_ends (seg_def a j)) as (A & B); unfold tame_curve; rewrite A, B; split; assumption).
  destruct E as (W & S & T). destruct (common_ok _ _ C0 C1) as (T0 & T1 & _).
  assert (E0 : common_start (to_cubic (seg_def a i)) (to_cubic (seg_def a j)) = fmax (start_y a i) (start_y a j)) by (unfold common_start; rewrite (proj1 (to_cubic_ends (seg_def a i))), (proj1 (to_cubic_ends (seg_def a j))); reflexivity).
  assert (E1 : common_end (to_cubic (seg_def a i)) (to_cubic (seg_def a j)) = fmin (end_y a i) (end_y a j)) by (unfold common_end; rewrite (proj2 (to_cubic_ends (seg_def a i))), (proj2 (to_cubic_ends (seg_def a j))); reflexivity).
  rewrite E0 in *. rewrite E1 in *. destruct (slop_table t slop r W Fs Ps ES) as (W' & S' & T' & Z').
  pose proof (wf_end_nonnan t W) as Nt. pose proof (wf_end_nonnan r W') as Nr. pose proof (fin_nonnan _ (tame_fin _ T1)) as N1. pose proof (fin_nonnan _ (tame_fin _ T0)) as N0.
  assert (K : key (table_end r) = key (fmin (end_y a i) (end_y a j))) by (fk; zb; congruence).
  split; [exact W'|]. split; [fk; zb; exact K|]. split.
  - intros s e Hs He. destruct (wf_height_range r s W' Hs) as (Ns & Ls). destruct (wf_height_range r e W' He) as (Ne & Le).
    rewrite S', S, K in Ls, Le. assert (Ts : tame s) by (eapply tame_between; [exact T0|exact T1|exact Ns|exact Ls]). assert (Te : tame e) by (eapply tame_between; [exact T0|exact T1|exact Ne|exact Le]).
    split; [apply tame_fin, Ts|]. split; [apply tame_fin, Te|apply tame_add; assumption].
  - intros k s e o Iv So Zh. pose proof (Z' k s e o Iv So Zh) as Q. rewrite S in Q. destruct (wf_iter_nonnan _ _ _ _ _ W' Iv) as (Na & Nb). fk. zb. exact Q.
Qed.

Lemma table_for_flip a i j t : (i < arena_len a)%nat -> (j < arena_len a)%nat -> (forall k, (k < arena_len a)%nat -> tame (start_y a k) /\ tame (end_y a k)) -> table_for a j i t -> table_for a i j (co_flip t).
Proof.
  intros Hi Hj HT (W & E & F & Z). destruct (HT i Hi) as (Ti0 & Ti1). destruct (HT j Hj) as (Tj0 & Tj1).
  pose proof (fin_nonnan _ (tame_fin _ Ti0)) as N1. pose proof (fin_nonnan _ (tame_fin _ Ti1)) as N2. pose proof (fin_nonnan _ (tame_fin _ Tj0)) as N3. pose proof (fin_nonnan _ (tame_fin _ Tj1)) as N4.
  destruct (fmax_nonnan _ _ N1 N3) as (A1 & A2). destruct (fmax_nonnan _ _ N3 N1) as (B1 & B2). destruct (fmin_nonnan _ _ N2 N4) as (C1 & C2). destruct (fmin_nonnan _ _ N4 N2) as (D1 & D2).
  assert (TE : table_end (co_flip t) = table_end t) by (unfold table_end; rewrite flip_heights; reflexivity).
  assert (WF : table_wf (co_flip t)).
  { destruct W as (W1 & W2 & W3 & W4). unfold table_wf. rewrite flip_heights, flip_orders. split; [destruct t as [s [|]]; [contradiction|discriminate]|]. split; [exact W2|]. split; [exact W3|].
    intros k a' b' Ha Hb. rewrite nth_error_map in Ha, Hb. destruct (nth_error (orders t) k) as [x|] eqn:Ex; [|discriminate]. destruct (nth_error (orders t) (S k)) as [y|] eqn:Ey; [|discriminate].
    injection Ha as <-. injection Hb as <-. destruct (W4 _ _ _ Ex Ey) as [Hd Hx]. split; [destruct x, y; cbn; congruence|]. destruct Hx as [-> | ->]; cbn; auto. }
  pose proof (wf_end_nonnan t W) as Nt. split; [exact WF|]. split; [rewrite TE; fk; zb; lia|]. split; [rewrite flip_heights; exact F|].
  intros k s e o (I1 & I2 & I3) So Zh. rewrite flip_heights in I1, I2. rewrite flip_orders, nth_error_map in I3. destruct (nth_error (orders t) k) as [x|] eqn:Ex; [|discriminate]. injection I3 as <-.
  assert (Iv : interval t k s e x) by (split; [exact I1|split; [exact I2|exact Ex]]). assert (So' : strict x) by (intro X; apply So; rewrite X; reflexivity).
  pose proof (Z k s e x Iv So' Zh) as Q. destruct (wf_iter_nonnan _ _ _ _ _ W Iv) as (Na & Nb). fk. zb. lia.
Qed.
End Compare.
