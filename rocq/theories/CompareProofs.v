(** Comparing curves: the tables that come out are well formed. *)
From Coq Require Import List Bool ZArith Arith Lia.
From Verif Require Import F64 F64Arith TreeVecModel GeomModel SegmentsModel CurveOrderModel CurveOrderSpec CurveOrderProofs CurveOrderProofs2 CurveOrderProofs3
  SweepModel TopoModel ScanModel PosModel PosProofs CompareModel CompareSpec CompareArith.
Import ListNotations.
Local Open Scope Z_scope.

(** A table under construction: it starts at [s], has sorted heights and alternating orders, and reaches at most height [h]. *)
Definition good (s : f64) (h : Z) (c : curve_order) : Prop :=
  co_start c = s /\ Forall (fun x => nan x = false) (heights c) /\ nondecreasing (heights c) /\ alternating (orders c) /\ key (table_end c) <= h.

Lemma heights_snoc s m x : heights (mkCO s (m ++ [x])) = (s :: map e_end m) ++ [e_end x].
Proof. unfold heights. cbn [co_start co_cmps]. rewrite map_app. reflexivity. Qed.
Lemma orders_snoc s m x : orders (mkCO s (m ++ [x])) = map e_order m ++ [e_order x].
Proof. unfold orders. cbn [co_cmps]. rewrite map_app. reflexivity. Qed.
Lemma table_end_snoc s m x : table_end (mkCO s (m ++ [x])) = e_end x.
Proof. unfold table_end. rewrite heights_snoc. apply last_last. Qed.
Lemma nd_snoc l x y : nondecreasing (l ++ [x]) -> fle x y = true -> nondecreasing (l ++ [x; y]).
Proof. intros H1 H2. apply adjacent_snoc. split; assumption. Qed.
Lemma nd_repl l x y : nondecreasing (l ++ [x]) -> fle x y = true -> nondecreasing (l ++ [y]).
Proof.
  intros H1 H2. destruct (snoc_cases l) as [->|(l' & z & ->)]; [apply adjacent_one|]. rewrite <- app_assoc in *. cbn [app] in *.
  unfold nondecreasing in *. rewrite adjacent_snoc in *. destruct H1 as (A & B). split; [exact A|]. eapply fle_trans; eassumption.
Qed.
Lemma good_new s h : nan s = false -> key s <= h -> good s h (co_new s).
Proof.
  intros N H. split; [reflexivity|]. split; [repeat constructor; exact N|]. split; [apply adjacent_one|]. split; [apply adjacent_nil|exact H].
Qed.
Lemma good_mono s h h' c : good s h c -> h <= h' -> good s h' c.
Proof. intros (A & B & C & D & E) L. split; [exact A|]. split; [exact B|]. split; [exact C|]. split; [exact D|lia]. Qed.
Lemma good_wf s h c : good s h c -> co_cmps c <> [] -> table_wf c.
Proof. intros (A & B & C & D & E) L. split; [exact L|]. split; [exact B|]. split; assumption. Qed.
Lemma good_end_nonnan s h c : good s h c -> nan (table_end c) = false.
Proof.
  intros (A & B & C & D & E). rewrite Forall_forall in B. apply B. unfold table_end. assert (N : heights c <> []) by discriminate.
  destruct (exists_last N) as (l & x & ->). rewrite last_last. apply in_app_iff. right. left. reflexivity.
Qed.

Lemma good_snoc s h c y o : good s h c -> nan y = false -> key (table_end c) <= key y ->
  (forall m x, co_cmps c = m ++ [x] -> e_order x <> o /\ (e_order x = Ish \/ o = Ish)) ->
  good s (key y) (mkCO s (co_cmps c ++ [mkEntry y o])) /\ table_end (mkCO s (co_cmps c ++ [mkEntry y o])) = y.
Proof.
  intros G N H X. pose proof (good_end_nonnan _ _ _ G) as NE. destruct G as (A & B & C & D & E). split; [|apply table_end_snoc].
  split; [reflexivity|]. rewrite heights_snoc, orders_snoc, table_end_snoc. cbn [e_end e_order]. unfold heights in B, C. rewrite A in B, C.
  split; [apply Forall_app; split; [exact B|repeat constructor; exact N]|].
  assert (F : fle (table_end c) y = true) by (fk; zb; exact H). unfold table_end, heights in F. rewrite A in F.
  split.
  - destruct (exists_last (l := s :: map e_end (co_cmps c))) as (l & x & E'); [discriminate|]. rewrite E' in *. rewrite last_last in F. rewrite <- app_assoc. apply nd_snoc; assumption.
  - split; [|lia]. unfold orders in D. destruct (snoc_cases (co_cmps c)) as [->|(m & x & E')]; [apply adjacent_one|].
    rewrite E' in *. rewrite map_app in *. cbn [map] in *. rewrite <- app_assoc. apply adjacent_snoc. split; [exact D|]. exact (X m x eq_refl).
Qed.
Lemma good_repl s h m x y o : good s h (mkCO s (m ++ [x])) -> nan y = false -> key (e_end x) <= key y -> e_order x = o ->
  good s (key y) (mkCO s (m ++ [mkEntry y o])) /\ table_end (mkCO s (m ++ [mkEntry y o])) = y.
Proof.
  intros G N H <-. pose proof (good_end_nonnan _ _ _ G) as NE. rewrite table_end_snoc in NE. destruct G as (A & B & C & D & E). split; [|apply table_end_snoc].
  split; [reflexivity|]. rewrite heights_snoc, orders_snoc, table_end_snoc in *. cbn [e_end e_order].
  apply Forall_app in B as (B & _). split; [apply Forall_app; split; [exact B|repeat constructor; exact N]|].
  split; [|split; [exact D|lia]]. eapply nd_repl; [exact C|]. fk. zb. exact H.
Qed.

(** One push at or above the end of the table. *)
Lemma good_push s h c y o : good s h c -> nan y = false -> h <= key y ->
  exists c', co_push c y o = Some c' /\ good s (key y) c' /\ key (table_end c') = key y /\ co_cmps c' <> [].
Proof.
  intros G N H. pose proof (good_end_nonnan _ _ _ G) as NE. assert (L : key (table_end c) <= key y) by (destruct G as (_ & _ & _ & _ & E); lia).
  assert (St : co_start c = s) by apply G. unfold co_push. pose proof (last_opt_spec (co_cmps c)) as LO. destruct (last_opt (co_cmps c)) as [la|].
  2: { eexists. split; [reflexivity|]. rewrite St. destruct (good_snoc s h c y o G N L) as (G1 & E1).
       - intros m x E. rewrite LO in E. destruct m; discriminate.
       - split; [exact G1|]. split; [rewrite E1; reflexivity|]. cbn [co_cmps]. rewrite LO. discriminate. }
  destruct LO as (m & Em). assert (Ec : c = mkCO s (m ++ [la])) by (destruct c; cbn in *; congruence). rewrite Ec in *. cbn [co_cmps co_start] in *. rewrite table_end_snoc in L, NE.
  assert (GE : fge y (e_end la) = true) by (fk; zb; exact L). rewrite GE. cbn [negb]. rewrite set_last_app.
  assert (SAME : e_order la = o -> exists c', Some (mkCO s (m ++ [mkEntry y (e_order la)])) = Some c' /\ good s (key y) c' /\ key (table_end c') = key y /\ co_cmps c' <> []).
  { intro E. eexists. split; [reflexivity|]. destruct (good_repl s h m la y (e_order la) G N L eq_refl) as (G1 & E1). split; [exact G1|]. split; [rewrite E1; reflexivity|]. cbn [co_cmps]. destruct m; discriminate. }
  assert (OPP : e_order la <> o -> e_order la <> Ish -> o <> Ish -> exists c', Some (mkCO s ((m ++ [la]) ++ [mkEntry y Ish; mkEntry y o])) = Some c' /\ good s (key y) c' /\ key (table_end c') = key y /\ co_cmps c' <> []).
  { intros E1 E2 E3. eexists. split; [reflexivity|]. destruct (good_snoc s h (mkCO s (m ++ [la])) y Ish G N) as (G1 & T1).
    - rewrite table_end_snoc. exact L.
    - intros m' x E. cbn [co_cmps] in E. apply app_inj_tail in E as (_ & <-). auto.
    - cbn [co_cmps] in G1, T1. destruct (good_snoc s (key y) _ y o G1 N) as (G2 & T2).
      + rewrite T1. lia.
      + intros m' x E. cbn [co_cmps] in E. apply app_inj_tail in E as (_ & <-). cbn [e_order]. auto.
      + cbn [co_cmps] in G2, T2. rewrite <- app_assoc in G2, T2. cbn [app] in G2, T2. rewrite <- app_assoc. cbn [app]. rewrite <- app_assoc in G2, T2. cbn [app] in G2, T2.
        split; [exact G2|]. split; [rewrite T2; reflexivity|]. cbn [co_cmps]. destruct m; discriminate. }
  assert (NEW : e_order la <> o -> (e_order la = Ish \/ o = Ish) -> exists c', (if fgt y (e_end la) then Some (mkCO s ((m ++ [la]) ++ [mkEntry y o])) else Some (mkCO s (m ++ [la]))) = Some c' /\ good s (key y) c' /\ key (table_end c') = key y /\ co_cmps c' <> []).
  { intros E1 E2. destruct (fgt y (e_end la)) eqn:Gt.
    - eexists. split; [reflexivity|]. destruct (good_snoc s h (mkCO s (m ++ [la])) y o G N) as (G1 & T1).
      + rewrite table_end_snoc. exact L.
      + intros m' x E. cbn [co_cmps] in E. apply app_inj_tail in E as (_ & <-). auto.
      + cbn [co_cmps] in *. split; [exact G1|]. split; [rewrite T1; reflexivity|]. destruct m; discriminate.
    - eexists. split; [reflexivity|]. split; [|split].
      + destruct G as (A & B & C & D & E). split; [exact A|]. split; [exact B|]. split; [exact C|]. split; [exact D|]. rewrite table_end_snoc. exact L.
      + rewrite table_end_snoc. fk. zb. lia.
      + cbn [co_cmps]. destruct m; discriminate. }
  destruct (e_order la), o; first [apply SAME; congruence | apply OPP; congruence | apply NEW; [congruence|auto]].
Qed.

(** Replacing the last height by one at or above it. *)
Lemma good_set_last s h c y c' : good s h c -> nan y = false -> h <= key y -> set_last_end c y = Ok c' ->
  good s (key y) c' /\ key (table_end c') = key y /\ co_cmps c' <> [].
Proof.
  intros G N H E. unfold set_last_end in E. ok E la El. apply orerr_some in El. injection E as <-.
  pose proof (last_opt_spec (co_cmps c)) as LO. rewrite El in LO. destruct LO as (m & Em). assert (St : co_start c = s) by apply G.
  assert (Ec : c = mkCO s (m ++ [la])) by (destruct c; cbn in *; congruence). rewrite Ec in *. cbn [co_cmps co_start] in *. rewrite set_last_app.
  destruct (good_repl s h m la y (e_order la) G N) as (G1 & T1); [|reflexivity|].
  - destruct G as (_ & _ & _ & _ & B). rewrite table_end_snoc in B. lia.
  - split; [exact G1|]. split; [rewrite T1; reflexivity|]. cbn [co_cmps]. destruct m; discriminate.
Qed.

Section Compare.
Variable sub : cubic -> f64 -> f64 -> cubic.
Variable bbox : cubic -> f64 * f64.
Variable est : cubic -> parab.
Variable solve_x : cubic -> f64 -> f64.
Variables rot unrot : bool -> point -> point -> point.
Variables tolerance accuracy : f64.

Lemma push_good dbg s h c y o c' : good s h c -> nan y = false -> h <= key y -> push dbg c y o = Ok c' ->
  good s (key y) c' /\ key (table_end c') = key y /\ co_cmps c' <> [].
Proof.
  intros G N H E. unfold push in E. destruct (good_push s h c y o G N H) as (c1 & E1 & R). rewrite E1 in E. injection E as <-. exact R.
Qed.
Lemma fclamp_ok x lo hi y : fclamp x lo hi = Ok y -> fle lo hi = true /\ (nan y = false -> key lo <= key y <= key hi) /\ (nan x = false -> nan y = false) /\ (nan y = true -> nan x = true).
Proof.
  unfold fclamp. destruct (fle lo hi) eqn:L; [|discriminate]. destruct (fle_nonnan _ _ L) as (N1 & N2). intro E. injection E as <-.
  split; [reflexivity|]. assert (key lo <= key hi) by (fk; zb; exact L). destruct (nan x) eqn:Nx.
  - assert (flt x lo = false) as -> by (destruct x; try discriminate; reflexivity). assert (fgt x hi = false) as -> by (destruct x; try discriminate; destruct hi; reflexivity).
    rewrite Nx. split; [discriminate|]. split; [discriminate|reflexivity].
  - destruct (flt x lo) eqn:A; [|destruct (fgt x hi) eqn:B].
    + assert (fgt lo hi = false) as -> by (fk; zb; lia). split; [fk; zb; lia|]. split; [auto|]. congruence.
    + split; [fk; zb; lia|]. split; [auto|]. congruence.
    + split; [fk; zb; lia|]. split; [auto|]. congruence.
Qed.

Lemma fclamp_key x lo hi y : fclamp x lo hi = Ok y -> nan x = false -> key y = Z.min (Z.max (key x) (key lo)) (key hi).
Proof.
  unfold fclamp. destruct (fle lo hi) eqn:L; [|discriminate]. destruct (fle_nonnan _ _ L) as (N1 & N2). intros E N. injection E as <-.
  destruct (flt x lo) eqn:A; [destruct (fgt lo hi) eqn:B|destruct (fgt x hi) eqn:B]; fk; zb; lia.
Qed.

(** In a debug build a push of NaN, or below the last height, stops the program; only the very first push is unchecked. *)
Lemma map_back_good flag center c0 c1 y0 y1 l : forall s out out', good s (key y1) out ->
  nan y0 = false -> nan y1 = false -> key (table_end out) <= key y0 ->
  map_back true solve_x unrot flag center c0 c1 y0 y1 l out = Ok out' ->
  good s (key y1) out' \/ (exists e, co_cmps out = [] /\ co_cmps out' = [e] /\ co_start out' = s).
Proof.
  assert (STEP : forall l s out out', good s (key y1) out -> nan y0 = false -> nan y1 = false -> co_cmps out <> [] ->
    map_back true solve_x unrot flag center c0 c1 y0 y1 l out = Ok out' -> good s (key y1) out').
  { clear l. induction l as [|[[a h] o] l IH]; intros s out out' G N0 N1 NE E; cbn [map_back] in E; [injection E as <-; exact G|].
    ok E e E1. ok E o1 E2. destruct (fclamp_ok _ _ _ _ E1) as (L & B & _).
    unfold push in E2. destruct (co_push out e o) as [c'|] eqn:P; [|discriminate]. injection E2 as <-.
    assert (Q : nan e = false /\ key (table_end out) <= key e).
    { unfold co_push in P. pose proof (last_opt_spec (co_cmps out)) as LO. destruct (last_opt (co_cmps out)) as [la|]; [|congruence].
      destruct LO as (m & Em). destruct (fge e (e_end la)) eqn:F; [|discriminate]. destruct (fle_nonnan _ _ F) as (X & Y).
      assert (table_end out = e_end la) as -> by (destruct out as [s' cm]; cbn [co_cmps] in *; subst cm; apply table_end_snoc). split; [exact Y|]. fk. zb. exact F. }
    destruct Q as (Ne & Le). assert (G' : good s (key e) out) by (destruct G as (A1 & A2 & A3 & A4 & A5); split; [exact A1|]; split; [exact A2|]; split; [exact A3|]; split; assumption).
    destruct (good_push s (key e) out e o G' Ne (Z.le_refl _)) as (c1' & P1 & G1 & T1 & NE1). rewrite P in P1. injection P1 as <-.
    eapply IH; [|exact N0|exact N1|exact NE1|exact E]. eapply good_mono; [exact G1|]. destruct (B Ne). lia. }
  intros s out out' G N0 N1 LE E. destruct (co_cmps out) as [|x r] eqn:C; [|left; eapply STEP; try eassumption; rewrite C; discriminate].
  destruct l as [|[[a h] o] l]; cbn [map_back] in E; [injection E as <-; left; exact G|].
  ok E e E1. ok E o1 E2. destruct (fclamp_ok _ _ _ _ E1) as (L & B & _). unfold push in E2.
  destruct (nan e) eqn:Ne.
  - unfold co_push in E2. rewrite C in E2. cbn [last_opt app] in E2. injection E2 as <-.
    destruct l as [|[[a' h'] o'] l]; cbn [map_back] in E; [injection E as <-; right; eexists; split; [reflexivity|]; split; [reflexivity|apply G]|].
    exfalso. ok E e' E3. ok E o2 E4. unfold push, co_push in E4. cbn [co_cmps last_opt e_end] in E4. assert (fge e' e = false) as F by (destruct e; try discriminate; destruct e'; reflexivity).
    rewrite F in E4. discriminate.
  - destruct (B eq_refl) as (B1 & B2). assert (G' : good s (key e) out) by (destruct G as (A1 & A2 & A3 & A4 & A5); split; [exact A1|]; split; [exact A2|]; split; [exact A3|]; split; [exact A4|lia]).
    destruct (good_push s (key e) out e o G' Ne (Z.le_refl _)) as (c1' & P1 & G1 & T1 & NE1). rewrite P1 in E2. injection E2 as <-.
    left. eapply STEP; [|exact N0|exact N1|exact NE1|exact E]. eapply good_mono; [exact G1|lia].
Qed.

(** ** The estimate *)
Lemma fmin_ends y1 e : nan y1 = false -> nan e = false -> nan (fmin e y1) = false /\ key (fmin e y1) = Z.min (key e) (key y1).
Proof. intros N1 N2. apply fmin_nonnan; assumption. Qed.
(** What the scratch table contains: ends between the scaled heights. *)
Definition ends_in (y0 y1 : f64) (c : curve_order) : Prop :=
  nondecreasing (map e_end (co_cmps c)) /\ alternating (orders c) /\ Forall (fun e => nan (e_end e) = false /\ key y0 <= key (e_end e) <= key y1) (co_cmps c).

Lemma ends_in_good y0 y1 c : nan y0 = false -> ends_in y0 y1 c -> key y0 <= key y1 -> good y0 (key y1) (mkCO y0 (co_cmps c)).
Proof.
  intros N (A & B & C) L. split; [reflexivity|]. unfold heights. cbn [co_start co_cmps]. split; [|split; [|split; [exact B|]]].
  - constructor; [exact N|]. apply Forall_forall. intros x Hx. apply in_map_iff in Hx as (e & <- & He). rewrite Forall_forall in C. apply C, He.
  - destruct (co_cmps c) as [|e r]; [apply adjacent_one|]. cbn [map] in *. apply adjacent_cons. split; [|exact A]. inversion C as [|? ? H1 H2]; subst. destruct H1 as (H1 & H3). fk. zb. lia.
  - destruct (snoc_cases (co_cmps c)) as [->|(m & x & E)]; [exact L|]. rewrite E, table_end_snoc. rewrite E in C. apply Forall_app in C as (_ & C). inversion C; subst. tauto.
Qed.
Lemma ends_in_push dbg y0 y1 c y o c' : ends_in y0 y1 c -> nan y0 = false -> nan y = false -> key y0 <= key y <= key y1 -> (forall la, last_opt (co_cmps c) = Some la -> key (e_end la) <= key y) ->
  push dbg c y o = Ok c' -> ends_in y0 y1 c' /\ co_cmps c' <> [].
Proof.
  intros EI N0 N L LA E. destruct EI as (A & B & C).
  assert (G : good y0 (key y) (mkCO y0 (co_cmps c))).
  { assert (G : good y0 (key y1) (mkCO y0 (co_cmps c))) by (apply ends_in_good; [exact N0|split; [exact A|split; assumption]|lia]).
    destruct G as (A1 & A2 & A3 & A4 & A5). split; [exact A1|]. split; [exact A2|]. split; [exact A3|]. split; [exact A4|].
    pose proof (last_opt_spec (co_cmps c)) as LO. destruct (last_opt (co_cmps c)) as [la|].
    - destruct LO as (m & E'). rewrite E', table_end_snoc. apply LA. reflexivity.
    - rewrite LO. cbn. unfold table_end. cbn. lia. }
  destruct (good_push y0 (key y) _ y o G N (Z.le_refl _)) as (c1 & P & G1 & T1 & NE).
  assert (P' : exists c2, co_push c y o = Some c2 /\ co_cmps c2 = co_cmps c1).
  { revert P. unfold co_push. cbn [co_cmps co_start]. destruct (last_opt (co_cmps c)) as [la|].
    - destruct (negb (fge y (e_end la))); [discriminate|]. destruct (e_order la), o; try (intro P; injection P as <-; eexists; split; reflexivity);
      (destruct (fgt y (e_end la)); intro P; injection P as <-; eexists; split; reflexivity).
    - intro P. injection P as <-. eexists; split; reflexivity. }
  destruct P' as (c2 & P2 & E2). unfold push in E. rewrite P2 in E. injection E as <-. rewrite E2. split; [|exact NE].
  destruct G1 as (A1 & A2 & A3 & A4 & A5). unfold ends_in, orders. rewrite E2. split; [|split; [exact A4|]].
  - unfold heights in A3. destruct (co_cmps c1) as [|e r]; [contradiction|]. cbn [map] in *. apply adjacent_cons in A3 as (_ & A3). exact A3.
  - apply Forall_forall. intros e He. unfold heights in A2, A3. rewrite Forall_forall in A2. assert (Ne : nan (e_end e) = false) by (apply A2; right; apply in_map; exact He). split; [exact Ne|].
    assert (W : table_wf c1) by (split; [exact NE|]; split; [apply Forall_forall; exact A2|]; split; assumption).
    apply In_nth_error in He as (i & Hi). destruct (interval_exists c1 i) as (a & b & o' & Iv); [apply nth_error_Some; congruence|].
    assert (b = e_end e) as ->. { destruct Iv as (_ & Iv & _). unfold heights in Iv. cbn [nth_error] in Iv. rewrite nth_error_map, Hi in Iv. cbn in Iv. congruence. }
    pose proof (interval_end_le _ _ _ _ _ W Iv). pose proof (interval_start_ge _ _ _ _ _ W Iv). pose proof (wf_interval_le _ _ _ _ _ W Iv). rewrite A1 in *. lia.
Qed.
Lemma pushes_in_ends dbg y0 y1 l : forall c c', nan y0 = false -> nan y1 = false -> key y0 <= key y1 -> ends_in y0 y1 c ->
  pushes_in dbg y0 y1 c l = Ok c' -> ends_in y0 y1 c'.
Proof.
  induction l as [|[e o] l IH]; intros c c' N0 N1 L EI E; cbn [pushes_in] in E; [injection E as <-; exact EI|].
  ok E k1 E1. eapply IH; [exact N0|exact N1|exact L| |exact E]. unfold push_in in E1.
  destruct (fgt e y0 && _) eqn:K; [|injection E1 as <-; exact EI]. apply andb_true_iff in K as (K1 & K2).
  destruct (flt_nonnan _ _ K1) as (_ & Ne). destruct (fmin_ends y1 e N1 Ne) as (Nm & Km).
  eapply (ends_in_push dbg y0 y1 c (fmin e y1) o); [exact EI|exact N0|exact Nm| | |exact E1].
  - fk. zb. lia.
  - intros la El. rewrite El in K2. apply andb_true_iff in K2 as (K2 & K3). destruct (flt_nonnan _ _ K2) as (Nl & _). fk. zb. lia.
Qed.
Lemma push_nonempty dbg c y o c' : push dbg c y o = Ok c' -> co_cmps c' <> [].
Proof.
  unfold push, co_push, push_any. pose proof (last_opt_spec (co_cmps c)) as LO. destruct (last_opt (co_cmps c)) as [la|].
  - destruct LO as (m & Em). rewrite Em. rewrite set_last_app.
    assert (Q : forall b : bool, co_cmps (mkCO (co_start c) (m ++ [mkEntry y (e_order la)])) <> [] /\ co_cmps (mkCO (co_start c) ((m ++ [la]) ++ [mkEntry y Ish; mkEntry y o])) <> [] /\ co_cmps (if b then mkCO (co_start c) ((m ++ [la]) ++ [mkEntry y o]) else c) <> []).
    { intro b. cbn [co_cmps]. split; [destruct m; discriminate|]. split; [destruct m; discriminate|]. destruct b; cbn [co_cmps]; [destruct m; discriminate|]. rewrite Em. destruct m; discriminate. }
    destruct (Q (fgt y (e_end la))) as (Q1 & Q2 & Q3). destruct (negb (fge y (e_end la))); [destruct dbg; [discriminate|]|];
    (destruct (e_order la), o; intro E; try (destruct (fgt y (e_end la))); injection E as <-; assumption).
  - intro E. injection E as <-. cbn [co_cmps]. destruct (co_cmps c); discriminate.
Qed.
(** With a last push at the upper height, the table is not empty. *)
Lemma pushes_in_nonempty dbg y0 y1 l : forall c c' o, flt y0 y1 = true -> pushes_in dbg y0 y1 c (l ++ [(y1, o)]) = Ok c' -> co_cmps c' <> [].
Proof.
  induction l as [|[e o'] l IH]; intros c c' o L E; cbn [app pushes_in] in E.
  - ok E k1 E1. injection E as <-. unfold push_in in E1. assert (fgt y1 y0 = true) as F by exact L. rewrite F in E1. cbn [andb] in E1.
    destruct (last_opt (co_cmps c)) as [la|] eqn:El.
    + destruct (flt (e_end la) y1 && flt (e_end la) y1); [eapply push_nonempty; exact E1|]. injection E1 as <-. intro X. rewrite X in El. discriminate.
    + eapply push_nonempty; exact E1.
  - ok E k1 E1. eapply IH; [exact L|exact E].
Qed.
Lemma quadratic_signs_last dbg a b c lower upper y1 l : quadratic_signs dbg a b c lower upper y1 = Ok l -> exists l' o, l = l' ++ [(y1, o)].
Proof.
  intro E. unfold quadratic_signs in E. destruct (_ || _ || _).
  - destruct (_ && _).
    + destruct (fgt b fzero); injection E as <-; [exists [(fdiv (fneg (fsub c lower)) b, Right); (fdiv (fneg (fsub c upper)) b, Ish)], Left|exists [(fdiv (fneg (fsub c upper)) b, Left); (fdiv (fneg (fsub c lower)) b, Ish)], Right]; reflexivity.
    + destruct (flt c lower); [injection E as <-; exists [], Right; reflexivity|]. destruct (fgt c upper); injection E as <-; [exists [], Left|exists [], Ish]; reflexivity.
  - destruct (monic_quadratic_roots _ _) as (r0 & s0). destruct (monic_quadratic_roots _ _) as (r1 & s1). destruct (fgt a fzero); ok E x E1; ok E z E2; injection E as <-.
    + exists [(r1, Left); (r0, Ish); (s0, Right); (s1, Ish)], Left. reflexivity.
    + exists [(r0, Right); (r1, Ish); (s1, Left); (s0, Ish)], Right. reflexivity.
Qed.

(** Scaling back keeps the order and stays in range. *)
Lemma unscale_ends m u y0 y1 y0s y1s l : fin m = true -> fin u = true -> positive u -> fin y0s = true -> fin y1s = true ->
  forall l', Forall (fun e => nan (e_end e) = false /\ key y0s <= key (e_end e) <= key y1s) l -> nondecreasing (map e_end l) -> unscale m u y0 y1 l = Ok l' ->
  map e_order l' = map e_order l /\ Forall (fun e => nan (e_end e) = false /\ key y0 <= key (e_end e) <= key y1) l' /\ nondecreasing (map e_end l').
Proof.
  intros Fm Fu Pu F0 F1. assert (NN : forall x, nan x = false -> key y0s <= key x <= key y1s -> fin x = true) by (intros x N H; apply (fin_between' y0s y1s); assumption).
  induction l as [|e l IH]; intros l' C D E; cbn [unscale] in E; [injection E as <-; split; [reflexivity|]; split; [constructor|apply adjacent_nil]|].
  ok E h Eh. ok E l2 El. injection E as <-. inversion C as [|? ? (N & K) C']; subst.
  assert (D' : nondecreasing (map e_end l)). { destruct l as [|e2 l]; [apply adjacent_nil|]. cbn [map] in D. apply adjacent_cons in D as (_ & D). exact D. }
  destruct (IH l2 C' D' El) as (O & R & S). pose proof (NN _ N K) as Fe.
  assert (NX : nan (fadd (fmul (e_end e) u) m) = false) by (apply fadd_nonnan; [apply fmul_nonnan; assumption|exact Fm]).
  destruct (fclamp_ok _ _ _ _ Eh) as (L & B & Nc & _). specialize (Nc NX). cbn [map e_order e_end]. split; [rewrite O; reflexivity|]. split; [constructor; [split; [exact Nc|exact (B Nc)]|exact R]|].
  destruct l as [|e2 l]; [cbn [unscale] in El; injection El as <-; apply adjacent_one|].
  cbn [unscale] in El. ok El h2 Eh2. ok El l3 El3. injection El as <-. cbn [map e_end] in *. apply adjacent_cons. split; [|exact S].
  inversion C' as [|? ? (N2 & K2) _]; subst. pose proof (NN _ N2 K2) as Fe2. apply adjacent_cons in D as (D & _).
  assert (NX2 : nan (fadd (fmul (e_end e2) u) m) = false) by (apply fadd_nonnan; [apply fmul_nonnan; assumption|exact Fm]).
  destruct (fclamp_ok _ _ _ _ Eh2) as (_ & B2 & Nc2 & _). specialize (Nc2 NX2).
  assert (KK : key (fadd (fmul (e_end e) u) m) <= key (fadd (fmul (e_end e2) u) m)).
  { apply fadd_mono; [apply fmul_nonnan; assumption..|exact Fm|]. apply fmul_mono_pos; try assumption. fk. zb. exact D. }
  rewrite fle_key by assumption. apply Z.leb_le. rewrite (fclamp_key _ _ _ _ Eh NX), (fclamp_key _ _ _ _ Eh2 NX2). lia.
Qed.
End Compare.
