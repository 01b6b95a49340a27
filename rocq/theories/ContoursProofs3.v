(** Proofs about contours: all of them, and grouping. *)
From Coq Require Import List Bool ZArith Arith Lia Permutation Sorted.
From Verif Require Import F64 TreeVecModel SegmentsModel SegmentsProofs SweepModel TopoModel TopoSpec TopoProofs TopoProofs2 TopoProofs7 TopoProofs10 ContoursModel ContoursSpec ContoursProofs ContoursProofs2.
Import ListNotations.

Section All.
Context {W : Type}.
Variable t : topo W.
Variable inside : W -> bool.
Hypothesis WF : well_formed t.
Notation n := (length (t_wind t)).
Notation bend := (bend t inside).
Notation after := (after t inside).
Notation trail := (trail t).

Record cinv (st : cstate) : Prop := {
  ci_nodup : NoDup (concat (map c_segs (cs_contours st)));
  ci_bend : forall h, In h (concat (map c_segs (cs_contours st))) -> bend h;
  ci_pred : forall h, In h (concat (map c_segs (cs_contours st))) -> exists k, In k (concat (map c_segs (cs_contours st))) /\ after k (other_half h);
  ci_closed : Forall (fun c => c_segs c <> [] /\ exists p, trail p (c_segs c) p /\ visits_once t (c_segs c)) (cs_contours st);
  ci_forest : contour_forest (cs_contours st);
  ci_vlen : length (cs_visited st) = n;
  ci_vis : forall o, nth_error (cs_visited st) o = Some true <-> exists h, In h (concat (map c_segs (cs_contours st))) /\ h_idx h = o;
  ci_slen : length (cs_seg st) = n;
  ci_seg : forall h, In h (concat (map c_segs (cs_contours st))) -> exists ci, nth_error (cs_seg st) (h_idx h) = Some (Some ci) /\ ci < length (cs_contours st);
  ci_last : length (cs_last st) = length (t_points t) }.

Lemma scan_left_spec fuel : forall west, match west with Some w => S w < fuel /\ w < n | None => 0 < fuel end ->
  exists r, scan_left t inside fuel west = Ok r /\
    match r with None => True | Some w' => boundary t inside w' /\ exists w, west = Some w /\ w' <= w end.
Proof.
  induction fuel as [|fuel IH]; intros west B; [destruct west; lia|]. cbn [scan_left]. destruct west as [w|]; [|exists None; auto].
  destruct B as (B & L). destruct (nth_error (t_deleted t) w) as [d|] eqn:ED.
  2:{ apply nth_error_None in ED. rewrite (wf_deleted _ WF) in ED. lia. }
  cbn [orerr rbind].
  assert (NEXT : exists r, (do! w0 := orerr EIndex (nth_error (t_west t) w) in scan_left t inside fuel w0) = Ok r /\
    match r with None => True | Some w' => boundary t inside w' /\ exists w0, Some w = Some w0 /\ w' <= w0 end).
  { destruct (nth_error (t_west t) w) as [ww|] eqn:EW. 2:{ apply nth_error_None in EW. rewrite (wf_length _ WF) in EW. lia. }
    cbn [orerr rbind]. destruct (IH ww) as (r & E & H).
    { destruct ww as [w'|]; [|lia]. apply (wf_west _ WF) in EW. lia. }
    exists r. split; [exact E|]. destruct r as [r|]; [|exact H]. destruct H as (H & w0 & -> & L0). split; [exact H|]. exists w. split; [reflexivity|].
    apply (wf_west _ WF) in EW. lia. }
  destruct d; cbn [rbind orb]; [exact NEXT|].
  rewrite (bdy_ok t inside w L). cbn [rbind]. destruct (Bool.eqb _ _) eqn:E; cbn [negb]; [exact NEXT|].
  exists (Some w). split; [reflexivity|]. split; [|exists w; auto]. apply boundary_iff. split; [exact ED|]. intros X. rewrite X, eqb_reflx in E. discriminate.
Qed.

Lemma forest_app cs c : contour_forest cs -> match c_parent c with None => c_outer c = true | Some p => exists c', nth_error cs p = Some c' /\ c_outer c = negb (c_outer c') end ->
  contour_forest (cs ++ [c]).
Proof.
  intros F H i x E. destruct (Nat.lt_ge_cases i (length cs)) as [L|L].
  - rewrite nth_error_app1 in E by exact L. specialize (F i x E). destruct (c_parent x) as [p|]; [|exact F]. destruct F as (LP & c' & E' & O). split; [exact LP|].
    exists c'. split; [|exact O]. rewrite nth_error_app1; [exact E'|]. lia.
  - rewrite nth_error_app2 in E by exact L. destruct (i - length cs) as [|j] eqn:J; [|destruct j; discriminate E]. cbn in E. injection E as <-.
    destruct (c_parent c) as [p|]; [|exact H]. destruct H as (c' & E' & O). assert (p < length cs) by (apply nth_error_Some; congruence).
    split; [lia|]. exists c'. split; [|exact O]. rewrite nth_error_app1 by assumption. exact E'.
Qed.
Lemma forest_ext cs cs' : map (fun c => (c_parent c, c_outer c)) cs = map (fun c => (c_parent c, c_outer c)) cs' -> contour_forest cs -> contour_forest cs'.
Proof.
  intros E F i x Ei.
  assert (G : forall (l l' : list contour) j y, map (fun c => (c_parent c, c_outer c)) l = map (fun c => (c_parent c, c_outer c)) l' -> nth_error l' j = Some y ->
    exists z, nth_error l j = Some z /\ c_parent z = c_parent y /\ c_outer z = c_outer y).
  { clear. intros l. induction l as [|a l IH]; intros [|b l'] j y E H; try discriminate E; [destruct j; discriminate H|].
    cbn in E. assert (map (fun c => (c_parent c, c_outer c)) l = map (fun c => (c_parent c, c_outer c)) l') by congruence. destruct j as [|j].
    - cbn in H. injection H as <-. exists a. split; [reflexivity|]. split; congruence.
    - cbn in *. eapply IH; eassumption. }
  destruct (G cs cs' i x E Ei) as (z & Ez & P & O). specialize (F i z Ez). rewrite P, O in F. destruct (c_parent x) as [p|]; [|exact F].
  destruct F as (L & c' & E' & O'). split; [exact L|]. destruct (G cs' cs p c' (eq_sym E) E') as (z' & Ez' & _ & O''). exists z'. split; [exact Ez'|]. congruence.
Qed.
Lemma forest_loops base c loops : contour_forest (base ++ [c]) -> Forall (fun l => c_parent l = Some (length base) /\ c_outer l = negb (c_outer c)) loops -> contour_forest (base ++ c :: loops).
Proof.
  intros F. replace (base ++ c :: loops) with ((base ++ [c]) ++ loops) by (rewrite <- app_assoc; reflexivity).
  induction loops as [|l loops IH] using rev_ind; intros H; [rewrite app_nil_r; exact F|].
  apply Forall_app in H as (H & HL). inversion_clear HL as [|? ? (P & O) _]. rewrite app_assoc. apply forest_app; [apply IH, H|].
  rewrite P. exists c. split; [|exact O]. rewrite <- app_assoc. rewrite nth_error_app2, Nat.sub_diag by lia. reflexivity.
Qed.

Lemma place_spec st west : cinv st -> (forall w, west = Some w -> boundary t inside w /\ nth_error (cs_visited st) w = Some true) ->
  exists c, place t inside st west = Ok c /\ c_segs c = [] /\ contour_forest (cs_contours st ++ [c]).
Proof.
  intros [ND BE PR CL FO VL VI SL SE LA] H. destruct west as [w|]; cbn [place].
  - destruct (H w eq_refl) as (B & V). apply VI in V as (h & I & E). destruct (SE h I) as (wc & S1 & S2). rewrite E in S1. rewrite S1. cbn [orerr rbind].
    assert (w < n) as L by (rewrite <- E; apply (present_lt t WF), BE, I).
    rewrite (in_ccw_ok t inside (first_half w) L). cbn [rbind].
    destruct (nth_error (cs_contours st) wc) as [cw|] eqn:EC; [|apply nth_error_None in EC; lia]. cbn [orerr rbind].
    destruct (Bool.eqb _ _) eqn:Q.
    + apply eqb_prop in Q. pose proof (FO wc cw EC) as FW. destruct (c_parent cw) as [p|] eqn:EP.
      * rewrite orb_true_r. eexists. split; [reflexivity|]. split; [reflexivity|]. apply forest_app; [exact FO|]. cbn [c_parent c_outer].
        destruct FW as (_ & c' & E' & O). exists c'. split; [exact E'|]. congruence.
      * rewrite FW in Q. rewrite Q. cbn [orb]. eexists. split; [reflexivity|]. split; [reflexivity|]. apply forest_app; [exact FO|]. reflexivity.
    + eexists. split; [reflexivity|]. split; [reflexivity|]. apply forest_app; [exact FO|]. cbn [c_parent c_outer]. eauto.
  - eexists. split; [reflexivity|]. split; [reflexivity|]. apply forest_app; [exact FO|]. reflexivity.
Qed.

Lemma one_spec st idx : cinv st -> present t (first_half idx) -> (forall w, boundary t inside w -> w < idx -> nth_error (cs_visited st) w = Some true) ->
  exists st', contours_one t inside st idx = Ok st' /\ cinv st' /\ (boundary t inside idx -> nth_error (cs_visited st') idx = Some true) /\
    forall o, nth_error (cs_visited st) o = Some true -> nth_error (cs_visited st') o = Some true.
Proof.
  intros I P WE. pose proof I as [ND BE PR CL FO VL VI SL SE LA]. unfold contours_one.
  assert (idx < n) as L by (apply (present_lt t WF) in P; exact P).
  destruct (nth_error (cs_visited st) idx) as [v|] eqn:EV; [|apply nth_error_None in EV; lia]. cbn [orerr rbind].
  destruct v. { exists st. auto. }
  rewrite (bdy_ok t inside idx L). cbn [rbind]. destruct (Bool.eqb (icw t inside (first_half idx)) (iccw t inside (first_half idx))) eqn:B; cbn [negb].
  { exists st. split; [reflexivity|]. split; [exact I|]. split; [|auto]. intros X. apply boundary_iff in X as (_ & X). apply eqb_prop in B. congruence. }
  assert (BD : boundary t inside idx). { apply boundary_iff. split; [exact P|]. intros X. rewrite X, eqb_reflx in B. discriminate. }
  destruct (nth_error (t_west t) idx) as [w|] eqn:EW; [|apply nth_error_None in EW; rewrite (wf_length _ WF) in EW; lia]. cbn [orerr rbind].
  destruct (scan_left_spec (S n) w) as (r & -> & HR). { destruct w as [w|]; [|lia]. apply (wf_west _ WF) in EW. lia. }
  cbn [rbind].
  destruct (place_spec st r I) as (c & -> & SC & FC).
  { intros x ->. destruct HR as (HB & w0 & -> & LW). split; [exact HB|]. apply WE; [exact HB|]. apply (wf_west _ WF) in EW. lia. }
  cbn [rbind].
  rewrite (in_ccw_ok t inside (first_half idx) L). cbn [rbind].
  set (x := iccw t inside (first_half idx)).
  set (start := mkHalf idx x). assert (NX : mkHalf idx (negb x) = other_half start) by reflexivity. rewrite NX.
  assert (IX : iccw t inside start = true /\ icw t inside start = false).
  { unfold start. destruct x eqn:EX; subst x.
    - change (mkHalf idx true) with (first_half idx). split; [exact EX|]. destruct (icw t inside (first_half idx)); [|reflexivity]. rewrite EX in B. discriminate B.
    - change (mkHalf idx false) with (other_half (first_half idx)). rewrite iccw_other, icw_other. split; [|exact EX]. destruct (icw t inside (first_half idx)); [reflexivity|]. rewrite EX in B. discriminate B. }
  assert (PS : present t start) by exact P.
  assert (BS : bend (other_half start)). { split; [exact P|]. rewrite icw_other, iccw_other. tauto. }
  destruct (present_pt t WF start PS) as (p & PP & LP). rewrite (point_idx_ok t start p PP). cbn [rbind cs_contours cs_seg cs_visited cs_last].
  destruct (upd_in_range (cs_last st) p (Some 0)) as (la & ELA); [rewrite LA; exact LP|]. rewrite ELA. cbn [orerr rbind]. apply upd_spec' in ELA as (LA' & LAG & _).
  rewrite (in_ccw_ok t inside start L). cbn [rbind]. destruct IX as (IX & IX'). rewrite IX. cbn [negb].
  assert (NS : ~ In (other_half start) (concat (map c_segs (cs_contours st)))).
  { intros X. assert (nth_error (cs_visited st) idx = Some true) as Y by (apply VI; exists (other_half start); split; [exact X | reflexivity]). congruence. }
  destruct (walk_spec t inside WF (S n) start (cs_contours st) c (concat (map c_segs (cs_contours st))) [] (other_half start) [] []
    (mkCs (cs_contours st ++ [c]) (cs_seg st) (cs_visited st) la)) as (P' & segs & loops & st' & EWK & WD).
  { constructor; cbn [cs_contours cs_seg cs_visited cs_last app map concat]; auto.
    - apply nodup_app. split; [exact ND|]. split; [constructor; [intros []|constructor]|]. intros z Hz [<-|[]]. contradiction.
    - constructor.
    - exists p, p. rewrite other_other. split; [exact PP|]. split; [constructor | exact PP].
    - intros o. rewrite app_nil_r. apply VI.
    - intros h Hh. rewrite app_nil_r in Hh. destruct (SE h Hh) as (ci & E1 & E2). exists ci. rewrite app_length. cbn. split; [exact E1 | lia].
    - congruence.
    - intros [|i] h Eh; [|destruct i; discriminate Eh]. cbn in Eh. injection Eh as <-. exists p. rewrite other_other. auto. }
  { cbn. lia. } { exact BE. } { exact PR. }
  rewrite EWK. cbn [rbind]. destruct WD as [CS PE ND' BE' ST PR' TR LO VL' VI' SL' SE' LA''].
  assert (SUB : forall h, In h segs -> In h P') by (intros h Hh; apply (Permutation_in _ (Permutation_sym PE)); apply in_or_app; right; exact Hh).
  rewrite Forall_forall in BE'.
  destruct (assign_spec segs (length (cs_contours st)) (cs_seg st')) as (v & -> & LV & GA & OA).
  { intros h Hh. rewrite SL'. apply (present_lt t WF), BE', SUB, Hh. }
  cbn [rbind]. rewrite CS, nth_error_app2, Nat.sub_diag by lia. cbn [nth_error orerr rbind].
  assert (EU : upd (cs_contours st ++ c :: loops) (length (cs_contours st)) (with_segs c segs) = Some (cs_contours st ++ with_segs c segs :: loops)).
  { clear. induction (cs_contours st) as [|b l IH]; [reflexivity|]. cbn [app length upd]. rewrite IH. reflexivity. }
  rewrite EU. cbn [orerr rbind]. eexists. split; [reflexivity|].
  assert (EC : concat (map c_segs (cs_contours st ++ with_segs c segs :: loops)) = concat (map c_segs (cs_contours st)) ++ segs ++ concat (map c_segs loops)).
  { rewrite map_app, concat_app. reflexivity. }
  assert (PC : Permutation (concat (map c_segs (cs_contours st ++ with_segs c segs :: loops))) (concat (map c_segs (cs_contours st)) ++ P')).
  { rewrite EC. apply Permutation_app_head. rewrite PE. apply Permutation_app_comm. }
  assert (IC : forall h, In h (concat (map c_segs (cs_contours st ++ with_segs c segs :: loops))) <-> In h (concat (map c_segs (cs_contours st)) ++ P')).
  { intros h. split; apply Permutation_in; [exact PC | apply Permutation_sym, PC]. }
  split; [|split].
  - constructor; cbn [cs_contours cs_seg cs_visited cs_last]; auto.
    + apply (Permutation_NoDup (Permutation_sym PC)). exact ND'.
    + intros h Hh. apply IC, in_app_iff in Hh as [Hh|Hh]; [apply BE, Hh | apply BE', Hh].
    + intros h Hh. apply IC, in_app_iff in Hh as [Hh|Hh]; [destruct (PR h Hh) as (k & K1 & K2) | destruct (PR' h Hh) as (k & K1 & K2)]; exists k; (split; [apply IC, in_app_iff; auto | exact K2]).
    + apply Forall_app. split; [exact CL|]. constructor; [exact TR|]. eapply Forall_impl; [|exact LO]. cbn. tauto.
    + apply (forest_ext (cs_contours st ++ c :: loops)); [rewrite !map_app; reflexivity|]. apply forest_loops; [exact FC|]. eapply Forall_impl; [|exact LO]. cbn. tauto.
    + intros o. rewrite VI'. split; intros (h & H1 & H2); exists h; (split; [apply IC, H1 | exact H2]).
    + congruence.
    + intros h Hh. rewrite app_length. cbn [length]. destruct (in_dec half_dec h segs) as [Q|Q].
      * exists (length (cs_contours st)). split; [apply GA, Q | lia].
      * rewrite EC, !in_app_iff in Hh. assert (In h (concat (map c_segs (cs_contours st)) ++ concat (map c_segs loops))) as Hh' by (rewrite in_app_iff; tauto).
        destruct (SE' h Hh') as (ci & E1 & E2). rewrite CS, app_length in E2. exists ci. split; [|exact E2]. rewrite OA; [exact E1|].
        intros z Hz E. apply Q. assert (bend h). { destruct Hh as [Hh|[Hh|Hh]]; [apply BE, Hh | contradiction |]. apply BE'. apply (Permutation_in _ (Permutation_sym PE)), in_app_iff. left. exact Hh. }
        assert (h = z) as -> by (apply (bend_uniq t inside); auto). exact Hz.
  - intros _. cbn [cs_visited]. apply VI'. exists (other_half start). split; [apply in_app_iff; right; exact ST | reflexivity].
  - intros o Ho. cbn [cs_visited]. apply VI'. apply VI in Ho as (h & H1 & H2). exists h. split; [apply in_app_iff; left; exact H1 | exact H2].
Qed.

Lemma loop_spec idxs : forall st, cinv st -> StronglySorted lt idxs -> Forall (fun i => present t (first_half i)) idxs ->
  (forall w, boundary t inside w -> In w idxs \/ nth_error (cs_visited st) w = Some true) ->
  exists st', contours_loop t inside idxs st = Ok st' /\ cinv st' /\ forall w, boundary t inside w -> nth_error (cs_visited st') w = Some true.
Proof.
  induction idxs as [|i idxs IH]; intros st I S P B.
  - exists st. split; [reflexivity|]. split; [exact I|]. intros w Hw. destruct (B w Hw) as [[]|X]. exact X.
  - cbn [contours_loop]. inversion_clear S as [|? ? S' SI]. inversion_clear P as [|? ? PI P']. rewrite Forall_forall in SI.
    destruct (one_spec st i I PI) as (st1 & -> & I1 & V1 & M1).
    { intros w Hw L. destruct (B w Hw) as [[->|X]|X]; [lia| |exact X]. specialize (SI w X). lia. }
    cbn [rbind]. apply IH; auto. intros w Hw. destruct (B w Hw) as [[<-|X]|X]; auto.
Qed.

Lemma segment_indices_spec o : In o (segment_indices t) <-> present t (first_half o).
Proof.
  unfold segment_indices, present. rewrite filter_In, in_seq. cbn [first_half h_idx]. split.
  - intros (_ & H). destruct (nth_error (t_deleted t) o) as [[|]|]; try discriminate H. reflexivity.
  - intros H. rewrite H. split; [|reflexivity]. split; [lia|]. rewrite <- (wf_deleted _ WF). apply nth_error_Some. congruence.
Qed.
Lemma seq_sorted s m : StronglySorted lt (seq s m).
Proof.
  revert s. induction m as [|m IH]; intros s; [constructor|]. cbn. constructor; [apply IH|]. apply Forall_forall. intros x Hx. apply in_seq in Hx. lia.
Qed.
Lemma filter_sorted (f : nat -> bool) l : StronglySorted lt l -> StronglySorted lt (filter f l).
Proof.
  induction 1 as [|x l S IH F]; [constructor|]. cbn. destruct (f x); [|exact IH]. constructor; [exact IH|].
  rewrite Forall_forall in *. intros y Hy. apply filter_In in Hy. apply F, Hy.
Qed.

Theorem contours_spec : exists cs, contours t inside = Ok cs /\
  NoDup (map h_idx (concat (map c_segs cs))) /\ (forall o, In o (map h_idx (concat (map c_segs cs))) <-> boundary t inside o) /\
  Forall (fun c => closed_walk t (c_segs c) /\ visits_once t (c_segs c) /\ set_on_left t inside (c_segs c)) cs /\ contour_forest cs.
Proof.
  unfold contours.
  destruct (loop_spec (segment_indices t) (mkCs [] (repeat None n) (repeat false n) (repeat None (length (t_points t))))) as (st & -> & I & V).
  - constructor; cbn; try (intros; contradiction); auto.
    + constructor.
    + intros i c E. destruct i; discriminate E.
    + apply repeat_length.
    + intros o. split; [|intros (h & [] & _)]. intros E. apply nth_error_In, repeat_spec in E. discriminate E.
    + apply repeat_length.
    + apply repeat_length.
  - apply filter_sorted, seq_sorted.
  - apply Forall_forall. intros o. apply segment_indices_spec.
  - intros w Hw. left. apply segment_indices_spec. apply boundary_iff in Hw. tauto.
  - cbn [rbind]. exists (cs_contours st). split; [reflexivity|]. destruct I as [ND BE PR CL FO VL VI SL SE LA]. split; [|split; [|split; [|exact FO]]].
    + clear - ND BE. induction (concat (map c_segs (cs_contours st))) as [|h l IH]; [constructor|]. inversion_clear ND as [|? ? NI ND'].
      cbn. constructor; [|apply IH; [exact ND'|]; intros k K; apply BE; right; exact K].
      intros X. apply in_map_iff in X as (k & E & K). assert (k = h) as -> by (apply (bend_uniq t inside); [apply BE; right; exact K | apply BE; left; reflexivity | exact E]). contradiction.
    + intros o. rewrite in_map_iff. split.
      * intros (h & <- & I). apply bend_boundary, BE, I.
      * intros B. apply V, VI in B as (h & I & E). eauto.
    + rewrite Forall_forall in *. intros c Hc. destruct (CL c Hc) as (N & p & T & VO). split; [|split; [exact VO|]]; [|clear VO]; [apply (trail_closed t p); assumption|].
      apply Forall_forall. intros h Hh. assert (bend h) as (_ & A & B). { apply BE, in_concat. exists (c_segs c). split; [apply in_map, Hc | exact Hh]. }
      split; [apply inside_cw_iff, A|]. rewrite inside_ccw_iff. congruence.
Qed.
End All.

(** ** Grouping *)
Section Group.
Variable cs : list contour.
Definition par (i : nat) : option nat := match nth_error cs i with Some c => c_parent c | None => None end.
Hypothesis FO : forall i p, par i = Some p -> p < i.

Lemma children_spec l : forall i children top, cs = firstn i cs ++ l -> i <= length cs -> length children = length cs ->
  (forall p, nth_error children p = if p <? length cs then Some (filter (fun j => match par j with Some q => q =? p | None => false end) (seq 0 i)) else None) ->
  top = filter (fun j => match par j with Some _ => false | None => true end) (seq 0 i) ->
  exists children' top', children_loop l i children top = Ok (children', top') /\
    (forall p, nth_error children' p = if p <? length cs then Some (filter (fun j => match par j with Some q => q =? p | None => false end) (seq 0 (length cs))) else None) /\
    top' = filter (fun j => match par j with Some _ => false | None => true end) (seq 0 (length cs)).
Proof.
  induction l as [|c l IH]; intros i children top E LI LC HC HT.
  - rewrite app_nil_r in E. assert (i = length cs). { apply (f_equal (@length _)) in E. rewrite firstn_length in E. lia. }
    subst i. exists children, top. auto.
  - assert (EN : nth_error cs i = Some c).
    { rewrite E. rewrite nth_error_app2; rewrite firstn_length; [|lia]. replace (i - min i (length cs)) with 0 by lia. reflexivity. }
    assert (LI' : i < length cs) by (apply nth_error_Some; congruence).
    assert (E' : cs = firstn (S i) cs ++ l).
    { assert (firstn (S i) cs = firstn i cs ++ [c]) as ->.
      { clear - EN. revert i EN. induction cs as [|x l IH]; intros [|i] H; try discriminate H; cbn in *; [injection H as ->; reflexivity|]. f_equal. apply IH, H. }
      rewrite <- app_assoc. exact E. }
    assert (PI : par i = c_parent c) by (unfold par; rewrite EN; reflexivity).
    assert (SEQ : seq 0 (S i) = seq 0 i ++ [i]) by apply (seq_S i 0).
    cbn [children_loop]. destruct (c_parent c) as [p|] eqn:EP.
    + pose proof (FO i p PI) as LP. pose proof (HC p) as HP. destruct (Nat.ltb_spec p (length cs)) as [_|X]; [|lia]. rewrite HP. cbn [orerr rbind].
      destruct (upd_in_range children p (filter (fun j => match par j with Some q => q =? p | None => false end) (seq 0 i) ++ [i])) as (ch & EU); [lia|].
      rewrite EU. cbn [orerr rbind]. apply upd_spec' in EU as (L1 & G1 & O1). apply IH; auto; try lia.
      * intros q. rewrite SEQ, filter_app. cbn [filter]. rewrite PI. destruct (Nat.eqb_spec p q) as [<-|N].
        -- rewrite G1. destruct (Nat.ltb_spec p (length cs)); [reflexivity|lia].
        -- rewrite app_nil_r, O1 by congruence. apply HC.
      * rewrite SEQ, filter_app. cbn [filter]. rewrite PI, app_nil_r. exact HT.
    + apply IH; auto.
      * intros q. rewrite SEQ, filter_app. cbn [filter]. rewrite PI, app_nil_r. apply HC.
      * rewrite SEQ, filter_app. cbn [filter]. rewrite PI. rewrite HT. reflexivity.
Qed.

Lemma desc_iff i j : descends cs i j <-> i = j \/ exists p, par i = Some p /\ descends cs p j.
Proof.
  split.
  - intros [i'|i' p j' c E P D]; [left; reflexivity|]. right. exists p. split; [unfold par; rewrite E; exact P | exact D].
  - intros [->|(p & P & D)]; [constructor|]. unfold par in P. destruct (nth_error cs i) as [c|] eqn:E; [|discriminate]. eapply d_step; eauto.
Qed.
Lemma desc_le i j : descends cs i j -> j <= i.
Proof. induction 1 as [|i p j c E P D IH]; [lia|]. assert (par i = Some p) as X by (unfold par; rewrite E; exact P). apply FO in X. lia. Qed.
(** A descendant of [j] is [j] or a descendant of exactly one child of [j]. *)
Lemma desc_child i j : descends cs i j -> i = j \/ exists c, par c = Some j /\ descends cs i c.
Proof.
  induction 1 as [|i p j c E P D IH]; [left; reflexivity|]. right. assert (par i = Some p) as X by (unfold par; rewrite E; exact P).
  destruct IH as [->|(k & K & D')]; [exists i; split; [exact X | constructor]|]. exists k. split; [exact K|]. eapply d_step; eauto.
Qed.
Lemma desc_trans i j k : descends cs i j -> descends cs j k -> descends cs i k.
Proof. induction 1; intros; [assumption|]. eapply d_step; eauto. Qed.
Lemma child_desc c j : par c = Some j -> descends cs c j.
Proof. intros H. apply desc_iff. right. exists j. split; [exact H | constructor]. Qed.
Lemma desc_chain i j k : descends cs i j -> descends cs i k -> descends cs j k \/ descends cs k j.
Proof.
  induction 1 as [|i p j c E P D IH]; intros H; [auto|]. apply desc_iff in H as [->|(q & Q & H)].
  - right. eapply d_step; eauto.
  - assert (par i = Some p) as X by (unfold par; rewrite E; exact P). assert (p = q) by congruence. subst q. apply IH, H.
Qed.
Lemma siblings i c d : par c = par d -> descends cs i c -> descends cs i d -> c = d.
Proof.
  intros E A B.
  assert (G : forall c d, par c = par d -> descends cs c d -> c = d).
  { clear - FO. intros c d E H. apply desc_iff in H as [H|(p & P & H)]; [exact H|]. apply desc_le in H. rewrite P in E. symmetry in E. apply FO in E. lia. }
  destruct (desc_chain i c d A B) as [H|H]; [apply G; assumption | symmetry; apply G; congruence].
Qed.

Lemma visit_spec children fuel : (forall p, nth_error children p = if p <? length cs then Some (filter (fun j => match par j with Some q => q =? p | None => false end) (seq 0 (length cs))) else None) ->
  forall idx acc, idx < length cs -> length cs - idx <= fuel ->
  exists tl, visit fuel children idx acc = Ok (acc ++ idx :: tl) /\ NoDup (idx :: tl) /\ forall i, In i (idx :: tl) <-> descends cs i idx /\ i < length cs.
Proof.
  intros HC. induction fuel as [|fuel IH]; intros idx acc LI LF; [lia|]. cbn [visit].
  rewrite HC. destruct (Nat.ltb_spec idx (length cs)) as [_|X]; [|lia]. cbn [orerr rbind].
  set (ch := filter (fun j => match par j with Some q => q =? idx | None => false end) (seq 0 (length cs))).
  assert (CH : forall c, In c ch -> par c = Some idx /\ c < length cs).
  { intros c Hc. apply filter_In in Hc as (H1 & H2). apply in_seq in H1. destruct (par c) as [q|]; [|discriminate]. apply Nat.eqb_eq in H2. subst q. split; [reflexivity | lia]. }
  assert (CN : NoDup ch) by (apply NoDup_filter, seq_NoDup).
  assert (G : forall l, (forall c, In c l -> par c = Some idx /\ c < length cs) -> NoDup l -> forall acc, exists tl,
    (fix loop (l : list nat) (acc : list nat) : res (list nat) := match l with [] => Ok acc | c :: l => do! acc := visit fuel children c acc in loop l acc end) l acc = Ok (acc ++ tl) /\
    NoDup tl /\ forall i, In i tl <-> i < length cs /\ exists c, In c l /\ descends cs i c).
  { induction l as [|c l IHl]; intros HL NL acc'.
    - exists []. rewrite app_nil_r. split; [reflexivity|]. split; [constructor|]. intros i. split; [intros [] | intros (_ & c & [] & _)].
    - destruct (HL c (or_introl eq_refl)) as (PC & LC). inversion_clear NL as [|? ? NI NL'].
      destruct (IH c acc' LC) as (tl1 & -> & N1 & D1). { pose proof (FO c idx PC). lia. }
      cbn [rbind]. destruct (IHl (fun d H => HL d (or_intror H)) NL' (acc' ++ c :: tl1)) as (tl2 & -> & N2 & D2).
      exists ((c :: tl1) ++ tl2). rewrite <- app_assoc. split; [reflexivity|]. split.
      + apply nodup_app. split; [exact N1|]. split; [exact N2|]. intros x H1 H2. apply D1 in H1 as (H1 & _). apply D2 in H2 as (_ & d & Hd & H2).
        destruct (HL d (or_intror Hd)) as (PD & _). assert (c = d) as -> by (apply (siblings x); congruence). contradiction.
      + intros i. rewrite in_app_iff, D1, D2. split.
        * intros [(A & B)|(A & d & B & C)]; [split; [exact B|]; exists c; split; [left; reflexivity | exact A] | split; [exact A|]; exists d; split; [right; exact B | exact C]].
        * intros (A & d & [<-|B] & C); [left; auto | right; eauto]. }
  destruct (G ch CH CN (acc ++ [idx])) as (tl & -> & N & D). exists tl. rewrite <- app_assoc. split; [reflexivity|]. split.
  - constructor; [|exact N]. intros X. apply D in X as (_ & c & Hc & X). apply desc_le in X. destruct (CH c Hc) as (PC & _). apply FO in PC. lia.
  - intros i. cbn [In]. rewrite D. split.
    + intros [<-|(A & c & Hc & B)]; [split; [constructor | exact LI]|]. split; [|exact A]. eapply desc_trans; [exact B|]. apply child_desc, CH, Hc.
    + intros (A & B). apply desc_child in A as [A|(c & PC & A)]; [left; congruence|]. right. split; [exact B|]. exists c. split; [|exact A].
      apply filter_In. split; [apply in_seq; pose proof (desc_le _ _ A); lia|]. rewrite PC. apply Nat.eqb_refl.
Qed.

Lemma root_of i : i < length cs -> exists r, descends cs i r /\ par r = None /\ r < length cs.
Proof.
  induction i as [i IH] using lt_wf_ind. intros L. destruct (par i) as [p|] eqn:P.
  - pose proof (FO i p P). destruct (IH p) as (r & A & B & C); [lia..|]. exists r. split; [|auto]. apply desc_iff. right. eauto.
  - exists i. split; [constructor | auto].
Qed.

Lemma grouped_spec fuel : length cs <= fuel -> exists gs, grouped fuel cs = Ok gs /\
  Permutation (concat gs) (seq 0 (length cs)) /\
  map (fun g => hd_error g) gs = map Some (filter (fun j => match par j with Some _ => false | None => true end) (seq 0 (length cs))) /\
  forall g, In g gs -> exists r tl, g = r :: tl /\ par r = None /\ r < length cs /\ forall i, In i g <-> i < length cs /\ descends cs i r.
Proof.
  intros LF. unfold grouped.
  destruct (children_spec cs 0 (repeat [] (length cs)) []) as (ch & top & -> & HC & HT); auto; try lia.
  - apply repeat_length.
  - intros p. cbn [seq filter]. destruct (Nat.ltb_spec p (length cs)) as [L|L].
    + apply nth_error_repeat, L.
    + apply nth_error_None. rewrite repeat_length. exact L.
  - cbn [rbind].
    assert (G : forall tops, (forall r, In r tops -> par r = None /\ r < length cs) -> NoDup tops -> exists gs, group_loop fuel ch tops = Ok gs /\
      NoDup (concat gs) /\ (forall i, In i (concat gs) <-> i < length cs /\ exists r, In r tops /\ descends cs i r) /\ map (fun g => hd_error g) gs = map Some tops /\
      forall g, In g gs -> exists r tl, g = r :: tl /\ par r = None /\ r < length cs /\ forall i, In i g <-> i < length cs /\ descends cs i r).
    { induction tops as [|r tops IH]; intros HR NR.
      - exists []. split; [reflexivity|]. split; [constructor|]. split; [|split; [reflexivity | intros g []]]. intros i. split; [intros [] | intros (_ & r & [] & _)].
      - destruct (HR r (or_introl eq_refl)) as (PR & LR). inversion_clear NR as [|? ? NI NR'].
        cbn [group_loop]. destruct (visit_spec ch fuel HC r [] LR) as (tl & -> & N1 & D1); [lia|]. cbn [rbind app].
        destruct (IH (fun d H => HR d (or_intror H)) NR') as (gs & -> & N2 & D2 & H2 & S2). cbn [rbind]. eexists. split; [reflexivity|]. cbn [concat map].
        split; [|split; [|split]].
        + apply nodup_app. split; [exact N1|]. split; [exact N2|]. intros x X1 X2. apply D1 in X1 as (X1 & _). apply D2 in X2 as (_ & d & Hd & X2).
          destruct (HR d (or_intror Hd)) as (PD & _). assert (r = d) as -> by (apply (siblings x); congruence). contradiction.
        + intros i. rewrite in_app_iff, D1, D2. split.
          * intros [(A & B)|(A & d & B & C)]; [split; [exact B|]; exists r; split; [left; reflexivity | exact A] | split; [exact A|]; exists d; split; [right; exact B | exact C]].
          * intros (A & d & [<-|B] & C); [left; auto | right; eauto].
        + cbn. rewrite H2. reflexivity.
        + intros g [<-|Hg]; [|apply S2, Hg]. exists r, tl. split; [reflexivity|]. split; [exact PR|]. split; [exact LR|]. intros i. rewrite D1. tauto. }
    destruct (G top) as (gs & -> & N & D & H & S).
    + intros r Hr. rewrite HT in Hr. apply filter_In in Hr as (H1 & H2). apply in_seq in H1. destruct (par r); [discriminate|]. split; [reflexivity | lia].
    + rewrite HT. apply NoDup_filter, seq_NoDup.
    + exists gs. split; [reflexivity|]. split; [|split; [rewrite <- HT; exact H | exact S]]. apply NoDup_Permutation; [exact N | apply seq_NoDup |].
      intros i. rewrite D, in_seq. split; [intros (A & _); lia|]. intros (_ & L). cbn in L. split; [exact L|].
      destruct (root_of i L) as (r & A & B & C). exists r. split; [|exact A]. rewrite HT. apply filter_In. split; [apply in_seq; lia|]. rewrite B. reflexivity.
Qed.
End Group.
