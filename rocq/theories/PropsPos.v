(** C40-C42, C58-C61: laying out the output curves. *)
From Coq Require Import Reals.
From Flocq Require Import Core BinarySingleNaN.
From Coq Require Import List Bool ZArith Arith Lia Permutation Sorted.
From Verif Require Import F64 F64Arith TreeVecModel GeomModel SegmentsModel SegmentsSpec CurveOrderModel CurveOrderProofs SweepModel SweepSpec SweepProofs2 RangeModel RangeSpec TopoModel TopoSpec MergeSpec
  ScanModel ScanSpec PropsScan PosModel PosSpec PosProofs PosProofs3 PosProofs4 PosProofs5 PosProofs6 BinOpModel PropsBinOp.
Import ListNotations.

(** *** C40 *)
(** Whatever the comparisons, the scan-line orders and the numerical helpers are, each path that is returned goes in one stroke from exactly the start to exactly the end of its segment. *)
Theorem paths_keep_ends : forall dbg a cmp sub trans_after trans_before est pop orig ends order accuracy fuel out,
  compute_positions dbg a cmp sub trans_after trans_before est pop orig ends order accuracy fuel = Ok out ->
  (forall o p q, nth_error ends o = Some (p, q) -> fle (py p) (py q) = true) ->
  length out = length orig /\ forall o x, nth_error out o = Some x -> exists p q, nth_error ends o = Some (p, q) /\ complete p q x.
Proof. intros. eapply compute_complete; eassumption. Qed.
Print Assumptions paths_keep_ends.

Lemma keeps_ends {W} (t t' : topo W) : keeps t t' -> end_points t' = end_points t.
Proof.
  intro K. unfold end_points. rewrite (kp_orig _ _ K). induction (seq 0 (length (t_orig t))) as [|o r IH]; [reflexivity|]. cbn [rmap]. rewrite !(keeps_point _ _ _ K), IH. reflexivity.
Qed.
Lemma fin_lt_inf h : fin h = true -> flt h finfinity = true.
Proof. destruct h as [[]|[]| |[] m e H]; intro F; try discriminate F; reflexivity. Qed.
Lemma fin_mid x y z : fin x = true -> fin z = true -> fle x y = true -> fle y z = true -> fin y = true.
Proof. destruct x as [[]|[]| |[] m e H], y as [[]|[]| |[] m1 e1 H1], z as [[]|[]| |[] m2 e2 H2]; intros; solve [reflexivity|discriminate]. Qed.
Lemma forall2_at {A B} (R : A -> B -> Prop) l : forall l' n x, Forall2 R l l' -> nth_error l n = Some x -> exists y, nth_error l' n = Some y /\ R x y.
Proof. induction l as [|z l IH]; intros l' [|n] x F H; try discriminate; inversion F; subst; cbn [nth_error] in *; [injection H as <-; eauto|eapply IH; eassumption]. Qed.

(** *** C40, C42, C58, C59 *)
(** After a sweep, before or after merging coincident segments, laying out the output curves never fails and never runs forever.  Entries are taken from
    the queue from top to bottom; each group that is laid out is the whole run of close neighbours at that height and stays one until the height it is laid out to;
    every segment that starts at height zero or below is laid out in such groups from its start to its end; and each path goes from the start to the
    end of its segment and does not leave its heights, horizontal segments being straight lines. *)
Theorem positions_laid_out : forall (W T : Type) (ops : wops W T) tag a eps cmp ccmp min_x max_x lower upper at_y pps sort_by l,
  topo_input tag a eps cmp ccmp min_x max_x lower upper at_y pps sort_by l ->
  forall pcmp sub trans_after trans_before est pop,
  comparer_ok a pcmp -> heap_ok pop -> roomy a (fdiv eps ffour) ->
  forall fuel buf, 2 * arena_len a < fuel ->
  exists t, process_lines ops a tag sort_by eps lower upper at_y fuel l buf (topo_new (arena_len a)) = Ok t /\
  forall t', t' = t \/ (exists close, merge_coincident ops close t = Ok t') ->
  exists ends m fuel0, end_points t' = Ok ends /\ build_scan_line_orders sort_by t' = Ok m /\ length ends = length (t_orig t') /\
  forall n, fuel0 <= n -> exists out, topo_positions false a pcmp sub trans_after trans_before est pop sort_by eps t' n = Ok out /\
    (forall o x p q, nth_error out o = Some x -> nth_error ends o = Some (p, q) ->
       complete p q x /\ within p q x /\ (feq (py p) (py q) = true -> ps_path x = [MoveTo p; LineTo q])) /\
    exists out0 queue tr s,
      start_paths ends (length (t_orig t')) 0 = Ok (out0, queue) /\
      run false a pcmp sub trans_after trans_before est pop (t_orig t') ends m (fdiv eps ffour) n (mkPS out0 (repeat fzero (length (t_orig t'))) queue) tr s /\
      finish_all false a sub (t_orig t') ends 0 (st_out s) = Ok out /\
      downwards tr /\
      (forall y o y1 g, In ((y, o), Some (y1, g)) tr -> grouped pcmp (t_orig t') ends m y o y1 g) /\
      (forall o p q h, nth_error ends o = Some (p, q) -> fle fzero (py p) = true -> fle (py p) h = true -> flt h (py q) = true -> covered tr o h).
Proof.
  intros W T ops tag a eps cmp ccmp min_x max_x lower upper at_y pps sort_by l IN pcmp sub trans_after trans_before est pop PC HP (lo & hi & RM1 & RM2 & RM3) fuel buf F.
  destruct (scan_orders_exact W T ops tag a eps cmp ccmp min_x max_x lower upper at_y pps sort_by l IN fuel buf F) as (t & E & SC).
  destruct (topo_placed ops tag a eps cmp ccmp min_x max_x lower upper at_y pps sort_by l IN fuel buf F) as (t0 & ends & E0 & EE & PD). rewrite E in E0. injection E0 as <-.
  exists t. split; [exact E|]. intros t' Ht. assert (K : keeps t t') by (destruct Ht as [->|(close & Ht)]; [apply keeps_refl|eapply merge_keeps, Ht]).
  destruct (SC t (or_introl eq_refl)) as (m & B & ST & EX). pose proof (ti_setting _ _ _ _ _ _ _ _ _ _ _ _ _ IN) as SET. pose proof (ss_arena _ _ _ _ _ SET) as SA.
  destruct PD as [PO PL PE PS PN]. destruct (PN m B) as [NW NE].
  assert (LE : length ends = length (t_orig t)) by congruence.
  assert (NUM : forall o p q, nth_error ends o = Some (p, q) -> fin (py p) = true /\ fin (py q) = true /\ fle lo (py p) = true /\ fle (py p) (py q) = true /\ fle (py q) hi = true).
  { intros o p q En. assert (exists i, nth_error (t_orig t) o = Some i) as (i & Oi). { destruct (nth_error (t_orig t) o) eqn:X; [eauto|]. apply nth_error_None in X. assert (o < length ends) by (apply nth_error_Some; congruence). lia. }
    destruct (PS o i p q Oi En) as (RG & S1 & S2 & S3). pose proof (registered_lt _ SA _ RG) as Li. destruct (RM1 i Li) as [X1 X2]. destruct (sp_finite _ SA _ Li) as [[_ F1] [_ F2]].
    assert (IP : fin (py p) = true) by exact (fin_mid _ _ _ F1 F2 S1 (fle_tr _ _ _ S2 S3)).
    assert (IQ : fin (py q) = true) by exact (fin_mid _ _ _ F1 F2 (fle_tr _ _ _ S1 S2) S3).
    split; [exact IP|]. split; [exact IQ|]. split; [exact (fle_tr _ _ _ X1 S1)|]. split; [exact S2|exact (fle_tr _ _ _ S3 X2)]. }
  assert (SPN : forall o h, spans ends o h <-> o < length (t_wind t) /\ crosses t o h).
  { intros o h. split.
    - intros (p & q & En & L1 & L2). apply PE in En. destruct En as (L & Hp & Hq). split; [exact L|]. exists p, q. auto.
    - intros (L & p & q & Hp & Hq & L1 & L2). exists p, q. split; [apply PE; auto|auto]. }
  assert (SEG : forall o i, nth_error (t_orig t) o = Some i -> i < length (segs a)).
  { intros o i Oi. assert (o < length ends) as L by (rewrite LE; apply nth_error_Some; congruence). apply nth_error_Some in L. destruct (nth_error ends o) as [[p q]|] eqn:En; [|congruence]. destruct (PS o i p q Oi En) as (RG & _). exact (registered_lt _ SA _ RG). }
  assert (SCN : forall h, fin h = true -> exists outs, listed (t_orig t) ends m h outs).
  { intros h Fh. destruct (EX h (fin_lt_inf h Fh)) as (outs & ND & MEM & _ & NB). exists outs. split; [exact ND|]. split; [|exact NB]. intro o. rewrite MEM, SPN, PO. tauto. }
  assert (CMP : forall o o' i j h, o <> o' -> spans ends o h -> spans ends o' h -> nth_error (t_orig t) o = Some i -> nth_error (t_orig t) o' = Some j -> verdict pcmp h i j <> None).
  { intros o o' i j h NEQ So So' Oi Oj. pose proof So as (p & q & En & A1 & A2). pose proof So' as (p' & q' & En' & B1 & B2). destruct (PS o i p q Oi En) as (RG & S1 & S2 & S3). destruct (PS o' j p' q' Oj En') as (RG' & S1' & S2' & S3').
    apply (verdict_some a pcmp i j h PC SA RG RG'); [|exact (fle_tr _ _ _ S1 A1)|exact (flt_fle _ _ _ A2 S3)|exact (fle_tr _ _ _ S1' B1)|exact (flt_fle _ _ _ B2 S3')].
    intros ->. destruct (NUM o p q En) as (_ & Fq & _). assert (FH : flt h finfinity = true) by exact (flt_fle _ _ _ A2 (flt_le _ _ (fin_lt_inf _ Fq))).
    destruct (EX h FH) as (outs & ND & MEM & OB & _). apply SPN in So, So'. apply MEM in So, So'. apply In_nth_error in So, So'. destruct So as (k & Hk), So' as (k' & Hk').
    destruct (forall2_at _ _ _ _ _ OB Hk) as (x & Hx & Ex). destruct (forall2_at _ _ _ _ _ OB Hk') as (x' & Hx' & Ex'). assert (x = j) as -> by congruence. assert (x' = j) as -> by congruence.
    assert (k = k'); [|congruence]. eapply (NoDup_nth_error (order_below l h)); [eapply order_nodup, IN|apply nth_error_Some; congruence|congruence]. }
  assert (ACC : forall y, fle lo y = true -> fle y hi = true -> fin y = true -> flt y (fadd y (fdiv eps ffour)) = true) by (intros; apply RM2; assumption).
  assert (MID : forall y z, fle lo y = true -> fle y hi = true -> fle lo z = true -> fle z hi = true -> fin y = true -> fin z = true -> fin (fadd y z) = true) by (intros; apply RM3; assumption).
  rewrite <- PO in NW, NE.
  destruct (layout_total a pcmp sub trans_after trans_before est (t_orig t) ends m (fdiv eps ffour) lo hi LE NUM SEG SCN NW NE CMP ACC MID pop HP) as (fuel0 & LT).
  exists ends, m, fuel0. rewrite (keeps_ends t t' K), (keeps_build t t' sort_by K), (kp_orig _ _ K). split; [exact EE|]. split; [exact B|]. split; [exact LE|]. intros n Hn.
  destruct (LT n Hn) as (out0 & queue & tr & s & out & L1 & L2 & L3 & L4 & L5 & L6 & L7 & L8). exists out. split.
  { unfold topo_positions. rewrite (keeps_ends t t' K), EE. cbn [rbind]. rewrite (keeps_build t t' sort_by K), B. cbn [rbind]. rewrite (kp_orig _ _ K). exact L4. }
  split. { intros o x p q Hx En. destruct (L8 o x p q Hx En) as (C1 & C2 & C3). split; [exact C1|]. split; [exact C2|]. intro FQ. rewrite (C3 FQ). reflexivity. }
  exists out0, queue, tr, s. auto 10.
Qed.
Print Assumptions positions_laid_out.

(** *** C41 *)
(** In the same setting, nothing is laid out at negative heights: the order among close curves is ignored there.  A segment that ends at height zero or
    above comes out as a plain copy of its part of the input, however close its neighbours are. *)
Theorem negative_heights_copied : forall (W T : Type) (ops : wops W T) tag a eps cmp ccmp min_x max_x lower upper at_y pps sort_by l,
  topo_input tag a eps cmp ccmp min_x max_x lower upper at_y pps sort_by l ->
  forall pcmp sub trans_after trans_before est pop,
  comparer_ok a pcmp -> heap_ok pop -> roomy a (fdiv eps ffour) ->
  forall fuel buf, 2 * arena_len a < fuel ->
  exists t, process_lines ops a tag sort_by eps lower upper at_y fuel l buf (topo_new (arena_len a)) = Ok t /\
  forall t', t' = t \/ (exists close, merge_coincident ops close t = Ok t') ->
  exists ends m fuel0, end_points t' = Ok ends /\ build_scan_line_orders sort_by t' = Ok m /\
  forall n, fuel0 <= n -> exists out, topo_positions false a pcmp sub trans_after trans_before est pop sort_by eps t' n = Ok out /\
    (exists out0 queue tr s,
      start_paths ends (length (t_orig t')) 0 = Ok (out0, queue) /\
      run false a pcmp sub trans_after trans_before est pop (t_orig t') ends m (fdiv eps ffour) n (mkPS out0 (repeat fzero (length (t_orig t'))) queue) tr s /\
      finish_all false a sub (t_orig t') ends 0 (st_out s) = Ok out /\
      forall o h, covered tr o h -> fle fzero h = true) /\
    (forall o i s x p q, nth_error out o = Some x -> nth_error ends o = Some (p, q) -> nth_error (t_orig t') o = Some i -> nth_error (segs a) i = Some s ->
       fle (py q) fzero = true -> copy_of sub s p q x).
Proof.
  intros W T ops tag a eps cmp ccmp min_x max_x lower upper at_y pps sort_by l IN pcmp sub trans_after trans_before est pop PC HP RM fuel buf F.
  destruct (positions_laid_out W T ops tag a eps cmp ccmp min_x max_x lower upper at_y pps sort_by l IN pcmp sub trans_after trans_before est pop PC HP RM fuel buf F) as (t & E & X).
  exists t. split; [exact E|]. intros t' Ht. destruct (X t' Ht) as (ends & m & fuel0 & EE & B & LE & L). exists ends, m, fuel0. split; [exact EE|]. split; [exact B|]. intros n Hn.
  destruct (L n Hn) as (out & TP & PA & out0 & queue & tr & s & SP & R & FA & DN & GR & CV). exists out. split; [exact TP|].
  assert (UP : forall y o y1 g, In ((y, o), Some (y1, g)) tr -> flt y y1 = true). { intros y o y1 g I. destruct (GR y o y1 g I) as (w & e & _ & _ & H & _). exact H. }
  assert (NN : forall y o y1 g, In ((y, o), Some (y1, g)) tr -> fle fzero y = true). { eapply run_nonneg; [exact R| |exact UP]. cbn [st_last]. intros y Hy. apply repeat_spec in Hy. subst y. reflexivity. }
  split.
  - exists out0, queue, tr, s. split; [exact SP|]. split; [exact R|]. split; [exact FA|]. intros o h (y & x & y1 & g & I & _ & A & _). exact (fle_tr _ _ _ (NN _ _ _ _ I) A).
  - intros o i sg x p q Hx En Oi Si LQ. destruct (start_spec _ _ _ _ _ SP) as (L0 & S0 & _).
    assert (B0 : begun out0). { apply Forall_forall. intros z Hz. apply In_nth_error in Hz. destruct Hz as (k & Hk). destruct (S0 k z Hk) as (p' & q' & _ & [(_ & ->)|(_ & ->)]); discriminate. }
    assert (UN : nth_error (st_out s) o = nth_error out0 o).
    { eapply (run_untouched _ _ _ _ _ _ _ _ _ _ _ _ _ _ _ _ R B0).
      - intros y z y1 g I. destruct (GR y z y1 g I) as (w & e & _ & H & _). exact H.
      - intros y z y1 g I Ho. destruct (GR y z y1 g I) as (w & e & (_ & MEM & _) & _). assert (SO : spans ends o y) by (apply MEM, in_or_app; right; apply in_or_app; left; exact Ho).
        destruct SO as (p' & q' & En' & _ & A2). rewrite En in En'. injection En' as <- <-. pose proof (fle_flt _ _ _ (NN _ _ _ _ I) (flt_fle _ _ _ A2 LQ)) as Z. discriminate Z. }
    edestruct finish_all_spec as (L2 & FN); [exact FA|]. assert (exists x0, nth_error out0 o = Some x0) as (x0 & H0). { destruct (nth_error out0 o) eqn:N0; [eauto|]. apply nth_error_None in N0. assert (o < length ends) by (apply nth_error_Some; congruence). lia. }
    rewrite H0 in UN. destruct (FN o x0 UN) as (x' & Hx' & Fx). assert (x' = x) as -> by congruence. cbn [Nat.add] in Fx. destruct (S0 o x0 H0) as (p' & q' & En' & C). cbn [Nat.add] in En'. rewrite En in En'. injection En' as <- <-.
    destruct C as [(FQ & ->)|(FQ & ->)].
    + destruct (PA o x p q Hx En) as (_ & _ & H). specialize (H FQ). unfold copy_of. rewrite FQ. cbn [orb]. unfold finish in Fx. unfold stop_of in Fx. rewrite En in Fx. cbn [orerr rbind snd ps_path bez_end_y bez_end last_opt pel_end] in Fx.
      destruct (flt (py q) (py q)) eqn:Z; [apply flt_split in Z; lia|]. injection Fx as <-. reflexivity.
    + destruct (nan (py p)) eqn:N1.
      * destruct (PA o x p q Hx En) as (_ & H & _). unfold within in H. exfalso. destruct (PA o x p q Hx En) as (( rest & Hr & _) & _). rewrite Hr in H. apply Forall_inv in H. destruct H as [H _]. cbn [pel_end] in H. apply fle_split in H. destruct H as [H _]. congruence.
      * eapply (finish_copy false a pcmp sub trans_after trans_before est (t_orig t') ends eps); [exact En|exact Oi|exact Si| |reflexivity|exact Fx].
        destruct (PA o x p q Hx En) as (( rest & Hr & _) & H & _). unfold within in H. rewrite Hr in H. apply Forall_inv in H. destruct H as [_ H]. cbn [pel_end] in H. apply fle_split in H. destruct H as (_ & N2 & K). apply flt_intro; [exact N1|exact N2|]. rewrite feq_key in FQ by assumption. apply Z.eqb_neq in FQ. lia.
Qed.
Print Assumptions negative_heights_copied.

(** *** C59 *)
(** Laying out a group of close curves either leaves all paths as they are, or first copies the input where a path has not reached the height yet, and
    then appends to the paths of the group quadratic pieces side by side: two members that were in order where the pieces begin stay in order
    in every point of every piece. *)
Theorem groups_side_by_side : forall dbg a sub trans_after trans_before est ends accuracy fuel is os out y0 y1 out',
  length is = length os -> NoDup os -> (forall o, In o os -> o < length out) -> begun out ->
  ordered_curves dbg a sub trans_after trans_before est ends accuracy fuel is os out y0 y1 = Ok out' ->
  out' = out \/
  exists out1, catch_up dbg a sub ends y0 (combine is os) out = Ok out1 /\
    (forall o, ~ In o os -> nth_error out' o = nth_error out o) /\
    forall k k' o o' x x' p p', k < k' -> nth_error os k = Some o -> nth_error os k' = Some o' -> nth_error out1 o = Some x -> nth_error out1 o' = Some x' ->
      bez_end (ps_path x) = Ok p -> bez_end (ps_path x') = Ok p' -> fle (px p) (px p') = true ->
      exists y y' l l', nth_error out' o = Some y /\ nth_error out' o' = Some y' /\ ps_path y = ps_path x ++ l /\ ps_path y' = ps_path x' ++ l' /\
        beside p p' l l' /\ length (quads_of p l) = length l /\ length (quads_of p' l') = length l' /\ length l = length l' /\
        (py p = py p' -> forall n q c e q' c' e' t, nth_error (quads_of p l) n = Some (q, c, e) -> nth_error (quads_of p' l') n = Some (q', c', e') ->
          fin (px q) = true -> fin (px c) = true -> fin (px e) = true -> fin (px q') = true -> fin (px c') = true -> fin (px e') = true -> (0 <= t <= 1)%R ->
          quad_y q c e t = quad_y q' c' e' t /\ (quad_x q c e t <= quad_x q' c' e' t)%R).
Proof.
  intros dbg a sub trans_after trans_before est ends accuracy fuel is os out y0 y1 out' LEN ND BD BG H. unfold ordered_curves in H. ok H b Eb. destruct b; [left; congruence|]. ok H b Eb'. destruct b; [left; congruence|]. ok H out1 EC. right.
  exists out1. split; [exact EC|]. pose proof (catch_up_ext dbg a (fun _ _ => mkCO fzero []) sub trans_after trans_before est ends accuracy (fun o e => In o os) y0 (combine is os)) as CX.
  assert (X : ext (fun o e => In o os) out out1). { eapply CX; [| |exact BG|exact EC]; intros; eapply in_combine_snd; eassumption. }
  destruct (pieces_abreast dbg a (fun _ _ => mkCO fzero []) sub est accuracy is os y1 LEN ND fuel y0 out1 out') as (A1 & A2 & A3 & A4); [intros o Ho; rewrite (proj1 X); apply BD, Ho|exact H|]. split.
  - intros o Ho. rewrite A2 by exact Ho. destruct X as [LX X]. destruct (nth_error out o) as [x|] eqn:E.
    + destruct (X o x E) as (x' & E' & l & P1 & F & C). rewrite E'. f_equal. assert (l = []) as ->. { destruct l as [|e l]; [reflexivity|]. exfalso. apply Forall_inv in F. exact (Ho F). }
      rewrite app_nil_r in P1. destruct C as [C|(k & _ & C)]; [|cbn in C; lia]. destruct x, x'. cbn in *. congruence.
    + apply nth_error_None. apply nth_error_None in E. lia.
  - intros k k' o o' x x' p p' Lk Hk Hk' Hx Hx' Ep Ep' LE. destruct (A4 k k' o o' x x' p p' Lk Hk Hk' Hx Hx' Ep Ep' LE) as (y & y' & l & l' & C1 & C2 & C3 & C4 & C5). exists y, y', l, l'. do 5 (split; [assumption|]).
    assert (forall p p' l l', beside p p' l l' -> length (quads_of p l) = length l /\ length (quads_of p' l') = length l' /\ length l = length l') as Q by (induction 1; cbn [quads_of length]; intuition congruence).
    destruct (Q _ _ _ _ C5) as (Q1 & Q2 & Q3). do 3 (split; [assumption|]). intro YP. apply (beside_points _ _ _ _ C5 YP).
Qed.
Print Assumptions groups_side_by_side.

Lemma chosen_eps b eps : choose_eps b = Datatypes.inr eps -> fin eps = true /\ (B2R eps_min <= B2R eps)%R.
Proof.
  intro CE. unfold choose_eps in CE. set (mn := fmin (b_min_x b) (b_min_y b)) in *. set (mx := fmax (b_max_x b) (b_max_y b)) in *.
  destruct (f_inf mn || f_inf mx) eqn:I; [discriminate|]. destruct (nan mn || nan mx) eqn:NN; [discriminate|]. apply orb_false_iff in I as (I1 & I2). apply orb_false_iff in NN as (N1 & N2).
  assert (fin mn = true) as F1. { destruct (fin_or_inf mn N1); [assumption|congruence]. } assert (fin mx = true) as F2. { destruct (fin_or_inf mx N2); [assumption|congruence]. } injection CE as <-.
  assert (fin (fabs mn) = true) as G1 by (rewrite fin_fabs; exact F1). assert (fin (fabs mx) = true) as G2 by (rewrite fin_fabs; exact F2). destruct (fmax_R _ _ G1 G2) as (E & G).
  destruct (scale _ G) as (H & _). { apply (key_le_R fzero); [reflexivity|exact G|]. cbn [B2R fzero]. rewrite E, !abs_R. apply Rmax_Rle. left. apply Rabs_pos. }
  assert (fin eps_min = true) as FM by reflexivity. destruct (fmax_R _ _ H FM) as (E' & G'). split; [exact G'|]. rewrite E'. apply Rmax_r.
Qed.
(** *** C58, the accuracy *)
(** The accuracy that is chosen for a Boolean operation is coarse enough for the layout to terminate, unless coordinates exceed 2^1022. *)
Theorem chosen_accuracy_suffices : forall a b eps, sweepable a -> choose_eps b = Datatypes.inr eps ->
  (forall i p, i < arena_len a -> p = seg_start (seg_def a i) \/ p = seg_end (seg_def a i) ->
     fle (b_min_x b) (px p) = true /\ fle (px p) (b_max_x b) = true /\ fle (b_min_y b) (py p) = true /\ fle (py p) (b_max_y b) = true /\ (Rabs (B2R (py p)) <= bpow radix2 1022)%R) ->
  roomy a (fdiv eps ffour).
Proof.
  intros a b eps SA CE COV. destruct (chosen_eps b eps CE) as (FE & ME). apply (roomy_default a eps SA FE ME). intros i Li y Hy.
  set (pts := [seg_start (seg_def a i); seg_end (seg_def a i)]). assert (exists p, In p pts /\ y = py p /\ (p = seg_start (seg_def a i) \/ p = seg_end (seg_def a i))) as (p & Ip & -> & Ep).
  { destruct Hy as [->| ->]; eexists; (split; [|split; [reflexivity|]]); [left; reflexivity|left; reflexivity|right; left; reflexivity|right; reflexivity]. }
  destruct (COV i p Li Ep) as (X1 & X2 & X3 & X4 & X5). split; [|exact X5].
  destruct (accuracy_covers b pts eps CE) with (p := p) (c := py p) as (_ & _ & H); [|exact Ip|right; reflexivity|apply (fle_split _ _ X3)|exact H].
  intros p' Ip'. assert (p' = seg_start (seg_def a i) \/ p' = seg_end (seg_def a i)) as Ep' by (destruct Ip' as [<-|[<-|[]]]; auto). destruct (COV i p' Li Ep') as (Y1 & Y2 & Y3 & Y4 & _). auto.
Qed.
Print Assumptions chosen_accuracy_suffices.
