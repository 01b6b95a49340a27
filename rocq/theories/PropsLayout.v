(** C60: where the layout of the output curves does not keep them downwards and apart; and concrete cases for the theorems in PropsPos. *)
From Coq Require Import List Bool ZArith Arith Lia Sorted Permutation Reals Lra.
From Flocq Require Import BinarySingleNaN Core.Raux Core.Defs Core.Generic_fmt.
From Verif Require Import F64 F64Arith TreeVecModel GeomModel SegmentsModel SegmentsSpec SegmentsProofs3 SegmentsProofs4 CurveOrderModel CurveOrderSpec CurveOrderProofs SweepModel SweepSpec
  RangeModel RangeSpec TopoModel TopoSpec ScanModel ScanSpec PropsSegments PropsSweep PolyExample PropsWind MixExample PropsScan
  PosModel PosSpec PosProofs PosProofs2 PosProofs3 PosProofs5 PosProofs6 PropsPos.
Import ListNotations.

(** ** Straight members of a group run past it *)
Lemma catch_up_line dbg a sub ends y0 l : forall out out' i o x y q u v, NoDup (map snd l) -> begun out -> catch_up dbg a sub ends y0 l out = Ok out' ->
  In (i, o) l -> nth_error (segs a) i = Some (SLine u v) -> nth_error out o = Some x -> bez_end_y (ps_path x) = Ok y -> flt y y0 = true -> stop_of ends o = Ok q ->
  exists x', nth_error out' o = Some x' /\ ps_path x' = ps_path x ++ [LineTo q].
Proof.
  assert (KEEP : forall l out out' o, begun out -> ~ In o (map snd l) -> catch_up dbg a sub ends y0 l out = Ok out' -> forall x, nth_error out o = Some x -> exists x', nth_error out' o = Some x' /\ ps_path x' = ps_path x).
  { intros l0 out out' o BG NI H x Hx. destruct (catch_up_ext dbg a (fun _ _ => mkCO fzero []) sub (fun _ _ _ => false) (fun _ _ _ => false) (fun _ => mkParab fzero fzero fzero fzero fzero) ends fzero (fun o' e => o' <> o) y0 l0) with (out := out) (out' := out') as [_ X]; [| |exact BG|exact H|].
    - intros o' q0 I _ ->. exact (NI I).
    - intros o' q0 c1 c2 z0 I _ _ ->. exact (NI I).
    - destruct (X o x Hx) as (x' & Hx' & l' & P & F & _). exists x'. split; [exact Hx'|]. destruct l' as [|e l']; [rewrite app_nil_r in P; exact P|]. apply Forall_inv in F. congruence. }
  induction l as [|[j o'] l IH]; intros out out' i o x y q u v ND BG H I Si Hx Hy LT ST; [destruct I|]. cbn [map snd] in ND. inversion ND as [|? ? NI ND']; subst.
  cbn [catch_up] in H. destruct I as [I|I].
  - injection I as -> ->. rewrite Hx in H. cbn [orerr rbind] in H. rewrite Hy in H. cbn [rbind] in H. rewrite LT, ST in H. cbn [rbind] in H. unfold seg_of in H. rewrite Si in H. cbn [orerr rbind is_line] in H.
    ok H out1 EA1. assert (BG1 : begun out1). { eapply ext_begun; [|exact BG]. eapply (append_copied_ext (fun _ _ => True)); [exact Logic.I| |exact EA1]. intros x0 Hx0. exact (begun_at _ _ _ BG Hx0). }
    unfold append_copied in EA1. rewrite Hx in EA1. cbn [orerr rbind] in EA1. apply orerr_some in EA1. assert (nth_error out1 o = Some (mkPosn (ps_path x ++ [LineTo q]) (Some (length (ps_path x) - 1)))) as H1.
    { revert EA1. generalize (mkPosn (ps_path x ++ [LineTo q]) (Some (length (ps_path x) - 1))). clear. revert out out1. induction o as [|o IH]; intros [|z0 out] out1 p E; cbn [upd] in E; try discriminate; [injection E as <-; reflexivity|]. destruct (upd out o p) eqn:U; [|discriminate]. injection E as <-. cbn [nth_error]. eapply IH, U. }
    destruct (KEEP l out1 out' o BG1 NI H _ H1) as (x' & Hx' & P). exists x'. split; [exact Hx'|exact P].
  - assert (o' <> o) as NE. { intros ->. apply NI. apply (in_map snd) in I. exact I. }
    ok H p Ep. ok H yy Ey. ok H out1 EA1.
    assert (X : ext (fun o0 e => o0 = o') out out1).
    { destruct (flt yy y0); [|injection EA1 as <-; apply ext_refl]. ok EA1 ep Es. ok EA1 s Es'. assert (NN : forall x0, nth_error out o' = Some x0 -> ps_path x0 <> []) by (intros x0 Hx0; exact (begun_at _ _ _ BG Hx0)).
      destruct (is_line s); [|ok EA1 c Ec]; (eapply append_copied_ext; [|exact NN|exact EA1]); reflexivity. }
    destruct X as [LX X']. destruct (X' o x Hx) as (x1 & Hx1 & l1 & P1 & F1 & _). assert (l1 = []) as ->. { destruct l1 as [|e l1]; [reflexivity|]. apply Forall_inv in F1. congruence. } rewrite app_nil_r in P1.
    destruct (IH out1 out' i o x1 y q u v ND' ltac:(eapply ext_begun; [split; [exact LX|exact X']|exact BG]) H I Si Hx1 ltac:(rewrite P1; exact Hy) LT ST) as (x' & Hx' & P). exists x'. split; [exact Hx'|congruence].
Qed.

(** *** C60, the cause *)
(** Whenever a group with curves in it is drawn from [y0] to [y1], a straight segment in it whose path has not reached [y0] yet is first drawn to its end point
    and then goes on from there with the group's pieces between [y0] and [y1]. *)
Theorem straight_members_run_past : forall a sub trans_after trans_before est ends accuracy fuel is os out y0 y1 out',
  length is = length os -> NoDup os -> (forall o, In o os -> o < length out) -> (forall i, In i is -> i < length (segs a)) -> begun out ->
  all_lines a is = Ok false -> two_apart false a sub trans_after trans_before ends is os out y0 y1 = Ok false ->
  ordered_curves false a sub trans_after trans_before est ends accuracy fuel is os out y0 y1 = Ok out' ->
  flt y0 y1 = true -> fin y0 = true -> fin y1 = true ->
  (forall y, fle y0 y = true -> fle y y1 = true -> flt y (fadd y accuracy) = true) ->
  (forall y z, fle y0 y = true -> fle y y1 = true -> fle y0 z = true -> fle z y1 = true -> fin (fadd y z) = true) ->
  forall k i o u v x y q, nth_error is k = Some i -> nth_error os k = Some o -> nth_error (segs a) i = Some (SLine u v) ->
  nth_error out o = Some x -> bez_end_y (ps_path x) = Ok y -> flt y y0 = true -> stop_of ends o = Ok q ->
  exists x' c e l, nth_error out' o = Some x' /\ ps_path x' = ps_path x ++ LineTo q :: QuadTo c e :: l /\
    fle y0 (py c) = true /\ fle (py c) (py e) = true /\ flt y0 (py e) = true /\ fle (py e) y1 = true.
Proof.
  intros a sub ta tb est ends acc fuel is os out y0 y1 out' LEN ND BD SG BG AL TA H LT F0 F1 ACC SUM k i o u v x y q Hi Ho Si Hx Hy LY ST.
  unfold ordered_curves in H. rewrite AL in H. cbn [rbind] in H. rewrite TA in H. cbn [rbind] in H. ok H out1 EC.
  destruct (catch_up_line false a sub ends y0 (combine is os) out out1 i o x y q u v) as (x1 & Hx1 & P1); [rewrite map_snd_combine by exact LEN; exact ND|exact BG|exact EC| |exact Si|exact Hx|exact Hy|exact LY|exact ST|].
  { clear - Hi Ho. revert is os Hi Ho. induction k as [|k IH]; intros [|i' is] [|o' os] Hi Ho; try discriminate; cbn [nth_error combine] in *; [left; congruence|right; eapply IH; eassumption]. }
  assert (L1 : length out1 = length out).
  { destruct (catch_up_ext false a (fun _ _ => mkCO fzero []) sub ta tb est ends acc (fun _ _ => True) y0 (combine is os)) with (out := out) (out' := out1) as [X _]; auto. }
  destruct fuel as [|fuel]; [discriminate H|]. cbn [pieces] in H. rewrite LT in H. okp H next l EA. ok H out2 EQ.
  assert (RG : flt y0 next = true /\ fle next y1 = true).
  { eapply (approximate_range a sub est [] [] (mkScan [] []) acc y0 y1); [reflexivity|split; [reflexivity|intros ? []]|split; [reflexivity|intros ? []]|intros w A B _; apply ACC; assumption|intros w w' A B C D _ _; apply SUM; assumption| | |exact LT|exact SG|exact EA].
    - split; [apply fle_refl', fin_nonnan, F0|]. split; [apply flt_le, LT|exact F0].
    - split; [apply flt_le, LT|]. split; [apply fle_refl', fin_nonnan, F1|exact F1]. }
  destruct RG as [R1 R2]. pose proof (approximate_len false a sub est acc is fuel y0 y1 next l EA) as LL.
  destruct (quads_row (fun _ _ => mkCO fzero []) y0 next (combine l os) fneginf fneginf out1 out2) as (xs & LX & _ & _ & Q & _); [rewrite map_snd_combine by congruence; exact ND|reflexivity|reflexivity|exact EQ|].
  assert (exists pb, nth_error (combine l os) k = Some (pb, o)) as (pb & Hpb).
  { assert (k < length l) as Lk by (rewrite LL; apply nth_error_Some; congruence). clear - Ho Lk. revert l os Ho Lk. induction k as [|k IH]; intros [|b l] [|o' os] Ho Lk; try discriminate; cbn [nth_error combine length] in *; try lia; [exists b; congruence|apply IH; [exact Ho|lia]]. }
  assert (exists zz, nth_error xs k = Some zz) as (zz & Hz). { destruct (nth_error xs k) eqn:E; [eauto|]. apply nth_error_None in E. assert (k < length (combine l os)) by (apply nth_error_Some; congruence). lia. }
  pose proof (Q k pb o zz x1 Hpb Hz Hx1) as H2.
  assert (LB : length out2 = length out1). { destruct (quads_ext (fun _ _ => True) y0 next (combine l os)) with (xm := fneginf) (xe := fneginf) (out := out1) (out' := out2) as [X _]; auto. }
  destruct (pieces_abreast false a (fun _ _ => mkCO fzero []) sub est acc is os y1 LEN ND fuel next out2 out') as (_ & _ & A3 & _); [intros o' I; rewrite LB, L1; apply BD, I|exact H|].
  destruct (A3 k o _ Ho H2) as (x' & l' & Hx' & P' & _). cbn [ps_path] in P'. rewrite P1 in P'.
  exists x', (mkPoint (fmid y0 next) (fst zz)), (mkPoint next (snd zz)), l'. split; [exact Hx'|]. split; [rewrite P', <- !app_assoc; reflexivity|]. cbn [py].
  assert (FN : fin next = true) by exact (fin_between _ _ _ R1 R2 F1). pose proof (flt_split _ _ R1) as (N0 & N1 & K).
  destruct (fmid_between y0 next F0 FN) as [FM KM]; [lia|apply SUM; [apply fle_refl', N0|apply flt_le, LT|apply flt_le, R1|exact R2]|]. apply fin_nonnan in FM. repeat split; try assumption; apply fle_intro; auto; lia.
Qed.
Print Assumptions straight_members_run_past.

(** ** Concrete figures *)
(** A queue that takes out the greatest entry. *)
Fixpoint pop_max (l : list qentry) : option (qentry * list qentry) :=
  match l with
  | [] => None
  | e :: l => match pop_max l with
              | None => Some (e, [])
              | Some (f, r) => match entry_cmp f e with Gt => Some (f, e :: r) | _ => Some (e, f :: r) end
              end
  end.
Lemma entry_gt e f : nan (fst e) = false -> nan (fst f) = false -> (entry_cmp e f <> Gt <-> (key (fst f) < key (fst e))%Z \/ (key (fst f) = key (fst e) /\ snd e <= snd f)).
Proof.
  intros A B. unfold entry_cmp. rewrite cof_cmp_key by assumption. destruct (Z.compare_spec (key (fst f)) (key (fst e))); [|split; [lia|discriminate]|split; [congruence|lia]].
  rewrite Nat.compare_gt_iff. lia.
Qed.
Lemma pop_max_ok : heap_ok pop_max.
Proof.
  intro q. induction q as [|e q IH]; [reflexivity|]. cbn [pop_max]. destruct (pop_max q) as [[f r]|]; [|subst q; split; [apply Permutation_refl|]; intros _ e' [<-|[]]; unfold entry_cmp].
  - destruct IH as [P M]. destruct (entry_cmp f e) eqn:C.
    + split; [apply perm_skip, P|]. intros F e' I. inversion F as [|? ? F1 F2]; subst. assert (FF : nan (fst f) = false) by (rewrite Forall_forall in F2; apply F2; eapply Permutation_in; [apply Permutation_sym, P|left; reflexivity]).
      destruct I as [<-|I]; [apply entry_gt; auto|]. specialize (M F2 e' I). rewrite Forall_forall in F2. apply entry_gt in M; [|auto..]. assert (entry_cmp f e <> Gt) as C' by congruence. apply entry_gt in C'; [|auto..]. apply entry_gt; [auto..|]. lia.
    + split; [apply perm_skip, P|]. intros F e' I. inversion F as [|? ? F1 F2]; subst. assert (FF : nan (fst f) = false) by (rewrite Forall_forall in F2; apply F2; eapply Permutation_in; [apply Permutation_sym, P|left; reflexivity]).
      destruct I as [<-|I]; [apply entry_gt; auto|]. specialize (M F2 e' I). rewrite Forall_forall in F2. apply entry_gt in M; [|auto..]. assert (entry_cmp f e <> Gt) as C' by congruence. apply entry_gt in C'; [|auto..]. apply entry_gt; [auto..|]. lia.
    + split; [eapply Permutation_trans; [apply perm_skip, P|apply perm_swap]|]. intros F e' I. inversion F as [|? ? F1 F2]; subst. assert (FF : nan (fst f) = false) by (rewrite Forall_forall in F2; apply F2; eapply Permutation_in; [apply Permutation_sym, P|left; reflexivity]).
      destruct I as [<-|I]; [|apply M; assumption]. apply entry_gt; [auto..|]. destruct (Z.lt_trichotomy (key (fst f)) (key (fst e))) as [L|[L|L]]; [lia| |].
      * right. split; [exact L|]. unfold entry_cmp in C. rewrite cof_cmp_key in C by auto. rewrite L, Z.compare_refl in C. apply Nat.compare_gt_iff in C. lia.
      * exfalso. assert (entry_cmp f e <> Gt) as X; [apply entry_gt; auto|congruence].
  - destruct (nan (fst e)) eqn:N; [|]. 2: apply entry_gt; auto.
    unfold cof_cmp. destruct e as [y o]. cbn [fst] in *. destruct y; try discriminate N. cbn. rewrite Nat.compare_refl. discriminate.
Qed.
(** The real value of a concrete number. *)
Lemma sf_val (x : f64) m e : B2SF x = SpecFloat.S754_finite false m e -> B2R x = (IZR (Zpos m) * bpow Zaux.radix2 e)%R.
Proof. intro H. rewrite <- SF2R_B2SF, H. reflexivity. Qed.
Lemma small_roomy a (eps : f64) : fin (fdiv eps ffour) = true -> (bpow Zaux.radix2 (-40) <= B2R (fdiv eps ffour))%R ->
  forallb (fun s => fle (fneg (z 4096)) (py (seg_start s)) && fle (py (seg_end s)) (z 4096)) (segs a) = true -> roomy a (fdiv eps ffour).
Proof.
  intros F P H. assert (V : B2R (z 4096) = bpow Zaux.radix2 12). { rewrite (sf_val _ 4503599627370496 (-40)) by (vm_compute; reflexivity). replace (IZR 4503599627370496) with (bpow Zaux.radix2 52) by (cbn; lra). rewrite <- bpow_plus. reflexivity. }
  apply (roomy_intro a _ (z 4096)); [exact F|vm_compute; reflexivity|pose proof (bpow_gt_0 Zaux.radix2 (-40)); lra| | |].
  - rewrite V. apply bpow_le. lia.
  - rewrite V, <- bpow_plus. exact P.
  - intros i Li. rewrite forallb_forall in H. unfold start_y, end_y. specialize (H (seg_def a i)). rewrite andb_true_iff in H. apply H. unfold seg_def. apply nth_In. exact Li.
Qed.
(** Points: the part of a segment between two heights, and a parabola that goes straight down.  The comparison of two curves at a common end is given. *)
Definition mx_sub (s : segment) (y0 y1 : f64) : cubic :=
  let x y := mkPoint y (mx_aty s y) in mkCubic (x y0) (x (fmid y0 y1)) (x (fmid y0 y1)) (x y1).
Definition mx_est (c : cubic) : parab := mkParab (px (cb1 c)) fzero fzero fzero fzero.
Definition mx_positions eps paths cmp (ta : bool) (f : nat) : res (list posn) :=
  do! t := mx_topo eps paths cmp 100 100 in
  topo_positions false (mx_arena paths) cmp mx_sub (fun _ _ _ => ta) (fun _ _ _ => false) mx_est pop_max (@isort) eps t f.
(** The kinds of the pieces: [0] the start, [1] a line, [2] a quadratic, [3] a cubic piece. *)
Definition kinds (x : posn) : list nat := map (fun e => match e with MoveTo _ => 0 | LineTo _ => 1 | QuadTo _ _ => 2 | CurveTo _ _ _ => 3 end) (ps_path x).
Definition all_kinds (r : res (list posn)) : res (list (list nat)) := do! l := r in Ok (map kinds l).
Fixpoint back_b (l : list pel) : bool :=
  match l with
  | [] => false
  | e0 :: l => match l with
               | QuadTo c e :: _ => let y := py (pel_end e0) in fin y && fin (py c) && fin (py e) && flt (py c) y && fle (py e) y
               | _ => false
               end || back_b l
  end.
Lemma back_ok x : back_b (ps_path x) = true -> runs_back x.
Proof.
  unfold runs_back. generalize (ps_path x). clear x. intro l. induction l as [|e0 l IH]; [discriminate|]. cbn [back_b]. rewrite orb_true_iff. intros [H|H].
  - destruct l as [|[p|p|c e|p q r] l]; try discriminate H. rewrite !andb_true_iff in H. destruct H as ((((F1 & F2) & F3) & L1) & L2). exists [], e0, c, e, l, (/ 2)%R. split; [reflexivity|]. split; [lra|].
    set (y := py (pel_end e0)) in *. apply flt_split in L1. destruct L1 as (N1 & N2 & K1). apply fle_split in L2. destruct L2 as (N3 & N4 & K2). apply key_le_R in K2; [|assumption..].
    assert (B2R (py c) < B2R y)%R as K3. { rewrite !B2R_key by assumption. apply Rmult_lt_compat_r; [apply bpow_gt_0|]. apply IZR_lt, K1. }
    unfold quad_y, bez2. fold y. lra.
  - destruct (IH H) as (pre & e1 & c & e & post & t & P & R). exists (e0 :: pre), e1, c, e, post, t. split; [rewrite P; reflexivity|exact R].
Qed.

(** Closed paths [paths] whose sweep meets everything the theorems in PropsPos ask for, and the topology [t] that comes out. *)
Definition valid_figure (eps : f64) (paths : list (list pathel)) (cmp : nat -> nat -> curve_order) (l : list sweeper) (t : topo Z) : Prop :=
  (forall p, In p paths -> path_exact ex_eval mx_monic ex_quad p) /\
  mx_sweep eps paths cmp 100 100 = Ok (l, true) /\
  topo_input (mx_tags paths) (mx_arena paths) eps cmp cmp mx_min mx_max mx_lo mx_hi mx_aty ex_pps (@isort) l /\
  (positions_sound (mx_arena paths) eps mx_lo mx_hi mx_aty /\ forall s c, In s l -> In c (sw_changed s) -> old_weakly_ordered (mx_arena paths) eps mx_lo mx_hi s c /\ new_weakly_ordered (mx_arena paths) eps mx_lo mx_hi s c) /\
  comparer_ok (mx_arena paths) cmp /\ roomy (mx_arena paths) (fdiv eps ffour) /\ 2 * arena_len (mx_arena paths) < 100 /\
  process_lines i32_wops (mx_arena paths) (mx_tags paths) (@isort) eps mx_lo mx_hi mx_aty 100 l [] (topo_new (arena_len (mx_arena paths))) = Ok t.
Definition figure_b (eps : f64) (paths : list (list pathel)) (cmp : nat -> nat -> curve_order) : bool :=
  mx_ok eps paths cmp && (2 * arena_len (mx_arena paths) <? 100) && fin (fdiv eps ffour) && fle (z 1) eps &&
  forallb (fun s => fle (fneg (z 4096)) (py (seg_start s)) && fle (py (seg_end s)) (z 4096)) (segs (mx_arena paths)) &&
  match mx_topo eps paths cmp 100 100 with Ok _ => true | Err _ => false end.
Lemma figure_ok eps paths cmp : (forall p, In p paths -> path_exact ex_eval mx_monic ex_quad p) -> (bpow Zaux.radix2 (-40) <= B2R (fdiv eps ffour))%R ->
  figure_b eps paths cmp = true -> exists l t, valid_figure eps paths cmp l t /\ mx_topo eps paths cmp 100 100 = Ok t.
Proof.
  intros X A B. unfold figure_b in B. rewrite !andb_true_iff in B. destruct B as (((((M & L) & F) & _) & H) & T). destruct (mx_sound eps paths cmp X M) as (l & E & IN & G & C & _).
  unfold mx_topo in T |- *. rewrite E in T |- *. cbn [rbind] in T |- *. destruct (process_lines _ _ _ _ _ _ _ _ _ _ _ _) as [t|] eqn:PL; [|discriminate T]. exists l, t. split; [|reflexivity].
  apply Nat.ltb_lt in L. assert (RM : roomy (mx_arena paths) (fdiv eps ffour)) by (apply small_roomy; assumption). exact (conj X (conj E (conj IN (conj G (conj C (conj RM (conj L PL))))))).
Qed.
Lemma acc_2 : (bpow Zaux.radix2 (-40) <= B2R (fdiv (z 2) ffour))%R.
Proof. rewrite (sf_val _ 4503599627370496 (-53)) by (vm_compute; reflexivity). cbn. lra. Qed.
Lemma acc_4 : (bpow Zaux.radix2 (-40) <= B2R (fdiv (z 4) ffour))%R.
Proof. rewrite (sf_val _ 4503599627370496 (-52)) by (vm_compute; reflexivity). cbn. lra. Qed.
Lemma drop_figure : exists l t, valid_figure (z 2) (td_paths 0) (td_cmp 0) l t /\ mx_topo (z 2) (td_paths 0) (td_cmp 0) 100 100 = Ok t.
Proof. apply figure_ok; [intros p I; eapply td_exact; [|exact I]; vm_compute; reflexivity|exact acc_2|vm_compute; reflexivity]. Qed.
Lemma drop_figure_up : exists l t, valid_figure (z 2) (td_paths (-32)) (td_cmp (-32)) l t /\ mx_topo (z 2) (td_paths (-32)) (td_cmp (-32)) 100 100 = Ok t.
Proof. apply figure_ok; [intros p I; eapply td_exact; [|exact I]; vm_compute; reflexivity|exact acc_2|vm_compute; reflexivity]. Qed.
Lemma lens_figure : exists l t, valid_figure (z 4) ln_paths ln_cmp l t /\ mx_topo (z 4) ln_paths ln_cmp 100 100 = Ok t.
Proof. apply figure_ok; [exact ln_exact|exact acc_4|vm_compute; reflexivity]. Qed.

(** *** C60, straight segments *)
(** A line and a curve that part at an angle and meet again with the same tangent: the line's path is drawn to its end, goes back up and ends there again. *)
Theorem line_can_run_back : exists l t n out o x i u v, valid_figure (z 2) (td_paths 0) (td_cmp 0) l t /\
  topo_positions false (mx_arena (td_paths 0)) (td_cmp 0) mx_sub (fun _ _ _ => true) (fun _ _ _ => false) mx_est pop_max (@isort) (z 2) t n = Ok out /\
  nth_error out o = Some x /\ nth_error (t_orig t) o = Some i /\ nth_error (segs (mx_arena (td_paths 0))) i = Some (SLine u v) /\
  kinds x = [0; 1; 2] /\ runs_back x.
Proof.
  destruct drop_figure as (l & t & V & T).
  assert (B : match mx_positions (z 2) (td_paths 0) (td_cmp 0) true 50 with Ok (x :: _) => back_b (ps_path x) && (if list_eq_dec Nat.eq_dec (kinds x) [0; 1; 2] then true else false) | _ => false end = true) by (vm_compute; reflexivity).
  assert (O : match mx_topo (z 2) (td_paths 0) (td_cmp 0) 100 100 with Ok t => match nth_error (t_orig t) 0 with Some i => match nth_error (segs (mx_arena (td_paths 0))) i with Some (SLine _ _) => true | _ => false end | None => false end | _ => false end = true) by (vm_compute; reflexivity).
  unfold mx_positions in B. rewrite T in B, O. cbn [rbind] in B. destruct (topo_positions _ _ _ _ _ _ _ _ _ _ t 50) as [out|] eqn:P; [|discriminate B]. destruct out as [|x out]; [discriminate B|].
  apply andb_true_iff in B. destruct B as [B K]. destruct (list_eq_dec _ _ _) as [K'|]; [|discriminate K]. destruct (nth_error (t_orig t) 0) as [i|] eqn:Oi; [|discriminate O]. destruct (nth_error (segs _) i) as [[u v|]|] eqn:Si; try discriminate O.
  exists l, t, 50, (x :: out), 0, x, i, u, v. split; [exact V|]. split; [exact P|]. split; [reflexivity|]. split; [exact Oi|]. split; [exact Si|]. split; [exact K'|apply back_ok, B].
Qed.
Print Assumptions line_can_run_back.

(** *** C60, curves *)
(** Two curves that stay close are laid out together; a third segment starts later, far away, and becomes close to them before they have ended:
    their paths go back up to the height where it became close. *)
Theorem curves_can_run_back : exists l t n out, valid_figure (z 4) ln_paths ln_cmp l t /\
  topo_positions false (mx_arena ln_paths) ln_cmp mx_sub (fun _ _ _ => false) (fun _ _ _ => false) mx_est pop_max (@isort) (z 4) t n = Ok out /\
  forall o, o < 2 -> exists x i p0 p1 p2 p3, nth_error out o = Some x /\ nth_error (t_orig t) o = Some i /\ nth_error (segs (mx_arena ln_paths)) i = Some (SCubic p0 p1 p2 p3) /\ runs_back x.
Proof.
  destruct lens_figure as (l & t & V & T).
  assert (B : match mx_positions (z 4) ln_paths ln_cmp false 50 with Ok (x :: y :: _) => back_b (ps_path x) && back_b (ps_path y) | _ => false end = true) by (vm_compute; reflexivity).
  assert (O : match mx_topo (z 4) ln_paths ln_cmp 100 100 with Ok t => forallb (fun o => match nth_error (t_orig t) o with Some i => match nth_error (segs (mx_arena ln_paths)) i with Some (SCubic _ _ _ _) => true | _ => false end | None => false end) [0; 1] | _ => false end = true) by (vm_compute; reflexivity).
  unfold mx_positions in B. rewrite T in B, O. cbn [rbind] in B. destruct (topo_positions _ _ _ _ _ _ _ _ _ _ t 50) as [out|] eqn:P; [|discriminate B]. destruct out as [|x [|y out]]; try discriminate B.
  apply andb_true_iff in B. destruct B as [B1 B2]. cbn [forallb] in O. rewrite !andb_true_iff in O. destruct O as (O1 & O2 & _).
  exists l, t, 50, (x :: y :: out). split; [exact V|]. split; [exact P|]. intros [|[|o]] Lo; [| |lia].
  - destruct (nth_error (t_orig t) 0) as [i|] eqn:Oi; [|discriminate O1]. destruct (nth_error (segs _) i) as [[u v|p0 p1 p2 p3]|] eqn:Si; try discriminate O1. exists x, i, p0, p1, p2, p3. repeat split; auto. apply back_ok, B1.
  - destruct (nth_error (t_orig t) 1) as [i|] eqn:Oi; [|discriminate O2]. destruct (nth_error (segs _) i) as [[u v|p0 p1 p2 p3]|] eqn:Si; try discriminate O2. exists y, i, p0, p1, p2, p3. repeat split; auto. apply back_ok, B2.
Qed.
Print Assumptions curves_can_run_back.

(** *** C41, an example *)
(** The drop is laid out differently when it is moved up by 32: above height zero nothing is drawn in groups and both segments are plain copies. *)
Theorem layout_depends_on_height : exists l t l' t' out out',
  valid_figure (z 2) (td_paths 0) (td_cmp 0) l t /\ valid_figure (z 2) (td_paths (-32)) (td_cmp (-32)) l' t' /\
  topo_positions false (mx_arena (td_paths 0)) (td_cmp 0) mx_sub (fun _ _ _ => true) (fun _ _ _ => false) mx_est pop_max (@isort) (z 2) t 50 = Ok out /\
  topo_positions false (mx_arena (td_paths (-32))) (td_cmp (-32)) mx_sub (fun _ _ _ => true) (fun _ _ _ => false) mx_est pop_max (@isort) (z 2) t' 50 = Ok out' /\
  map kinds out = [[0; 1; 2]; [0; 3; 2]] /\ map kinds out' = [[0; 1]; [0; 3]].
Proof.
  destruct drop_figure as (l & t & V & T), drop_figure_up as (l' & t' & V' & T').
  assert (K : all_kinds (mx_positions (z 2) (td_paths 0) (td_cmp 0) true 50) = Ok [[0; 1; 2]; [0; 3; 2]]) by (vm_compute; reflexivity).
  assert (K' : all_kinds (mx_positions (z 2) (td_paths (-32)) (td_cmp (-32)) true 50) = Ok [[0; 1]; [0; 3]]) by (vm_compute; reflexivity).
  unfold mx_positions in K, K'. rewrite T in K. rewrite T' in K'. cbn [rbind] in K, K'. destruct (topo_positions _ _ _ _ _ _ _ _ _ _ t 50) as [out|] eqn:P; [|discriminate K]. destruct (topo_positions _ _ _ _ _ _ _ _ _ _ t' 50) as [out'|] eqn:P'; [|discriminate K'].
  exists l, t, l', t', out, out'. split; [exact V|]. split; [exact V'|]. split; [exact P|]. split; [exact P'|]. split; [cbn [all_kinds rbind] in K; congruence|cbn [all_kinds rbind] in K'; congruence].
Qed.
Print Assumptions layout_depends_on_height.

(** Non-vacuity: the drop meets the hypotheses of [positions_laid_out], [negative_heights_copied] and [paths_keep_ends]; its layout is the one above. *)
Example drop_meets_hypotheses : exists l t out, valid_figure (z 2) (td_paths 0) (td_cmp 0) l t /\ heap_ok pop_max /\
  topo_positions false (mx_arena (td_paths 0)) (td_cmp 0) mx_sub (fun _ _ _ => true) (fun _ _ _ => false) mx_est pop_max (@isort) (z 2) t 50 = Ok out /\ length out = 2.
Proof.
  destruct layout_depends_on_height as (l & t & _ & _ & out & _ & V & _ & P & _ & K & _). exists l, t, out. split; [exact V|]. split; [exact pop_max_ok|]. split; [exact P|]. rewrite <- (map_length kinds), K. reflexivity.
Qed.
(** The drop moved up is above height zero: both its paths are plain copies by [negative_heights_copied]. *)
Example drop_up_copied : exists l t ends, valid_figure (z 2) (td_paths (-32)) (td_cmp (-32)) l t /\ end_points t = Ok ends /\ length ends = 2 /\ forall o p q, nth_error ends o = Some (p, q) -> fle (py q) fzero = true.
Proof.
  destruct drop_figure_up as (l & t & V & T).
  assert (B : match mx_topo (z 2) (td_paths (-32)) (td_cmp (-32)) 100 100 with Ok t => match end_points t with Ok e => (length e =? 2) && forallb (fun pq => fle (py (snd pq)) fzero) e | _ => false end | _ => false end = true) by (vm_compute; reflexivity).
  rewrite T in B. destruct (end_points t) as [e|] eqn:E; [|discriminate B]. apply andb_true_iff in B. destruct B as [L B]. exists l, t, e. split; [exact V|]. split; [exact E|]. split; [apply Nat.eqb_eq, L|].
  intros o p q H. rewrite forallb_forall in B. exact (B (p, q) (nth_error_In _ _ H)).
Qed.
