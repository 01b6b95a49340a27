(** C68: joining the pieces of an input curve again can draw far away from the input; and concrete cases for the theorems in PropsPath. *)
From Coq Require Import List Bool ZArith Arith Lia Sorted Permutation Reals Lra.
From Flocq Require Import BinarySingleNaN Core.Raux Core.Defs Core.Generic_fmt.
From Verif Require Import F64 F64Arith TreeVecModel GeomModel SegmentsModel SegmentsSpec SegmentsProofs3 SegmentsProofs4 CurveOrderModel CurveOrderSpec CurveOrderProofs SweepModel SweepSpec
  RangeModel RangeSpec TopoModel TopoSpec ScanModel ContoursModel ContoursSpec PropsSegments PropsTopo PropsContours PropsSweep PolyExample PropsWind MixExample HumpExample PropsScan
  PosModel PosSpec PosProofs3 PosProofs4 PropsPos PropsLayout PathModel PathSpec PropsPath.
Import ListNotations.

(** ** The figures *)
Lemma z_val n : fin (z n) = true -> key (z n) = (n * 2 ^ 1074)%Z -> B2R (z n) = IZR n.
Proof.
  intros F K. rewrite B2R_key by exact F. rewrite K, mult_IZR, (IZR_Zpower Zaux.radix2) by lia. rewrite Rmult_assoc, <- bpow_plus. replace (1074 + -1074)%Z with 0%Z by reflexivity. cbn. lra.
Qed.
Lemma hump_exact : path_exact hm_eval mx_monic ex_quad hump.
Proof.
  assert (C : cuts mx_monic (GeomModel.mkCubic (pt 0 3000) (pt 0 (-1000)) (pt 16 (-1000)) (pt 16 3000)) = [fzero; fdiv (fneg (fsub (z (-1000)) (z 3000))) (fmul (fsub (fsub (z (-1000)) (z (-1000))) (fsub (z (-1000)) (z 3000))) (f64_of_Z 2)); GeomModel.fone]).
  { unfold cuts, roots. cbn [c0 c1 c2 c3 py px pt]. assert (finf (fmul (fsub (z (-1000)) (z 3000)) (fdiv GeomModel.fone (fadd (fsub (fsub (z (-1000)) (z 3000)) (fmul (fsub (z (-1000)) (z (-1000))) (f64_of_Z 2))) (fsub (z 3000) (z (-1000)))))) = true) as -> by (vm_compute; reflexivity).
    cbn [orb filter]. match goal with |- context [flt fzero ?x && flt ?x GeomModel.fone] => assert (flt fzero x && flt x GeomModel.fone = true) as -> by (vm_compute; reflexivity) end. reflexivity. }
  intros sub ss Hs K. cbn [hump subpaths subpaths_fuel length take_subpath is_moveto andb] in Hs. destruct Hs as [<-|[]]. cbn [kurbo_segments ksegs] in K.
  assert (NC : negb (point_eq (pt 16 3000) (pt 0 3000)) = true) by (vm_compute; reflexivity). rewrite NC in K. injection K as <-.
  constructor; [|constructor; [split; split; vm_compute; reflexivity|constructor]]. cbn [ends_exact to_cubic ps_start ps_end c0 c3]. split; [vm_compute; reflexivity|]. split; [vm_compute; reflexivity|].
  rewrite C. intros t [<-|[<-|[<-|[]]]]; split; vm_compute; reflexivity.
Qed.
Lemma wedge_exact : path_exact hm_eval mx_monic ex_quad wedge.
Proof.
  intros sub ss Hs K. cbn [wedge subpaths subpaths_fuel length take_subpath is_moveto andb] in Hs. destruct Hs as [<-|[]]. cbn [kurbo_segments ksegs] in K.
  assert (NC : negb (point_eq (pt 66 4096) (pt 17 256)) = true) by (vm_compute; reflexivity). rewrite NC in K. injection K as <-.
  repeat (constructor; [split; split; vm_compute; reflexivity|]). constructor.
Qed.

(** Closed paths whose sweep meets everything the theorems in PropsPos, PropsContours and PropsPath ask for, and the topology [t] that comes out. *)
Definition hm_figure (eps : f64) (paths : list (list pathel)) (cmp : nat -> nat -> curve_order) (l : list sweeper) (t : topo Z) : Prop :=
  (forall p, In p paths -> path_exact hm_eval mx_monic ex_quad p) /\
  reachable hm_eval hm_ctrl mx_monic ex_quad ex_at_y isort (hm_ops paths) (hm_arena paths) /\
  hm_sweep eps paths cmp 100 100 = Ok (l, true) /\
  topo_input (hm_tags paths) (hm_arena paths) eps cmp cmp mx_min mx_max hm_lo hm_hi hm_aty ex_pps (@isort) l /\
  (positions_sound (hm_arena paths) eps hm_lo hm_hi hm_aty /\ forall s c, In s l -> In c (sw_changed s) -> old_weakly_ordered (hm_arena paths) eps hm_lo hm_hi s c /\ new_weakly_ordered (hm_arena paths) eps hm_lo hm_hi s c) /\
  comparer_ok (hm_arena paths) cmp /\ roomy (hm_arena paths) (fdiv eps ffour) /\ 2 * arena_len (hm_arena paths) < 100 /\
  process_lines i32_wops (hm_arena paths) (hm_tags paths) (@isort) eps hm_lo hm_hi hm_aty 100 l [] (topo_new (arena_len (hm_arena paths))) = Ok t /\
  well_formed t.
Definition hm_figure_b (eps : f64) (paths : list (list pathel)) (cmp : nat -> nat -> curve_order) : bool :=
  hm_ok eps paths cmp && (2 * arena_len (hm_arena paths) <? 100) && fin (fdiv eps ffour) &&
  forallb (fun s => fle (fneg (z 4096)) (py (seg_start s)) && fle (py (seg_end s)) (z 4096)) (segs (hm_arena paths)) &&
  match hm_topo eps paths cmp 100 100 with Ok t => wf_b t | Err _ => false end.
Lemma hm_figure_ok eps paths cmp : (forall p, In p paths -> path_exact hm_eval mx_monic ex_quad p) -> (bpow Zaux.radix2 (-40) <= B2R (fdiv eps ffour))%R ->
  hm_figure_b eps paths cmp = true -> exists l t, hm_figure eps paths cmp l t /\ hm_topo eps paths cmp 100 100 = Ok t.
Proof.
  intros X A B. unfold hm_figure_b in B. rewrite !andb_true_iff in B. destruct B as ((((M & L) & F) & H) & T). destruct (hm_sound eps paths cmp X M) as (l & E & IN & G & C & _).
  unfold hm_topo in T |- *. rewrite E in T |- *. cbn [rbind] in T |- *. destruct (process_lines _ _ _ _ _ _ _ _ _ _ _ _) as [t|] eqn:PL; [|discriminate T]. exists l, t. split; [|reflexivity].
  apply Nat.ltb_lt in L. assert (RM : roomy (hm_arena paths) (fdiv eps ffour)) by (apply small_roomy; assumption).
  assert (RE : reachable hm_eval hm_ctrl mx_monic ex_quad ex_at_y isort (hm_ops paths) (hm_arena paths)) by (eexists; exact (hm_reachable eps paths cmp M)).
  exact (conj X (conj RE (conj E (conj IN (conj G (conj C (conj RM (conj L (conj PL (wf_b_ok t T)))))))))).
Qed.
Lemma hump_figure : exists l t, hm_figure (z 2) [hump] hu_cmp l t /\ hm_topo (z 2) [hump] hu_cmp 100 100 = Ok t.
Proof. apply hm_figure_ok; [intros p [<-|[]]; exact hump_exact|exact acc_2|vm_compute; reflexivity]. Qed.
Lemma wedge_figure : exists l t, hm_figure (z 2) [hump; wedge] hu_cmp l t /\ hm_topo (z 2) [hump; wedge] hu_cmp 100 100 = Ok t.
Proof. apply hm_figure_ok; [intros p [<-|[<-|[]]]; [exact hump_exact|exact wedge_exact]|exact acc_2|vm_compute; reflexivity]. Qed.

(** The layout: parts of a segment; kurbo's [subsegment] for the input.  The two halves of the hump leave their common start at an angle. *)
Definition hm_sub (s : segment) (y0 y1 : f64) : PosModel.cubic :=
  let x y := mkPoint y (hm_aty s y) in PosModel.mkCubic (x y0) (x (fmid y0 y1)) (x (fmid y0 y1)) (x y1).
Definition hm_positions (t : topo Z) (paths : list (list pathel)) (f : nat) : res (list posn) :=
  topo_positions false (hm_arena paths) hu_cmp hm_sub (fun _ _ _ => true) (fun _ _ _ => false) mx_est pop_max (@isort) (z 2) t f.
Definition hm_sub_input (s : pathseg) (t0 t1 : f64) : pel :=
  match s with
  | PLine p q => LineTo (klerp p q t1)
  | PQuad p q r => let c := subsegment hm_eval hm_ctrl (to_cubic ex_quad s) t0 t1 in CurveTo (c1 c) (c2 c) (c3 c)
  | PCubic c => let c := subsegment hm_eval hm_ctrl c t0 t1 in CurveTo (c1 c) (c2 c) (c3 c)
  end.

(** ** Heights *)
Definition bez3 (y0 y1 y2 y3 u : R) : R := ((1 - u) * (1 - u) * (1 - u) * y0 + 3 * u * (1 - u) * (1 - u) * y1 + 3 * u * u * (1 - u) * y2 + u * u * u * y3)%R.
(** The height of an input segment at a parameter. *)
Definition input_y (s : pathseg) (u : R) : R :=
  match s with
  | PLine p q => ((1 - u) * B2R (py p) + u * B2R (py q))%R
  | PQuad p c q => bez2 (B2R (py p)) (B2R (py c)) (B2R (py q)) u
  | PCubic c => bez3 (B2R (py (c0 c))) (B2R (py (c1 c))) (B2R (py (c2 c))) (B2R (py (c3 c))) u
  end.
(** No point of the input has a negative height. *)
Definition not_negative (paths : list (list pathel)) : Prop :=
  forall p ss s u, In p paths -> kurbo_segments p = Some ss -> In s ss -> (0 <= u <= 1)%R -> (0 <= input_y s u)%R.
(** The path has a cubic piece with a point at a height of at most [-h]. *)
Definition reaches_above (h : R) (path : list pel) : Prop :=
  exists pre e c d q post u, path = pre ++ e :: CurveTo c d q :: post /\ (0 <= u <= 1)%R /\ (bez3 (B2R (py (pel_end e))) (B2R (py c)) (B2R (py d)) (B2R (py q)) u <= - h)%R.
Fixpoint above_b (l : list pel) : bool :=
  match l with
  | [] => false
  | e :: l => match l with
              | CurveTo c d q :: _ => let f := fun x y => fin x && fin y && fle x y in f (py (pel_end e)) (z 1600) && f (py c) (z (-900)) && f (py d) (z (-900)) && f (py q) (z 3000)
              | _ => false
              end || above_b l
  end.
Lemma z_le x n : fin x && fin (z n) && fle x (z n) = true -> key (z n) = (n * 2 ^ 1074)%Z -> (B2R x <= IZR n)%R.
Proof.
  rewrite !andb_true_iff. intros ((F & G) & L) K. rewrite <- (z_val n G K). apply key_le_R; [assumption..|]. apply fle_split in L. apply L.
Qed.
Lemma above_ok l : above_b l = true -> reaches_above 100 l.
Proof.
  induction l as [|e l IH]; [discriminate|]. cbn [above_b]. rewrite orb_true_iff. intros [H|H].
  - destruct l as [|[p|p|c0 e0|c d q] l]; try discriminate H. cbv zeta beta in H. rewrite (andb_true_iff _ (fin (py q) && _ && _)), (andb_true_iff _ (fin (py d) && _ && _)), (andb_true_iff _ (fin (py c) && _ && _)) in H. destruct H as (((A & B) & C) & D).
    apply z_le in A; [|vm_compute; reflexivity]. apply z_le in B; [|vm_compute; reflexivity]. apply z_le in C; [|vm_compute; reflexivity]. apply z_le in D; [|vm_compute; reflexivity].
    exists [], e, c, d, q, l, (/ 2)%R. split; [reflexivity|]. split; [lra|]. unfold bez3. lra.
  - destruct (IH H) as (pre & e1 & c & d & q & post & u & P & R). exists (e :: pre), e1, c, d, q, post, u. split; [rewrite P; reflexivity|exact R].
Qed.
Lemma figure_not_negative : not_negative [hump; wedge].
Proof.
  assert (V : forall n, fin (z n) = true -> Z.eqb (key (z n)) (n * 2 ^ 1074) = true -> B2R (z n) = IZR n) by (intros n A B; apply z_val; [exact A|apply Z.eqb_eq, B]).
  pose proof (V 3000%Z ltac:(vm_compute; reflexivity) ltac:(vm_compute; reflexivity)) as V1. pose proof (V (-1000)%Z ltac:(vm_compute; reflexivity) ltac:(vm_compute; reflexivity)) as V2.
  pose proof (V 256%Z ltac:(vm_compute; reflexivity) ltac:(vm_compute; reflexivity)) as V3. pose proof (V 4096%Z ltac:(vm_compute; reflexivity) ltac:(vm_compute; reflexivity)) as V4.
  assert (NC : negb (point_eq (pt 16 3000) (pt 0 3000)) = true) by (vm_compute; reflexivity). assert (ND : negb (point_eq (pt 66 4096) (pt 17 256)) = true) by (vm_compute; reflexivity).
  intros p ss s u [<-|[<-|[]]] K I U; cbn [hump wedge kurbo_segments ksegs] in K; rewrite ?NC, ?ND in K; injection K as <-; cbn [In] in I.
  - destruct I as [<-|[<-|[]]]; cbn [input_y c0 c1 c2 c3 pt py].
    + rewrite V1, V2. unfold bez3. replace (_ + _)%R with (3000 * ((1 - 2 * u) * (1 - 2 * u)))%R by ring. pose proof (Rle_0_sqr (1 - 2 * u)) as Q. unfold Rsqr in Q. lra.
    + rewrite V1. lra.
  - destruct I as [<-|[<-|[<-|[]]]]; cbn [input_y pt py]; rewrite ?V3, ?V4; lra.
Qed.

(** ** C68 *)
(** A curve with one extremal height, with one flank close to another figure further down: that flank is laid out as a copy of the input down to where the two become
    close and quadratic pieces below.  Joining the two flanks again replaces only the copied piece, but by the whole input curve, which is then drawn from where the
    quadratic pieces stop: with accuracy 2 and no point of the input above height 0, the path of the contour goes at least 100 above it. *)
Theorem rejoining_can_leave_the_input : exists l t out cs c path,
  hm_figure (z 2) [hump; wedge] hu_cmp l t /\ not_negative [hump; wedge] /\ hm_positions t [hump; wedge] 50 = Ok out /\ contours t Z.odd = Ok cs /\ In c cs /\
  segs_to_path true (hm_arena [hump; wedge]) t out (fun _ _ => fzero) hm_sub_input (c_segs c) = Ok path /\ reaches_above 100 path.
Proof.
  destruct wedge_figure as (l & t & V & T).
  assert (B : match hm_topo (z 2) [hump; wedge] hu_cmp 100 100 with Ok t => match hm_positions t [hump; wedge] 50 with Ok out => match contours t Z.odd with Ok (c :: _) =>
    match segs_to_path true (hm_arena [hump; wedge]) t out (fun _ _ => fzero) hm_sub_input (c_segs c) with Ok path => above_b path | _ => false end | _ => false end | _ => false end | _ => false end = true) by (vm_compute; reflexivity).
  rewrite T in B. destruct (hm_positions t [hump; wedge] 50) as [out|] eqn:P; [|discriminate B]. destruct (contours t Z.odd) as [[|c cs]|] eqn:C; try discriminate B.
  destruct (segs_to_path _ _ _ _ _ _ _) as [path|] eqn:SP; [|discriminate B]. exists l, t, out, (c :: cs), c, path. split; [exact V|]. split; [exact figure_not_negative|]. split; [exact P|]. split; [exact C|]. split; [left; reflexivity|]. split; [exact SP|]. apply above_ok, B.
Qed.
Print Assumptions rejoining_can_leave_the_input.

(** ** Non-vacuity *)
Lemma figure_meets paths l t : hm_figure (z 2) paths hu_cmp l t -> sweepable (hm_arena paths) /\ tables_full (hm_arena paths) /\ well_formed t /\ segments_run_down (hm_arena paths) t /\
  forall m out, hm_positions t paths m = Ok out -> laid_out t out.
Proof.
  intros (X & RE & E & IN & G & C & RM & L & PL & WF). pose proof (ss_arena _ _ _ _ _ (ti_setting _ _ _ _ _ _ _ _ _ _ _ _ _ IN)) as SA. split; [exact SA|]. split; [exact (reachable_tables_full _ _ _ _ _ _ isort_spec _ _ RE)|]. split; [exact WF|].
  destruct (layout_laid_out Z unit i32_wops _ _ _ _ _ _ _ _ _ _ _ _ _ IN hu_cmp hm_sub (fun _ _ _ => true) (fun _ _ _ => false) mx_est pop_max C pop_max_ok RM 100 [] t t L PL (or_introl eq_refl)) as (A & _ & B). split; [exact A|exact B].
Qed.
(** The hump alone, and the hump with the triangle, meet the hypotheses of [contour_paths].  The contour of the hump alone consists of three output segments, and is drawn with a line and one
    curve; beside the triangle it is drawn with a line, a quadratic piece and a curve. *)
Definition one_path (paths : list (list pathel)) (k : list nat) : bool :=
  match hm_topo (z 2) paths hu_cmp 100 100 with Ok t => match hm_positions t paths 50 with Ok out => match contours t Z.odd with Ok (c :: _) => (length (c_segs c) =? 3) &&
    match segs_to_path true (hm_arena paths) t out (fun _ _ => fzero) hm_sub_input (c_segs c) with Ok path => if list_eq_dec Nat.eq_dec (kinds (mkPosn path None)) k then true else false | _ => false end | _ => false end | _ => false end | _ => false end.
Lemma one_path_ok paths k l t : hm_figure (z 2) paths hu_cmp l t -> hm_topo (z 2) paths hu_cmp 100 100 = Ok t -> one_path paths k = true -> exists out cs c path,
  sweepable (hm_arena paths) /\ tables_full (hm_arena paths) /\ well_formed t /\ segments_run_down (hm_arena paths) t /\ laid_out t out /\ contours t Z.odd = Ok cs /\ In c cs /\ length (c_segs c) = 3 /\
  segs_to_path true (hm_arena paths) t out (fun _ _ => fzero) hm_sub_input (c_segs c) = Ok path /\ draws (hm_arena paths) t out (fun _ _ => fzero) hm_sub_input (c_segs c) path /\
  kinds (mkPosn path None) = k.
Proof.
  intros V T B. unfold one_path in B. rewrite T in B. destruct (hm_positions t paths 50) as [out|] eqn:P; [|discriminate B]. destruct (contours t Z.odd) as [[|c cs]|] eqn:C; try discriminate B.
  destruct (segs_to_path _ _ _ _ _ _ _) as [path|] eqn:SP; [|rewrite andb_false_r in B; discriminate B]. apply andb_true_iff in B. destruct B as [B1 B2]. apply Nat.eqb_eq in B1. destruct (list_eq_dec _ _ _) as [K|]; [|discriminate B2].
  destruct (figure_meets _ _ _ V) as (SA & TF & WF & RD & LO). specialize (LO 50 out P). exists out, (c :: cs), c, path. split; [exact SA|]. split; [exact TF|]. split; [exact WF|]. split; [exact RD|]. split; [exact LO|]. split; [reflexivity|]. split; [left; reflexivity|]. split; [exact B1|]. split; [exact SP|]. split; [|exact K].
  destruct (contour_paths Z t _ out Z.odd _ SA TF WF RD LO C true (fun _ _ => fzero) hm_sub_input c (or_introl eq_refl)) as [(path' & E & D)|(E & _)]; congruence.
Qed.
Example hump_rejoined : exists l t out cs c path, hm_figure (z 2) [hump] hu_cmp l t /\ 
  sweepable (hm_arena [hump]) /\ tables_full (hm_arena [hump]) /\ well_formed t /\ segments_run_down (hm_arena [hump]) t /\ laid_out t out /\ contours t Z.odd = Ok cs /\ In c cs /\ length (c_segs c) = 3 /\
  segs_to_path true (hm_arena [hump]) t out (fun _ _ => fzero) hm_sub_input (c_segs c) = Ok path /\ draws (hm_arena [hump]) t out (fun _ _ => fzero) hm_sub_input (c_segs c) path /\
  kinds (mkPosn path None) = [0; 1; 3].
Proof.
  destruct hump_figure as (l & t & V & T). assert (B : one_path [hump] [0; 1; 3] = true) by (vm_compute; reflexivity).
  destruct (one_path_ok _ _ _ _ V T B) as (out & cs & c & path & R). exists l, t, out, cs, c, path. split; [exact V|exact R].
Qed.
Example wedge_rejoined : exists l t out cs c path, hm_figure (z 2) [hump; wedge] hu_cmp l t /\ 
  sweepable (hm_arena [hump; wedge]) /\ tables_full (hm_arena [hump; wedge]) /\ well_formed t /\ segments_run_down (hm_arena [hump; wedge]) t /\ laid_out t out /\ contours t Z.odd = Ok cs /\ In c cs /\ length (c_segs c) = 3 /\
  segs_to_path true (hm_arena [hump; wedge]) t out (fun _ _ => fzero) hm_sub_input (c_segs c) = Ok path /\ draws (hm_arena [hump; wedge]) t out (fun _ _ => fzero) hm_sub_input (c_segs c) path /\
  kinds (mkPosn path None) = [0; 1; 2; 3].
Proof.
  destruct wedge_figure as (l & t & V & T). assert (B : one_path [hump; wedge] [0; 1; 2; 3] = true) by (vm_compute; reflexivity).
  destruct (one_path_ok _ _ _ _ V T B) as (out & cs & c & path & R). exists l, t, out, cs, c, path. split; [exact V|exact R].
Qed.
(** From polygons to paths: two copies of a triangle meet the hypotheses of [contours_from_segments_drawn] and [polylines_never_cut]; every contour is drawn with all its segments. *)
From Verif Require Import PropsMerge.
Definition all_drawn (pss : list (list point)) : Prop := exists t fuel0, po_from pss 100 100 = Ok t /\
  forall m, fuel0 <= m -> exists out, topo_positions false (po_arena pss) (po_cmp po_eps (po_arena pss)) hm_sub (fun _ _ _ => true) (fun _ _ _ => false) mx_est pop_max (@isort) po_eps t m = Ok out /\
  forall inside, exists cs, contours t inside = Ok cs /\ forall root sub_input c, In c cs -> exists k p ls,
    segs_to_path true (po_arena pss) t out root sub_input (c_segs c) = Ok (MoveTo p :: concat ls) /\ Forall2 (along t out) (skipn k (c_segs c) ++ firstn k (c_segs c)) ls /\ option_map pel_end (last_opt (concat ls)) = Some p.
Lemma polygons_drawn pss : po_ok pss = true -> mergeable pss -> roomy (po_arena pss) (fdiv po_eps ffour) -> 2 * arena_len (po_arena pss) < 100 -> all_drawn pss.
Proof.
  intros OK (l & E & W & U & IN & CC & SIB & CLS) RM L. destruct (po_sound _ OK) as (SS & _).
  assert (RE : reachable ex_eval ex_ctrl ex_monic ex_quad ex_at_y isort [OpClosed pss] (po_arena pss)).
  { unfold po_ok in OK. rewrite !andb_true_iff in OK. destruct OK as (((((R & _) & _) & _) & _) & _). unfold reachable, po_arena, ex_run in *. destruct (SegmentsSpec.run ex_eval ex_ctrl ex_monic ex_quad ex_at_y isort arena_default [OpClosed pss]) as [[a oks]|]; [|discriminate R]. eauto. }
  destruct (contours_from_segments_drawn Z unit i32_wops _ _ _ _ _ _ _ _ _ _ _ _ _ _ W U IN CC SIB CLS (po_cmp po_eps (po_arena pss)) hm_sub (fun _ _ _ => true) (fun _ _ _ => false) mx_est pop_max (ss_cmp _ _ _ _ _ SS) pop_max_ok RM (reachable_tables_full _ _ _ _ _ _ isort_spec _ _ RE) 100 100 L E) as (t & fuel0 & FS & X).
  exists t, fuel0. split; [exact FS|]. intros m Lm. destruct (X m Lm) as (out & P & Y). exists out. split; [exact P|]. intro inside. destruct (Y inside) as (cs & C & Z0). exists cs. split; [exact C|]. intros root sub_input c I.
  apply (proj2 (Z0 true root sub_input c I)). intros h _. split; apply (polylines_never_cut ex_eval ex_ctrl ex_monic ex_quad ex_at_y isort isort_spec [OpClosed pss]); auto; intros b p [H|[]]; discriminate H.
Qed.
Definition half_tri : list point := [pt 0 0; pt 2000 4000; pt (-2000) 4000].
Example triangles_drawn : all_drawn [half_tri; half_tri].
Proof.
  apply polygons_drawn; [vm_compute; reflexivity|apply mergeable_b; vm_compute; reflexivity| |apply Nat.ltb_lt; vm_compute; reflexivity].
  apply small_roomy; [vm_compute; reflexivity| |vm_compute; reflexivity]. rewrite (sf_val _ 4503599627370496 (-54)) by (vm_compute; reflexivity). cbn. lra.
Qed.
