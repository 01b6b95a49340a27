(** A concrete setting for examples: closed paths with curves that are cut at an extremal height, with kurbo's formulas for evaluating and cutting a
    curve; given comparison tables, swept and made into a topology.  (Used by examples and by C68 only.) *)
From Coq Require Import List Bool ZArith Arith Lia Permutation Sorted.
From Verif Require PosModel.
From Verif Require Import F64 F64Arith TreeVecModel TreeVecSpec TreeVecMono GeomModel SegmentsModel SegmentsSpec SegmentsProofs3 SegmentsProofs4 CurveOrderModel CurveOrderSpec CurveOrderProofs SweepModel SweepSpec SweepProofs2 SweepCheck SweepReach
  RangeModel RangeSpec RangeProofs TopoModel TopoSpec PropsSegments PropsSweep PropsRange PropsWind PolyExample MixExample.
Import ListNotations.
Notation cubic := GeomModel.cubic.

(** kurbo's [CubicBez::eval], [QuadBez::eval] of the derivative, and [CubicBez::subsegment]. *)
Definition vadd (p q : point) : point := mkPoint (fadd (py p) (py q)) (fadd (px p) (px q)).
Definition vsub (p q : point) : point := mkPoint (fsub (py p) (py q)) (fsub (px p) (px q)).
Definition vmul (p : point) (t : f64) : point := mkPoint (fmul (py p) t) (fmul (px p) t).
Definition hm_eval (c : cubic) (t : f64) : point :=
  let mt := fsub fone t in
  vadd (vmul (c0 c) (fmul (fmul mt mt) mt))
       (vmul (vadd (vmul (c1 c) (fmul (fmul mt mt) (z 3))) (vmul (vadd (vmul (c2 c) (fmul mt (z 3))) (vmul (c3 c) t)) t)) t).
Definition hm_deriv (c : cubic) (t : f64) : point :=
  let d0 := vmul (vsub (c1 c) (c0 c)) (z 3) in let d1 := vmul (vsub (c2 c) (c1 c)) (z 3) in let d2 := vmul (vsub (c3 c) (c2 c)) (z 3) in
  let mt := fsub fone t in vadd (vmul d0 (fmul mt mt)) (vmul (vadd (vmul d1 (fmul mt (z 2))) (vmul d2 t)) t).
Definition hm_ctrl (c : cubic) (t0 t1 : f64) : point * point :=
  let scale := fmul (fsub t1 t0) (fdiv fone (z 3)) in
  (vadd (hm_eval c t0) (vmul (hm_deriv c t0) scale), vsub (hm_eval c t1) (vmul (hm_deriv c t1) scale)).

(** Positions on one half of a curve like the one below, whose height is [3000 u^2] and whose distance from the lower end is [12 t^2 - 4 t^3] eighths of its
    width with [t = 1 - u]; and the least and greatest within [e]. *)
Definition hm_aty (s : segment) (y : f64) : f64 :=
  match s with
  | SLine _ _ => po_aty s y
  | SCubic p0 p1 p2 p3 =>
      let h := fmin (fmax (fdiv (fsub y (py p0)) (fsub (py p3) (py p0))) fzero) fone in
      let t := fsub fone (PosModel.fsqrt h) in
      let w := fdiv (fmul (fmul t t) (fsub (z 12) (fmul (z 4) t))) (z 8) in
      fmin (fmax (fadd (px p3) (fmul (fsub (px p0) (px p3)) w)) (mx_min s)) (mx_max s)
  end.
Definition hm_lo (s : segment) (y e : f64) : f64 := fmin (hm_aty s y) (fmin (hm_aty s (fsub y e)) (hm_aty s (fadd y e))).
Definition hm_hi (s : segment) (y e : f64) : f64 := fmax (hm_aty s y) (fmax (hm_aty s (fsub y e)) (hm_aty s (fadd y e))).
Lemma hm_band eps s y : seg_num s = true -> fle (hm_lo s y eps) (hm_aty s y) = true /\ fle (hm_aty s y) (hm_hi s y eps) = true.
Proof.
  intros N. destruct (mx_min_num eps s N) as (N1 & N2 & _ & _). unfold hm_lo, hm_hi.
  assert (AN : forall u, nan (hm_aty s u) = false).
  { intros u. destruct s as [p q|p0 p1 p2 p3]; [|unfold hm_aty; apply clamped_num; assumption]. unfold hm_aty, po_aty, ex_aty. cbn [mx_min mx_max] in N1, N2. apply clamped_num; assumption. }
  destruct (fmin_nonnan _ _ (AN (fsub y eps)) (AN (fadd y eps))) as [A1 _]. destruct (fmin_nonnan _ _ (AN y) A1) as [A2 A3].
  destruct (fmax_nonnan _ _ (AN (fsub y eps)) (AN (fadd y eps))) as [B1 _]. destruct (fmax_nonnan _ _ (AN y) B1) as [B2 B3]. pose proof (AN y). split; fk; zb; lia.
Qed.
Section Hump.
Variable eps : f64.
Variable paths : list (list pathel).
Variable cmp : nat -> nat -> curve_order.
Definition hm_ops : list seg_op := map (OpBez true) paths.
Definition hm_run := run hm_eval hm_ctrl mx_monic ex_quad ex_at_y isort arena_default hm_ops.
Definition hm_arena : arena := match hm_run with Some (a, _) => a | None => arena_default end.
Definition hm_tags : list unit := repeat tt (arena_len hm_arena).
Definition hm_sweep (f n : nat) : res (list sweeper * bool) :=
  sweep hm_arena eps cmp cmp mx_min mx_max hm_lo hm_hi ex_pps (@isort) f n 0 (sweeper_new hm_arena).
Definition hm_topo (f n : nat) : res (topo Z) :=
  do! (l, done) := hm_sweep f n in
  process_lines i32_wops hm_arena hm_tags (@isort) eps hm_lo hm_hi hm_aty f l [] (topo_new (arena_len hm_arena)).
Definition hm_meet_b : bool :=
  forallb (fun i => match sweep_prev hm_arena i with
    | Ok (Some p) => forallb (fun y => fle (band_lo hm_arena eps hm_lo y p) (hm_aty (seg_def hm_arena i) y) && fle (hm_aty (seg_def hm_arena i) y) (band_hi hm_arena eps hm_hi y p)) (zeros (start_y hm_arena i))
    | _ => true end) (seq 0 (arena_len hm_arena)).
Definition hm_ok : bool :=
  match hm_run with Some (_, oks) => forallb (fun b => b) oks && (length oks =? length paths) | _ => false end &&
  forallb seg_num (segs hm_arena) && comparer_b hm_arena cmp && hm_meet_b && (length (orientation hm_arena) =? arena_len hm_arena) && fle fzero eps && fin eps &&
  match hm_sweep 100 100 with Ok (l, d) => d && forallb (fun s => boxes_b hm_arena eps hm_lo hm_hi (sw_y s) (sw_line s) && forallb (weak_b hm_arena eps hm_lo hm_hi s) (sw_changed s)) l | Err _ => false end.
Lemma hm_reachable : hm_ok = true -> reachable_ok hm_eval hm_ctrl mx_monic ex_quad ex_at_y isort hm_ops hm_arena.
Proof.
  unfold hm_ok. rewrite !andb_true_iff. intros (((((((R & F) & C) & M) & O) & PE) & FE) & S).
  unfold reachable_ok, hm_arena, hm_run in *. destruct (SegmentsSpec.run hm_eval hm_ctrl mx_monic ex_quad ex_at_y isort arena_default hm_ops) as [[a oks]|]; [|discriminate R]. apply andb_true_iff in R. destruct R as [R L]. apply Nat.eqb_eq in L.
  unfold hm_ops. f_equal. f_equal. revert L R. generalize paths. clear. induction oks as [|[] oks IH]; intros [|q l] L R; try discriminate L; try discriminate R; [reflexivity|]. cbn [map]. f_equal. apply IH; [injection L; auto|exact R].
Qed.
Lemma hm_sound : (forall p, In p paths -> path_exact hm_eval mx_monic ex_quad p) -> hm_ok = true -> exists l, hm_sweep 100 100 = Ok (l, true) /\
  topo_input hm_tags hm_arena eps cmp cmp mx_min mx_max hm_lo hm_hi hm_aty ex_pps (@isort) l /\
  (positions_sound hm_arena eps hm_lo hm_hi hm_aty /\ forall s c, In s l -> In c (sw_changed s) -> old_weakly_ordered hm_arena eps hm_lo hm_hi s c /\ new_weakly_ordered hm_arena eps hm_lo hm_hi s c) /\ comparer_ok hm_arena cmp /\ sweepable hm_arena.
Proof.
  intros X OKB. pose proof (hm_reachable OKB) as RO. revert OKB. unfold hm_ok. rewrite !andb_true_iff. intros (((((((R & F) & C) & M) & O) & PE) & FE) & S). apply Nat.eqb_eq in O. rewrite forallb_forall in F.
  assert (SW : sweepable hm_arena).
  { apply (reachable_sweepable hm_eval hm_ctrl mx_monic ex_quad ex_at_y isort isort_spec hm_ops hm_arena).
    - intros p H. unfold hm_ops in H. apply in_map_iff in H. destruct H as (q & H & _). discriminate.
    - intros op H. unfold hm_ops in H. apply in_map_iff in H. destruct H as (q & <- & H). apply X, H.
    - intros op H. unfold hm_ops in H. apply in_map_iff in H. destruct H as (q & <- & H). apply X, H.
    - exact RO.
    - intros s Hs. destruct (mx_min_num eps s (F s Hs)) as (_ & _ & _ & FP). split; [apply FP; left; reflexivity|]. split; [apply FP; right; reflexivity|].
      intros y _. unfold ex_at_y. destruct (FP (seg_start s) (or_introl eq_refl)) as [A _]. apply fin_nonnan in A. split; [exact A|]. fk. apply Z.eqb_refl. }
  assert (CO : comparer_ok hm_arena cmp) by (apply comparer_b_ok, C).
  assert (PS : positions_sound hm_arena eps hm_lo hm_hi hm_aty).
  { split.
    - intros y i _ (L & _). pose proof (registered_lt _ SW _ L) as L'. apply (hm_band eps). apply F. unfold seg_def. apply nth_In. exact L'.
    - intros y i p (L & _) _ SP K1 K2. pose proof (registered_lt _ SW _ L) as L'. unfold hm_meet_b in M. rewrite forallb_forall in M. specialize (M i ltac:(apply in_seq; lia)). rewrite SP in M. rewrite forallb_forall in M. specialize (M y (zeros_in _ _ K1)). apply andb_true_iff in M. exact M. }
  destruct (hm_sweep 100 100) as [[l d]|] eqn:E; [|discriminate S]. apply andb_true_iff in S as (-> & S). rewrite forallb_forall in S. exists l. split; [reflexivity|]. split; [|split; [|split; [exact CO|exact SW]]].
  - constructor.
    + split; [exact SW|exact CO|exact CO| |intros A; apply isort_spec]. intros t. split; [intros p l'; apply scan_pp_boundary|]. split; [intros p l'; apply scan_pp_boundary|]. intros p q l' l'' H. apply scan_pp_mono, H.
    + apply sound_numbers, PS.
    + apply repeat_length.
    + exact O.
    + exists 100, 100. exact E.
    + intros s Hs. apply S, andb_true_iff in Hs. apply boxes_b_ok, Hs.
  - split; [exact PS|]. intros s c Hs Hc. apply S, andb_true_iff in Hs. destruct Hs as [_ Hs]. rewrite forallb_forall in Hs. apply Hs in Hc. apply weak_ok in Hc. exact Hc.
Qed.
End Hump.

(** ** A hump, alone and beside a triangle *)
(** A curve from (0, 3000) up to (8, 0) and down to (16, 3000), closed by a horizontal line. *)
Definition hump : list pathel := [MoveTo (pt 0 3000); CurveTo (pt 0 (-1000)) (pt 16 (-1000)) (pt 16 3000); ClosePath].
(** A triangle to the east of it, that is within 2 of its east flank further down. *)
Definition wedge : list pathel := [MoveTo (pt 17 256); LineTo (pt 17 4096); LineTo (pt 66 4096); ClosePath].
Definition hu_cmp (i j : nat) : curve_order :=
  let t i j := match i, j with
    | 0, 1 => (0%Z, [mkEntry (z 32) Ish; mkEntry (z 3000) Left])
    | 1, 3 => (256%Z, [mkEntry (z 1536) Left; mkEntry (z 3000) Ish])
    | 3, 5 => (256%Z, [mkEntry (z 400) Ish; mkEntry (z 4096) Left])
    | _, _ => (256%Z, [mkEntry (z 3000) Left]) end in
  if i <? j then let '(s, l) := t i j in mkCO (z s) l else let '(s, l) := t j i in mkCO (z s) (ln_flip l).
