(** A concrete setting for examples: closed paths with straight lines and curves, given comparison tables, swept and made into a topology.
    (Used by examples and by C60 only.) *)
From Coq Require Import List Bool ZArith Arith Lia Permutation Sorted.
From Verif Require Import F64 F64Arith TreeVecModel TreeVecSpec TreeVecMono GeomModel SegmentsModel SegmentsSpec SegmentsProofs3 SegmentsProofs4 CurveOrderModel CurveOrderSpec CurveOrderProofs SweepModel SweepSpec SweepProofs2 SweepCheck SweepReach
  RangeModel RangeSpec RangeProofs TopoModel TopoSpec PropsSegments PropsSweep PropsRange PropsWind PolyExample.
Import ListNotations.

(** No curve has an extremal height inside. *)
Definition mx_monic (b c : f64) : f64 * f64 := (z 2, z 3).
(** Positions: exact for lines and at the ends of curves; curves are bounded by their control points. *)
Definition mx_min (s : segment) : f64 := match s with SLine p q => fmin (px p) (px q) | SCubic p0 p1 p2 p3 => fmin (fmin (px p0) (px p1)) (fmin (px p2) (px p3)) end.
Definition mx_max (s : segment) : f64 := match s with SLine p q => fmax (px p) (px q) | SCubic p0 p1 p2 p3 => fmax (fmax (px p0) (px p1)) (fmax (px p2) (px p3)) end.
Definition mx_lo (s : segment) (y e : f64) : f64 := match s with SLine _ _ => po_lo s y e | _ => mx_min s end.
Definition mx_hi (s : segment) (y e : f64) : f64 := match s with SLine _ _ => po_hi s y e | _ => mx_max s end.
Definition mx_aty (s : segment) (y : f64) : f64 :=
  match s with
  | SLine _ _ => po_aty s y
  | SCubic p0 p1 p2 p3 => fmin (fmax (if feq y (py p0) then px p0 else if feq y (py p3) then px p3 else fmid (px p1) (px p2)) (mx_min s)) (mx_max s)
  end.
Section Mix.
Variable eps : f64.
Variable paths : list (list pathel).
Variable cmp : nat -> nat -> curve_order.
Definition mx_ops : list seg_op := map (OpBez true) paths.
Definition mx_run := run ex_eval ex_ctrl mx_monic ex_quad ex_at_y isort arena_default mx_ops.
Definition mx_arena : arena := match mx_run with Some (a, _) => a | None => arena_default end.
Definition mx_tags : list unit := repeat tt (arena_len mx_arena).
Definition mx_sweep (f n : nat) : res (list sweeper * bool) :=
  sweep mx_arena eps cmp cmp mx_min mx_max mx_lo mx_hi ex_pps (@isort) f n 0 (sweeper_new mx_arena).
Definition mx_topo (f n : nat) : res (topo Z) :=
  do! (l, done) := mx_sweep f n in
  process_lines i32_wops mx_arena mx_tags (@isort) eps mx_lo mx_hi mx_aty f l [] (topo_new (arena_len mx_arena)).
Definition seg_num (s : segment) : bool :=
  match s with SLine p q => num_b [p; q] | SCubic p0 p1 p2 p3 => num_b [p0; p1; p2; p3] end.
Definition mx_meet_b : bool :=
  forallb (fun i => match sweep_prev mx_arena i with
    | Ok (Some p) => forallb (fun y => fle (band_lo mx_arena eps mx_lo y p) (mx_aty (seg_def mx_arena i) y) && fle (mx_aty (seg_def mx_arena i) y) (band_hi mx_arena eps mx_hi y p)) (zeros (start_y mx_arena i))
    | _ => true end) (seq 0 (arena_len mx_arena)).
Definition mx_ok : bool :=
  match mx_run with Some (_, oks) => forallb (fun b => b) oks && (length oks =? length paths) | _ => false end &&
  forallb seg_num (segs mx_arena) && comparer_b mx_arena cmp && mx_meet_b && (length (orientation mx_arena) =? arena_len mx_arena) && fle fzero eps && fin eps &&
  match mx_sweep 100 100 with Ok (l, d) => d && forallb (fun s => boxes_b mx_arena eps mx_lo mx_hi (sw_y s) (sw_line s) && forallb (weak_b mx_arena eps mx_lo mx_hi s) (sw_changed s)) l | Err _ => false end.

Lemma mx_min_num s : seg_num s = true -> nan (mx_min s) = false /\ nan (mx_max s) = false /\ fle (mx_min s) (mx_max s) = true /\ (forall p, p = seg_start s \/ p = seg_end s -> point_fin p).
Proof.
  assert (M : forall x y, nan x = false -> nan y = false -> nan (fmin x y) = false /\ nan (fmax x y) = false /\ key (fmin x y) = Z.min (key x) (key y) /\ key (fmax x y) = Z.max (key x) (key y)).
  { intros x y A B. destruct (fmin_nonnan _ _ A B), (fmax_nonnan _ _ A B). auto. }
  unfold seg_num, num_b. destruct s as [p q|p0 p1 p2 p3]; cbn [forallb]; rewrite ?andb_true_iff; cbn [mx_min mx_max seg_start seg_end].
  - intros ((P1 & P2) & (Q1 & Q2) & _). destruct (M _ _ (fin_nonnan _ P1) (fin_nonnan _ Q1)) as (A & B & C & D). split; [exact A|]. split; [exact B|]. split; [rewrite fle_key by assumption; apply Z.leb_le; lia|]. intros r [->| ->]; split; assumption.
  - intros ((A1 & A2) & (B1 & B2) & (C1 & C2) & (D1 & D2) & _). destruct (M _ _ (fin_nonnan _ A1) (fin_nonnan _ B1)) as (A & B & C & D). destruct (M _ _ (fin_nonnan _ C1) (fin_nonnan _ D1)) as (A' & B' & C' & D').
    destruct (M _ _ A A') as (A3 & _ & C3 & _). destruct (M _ _ B B') as (_ & B4 & _ & D4). split; [exact A3|]. split; [exact B4|]. split; [rewrite fle_key by assumption; apply Z.leb_le; lia|]. intros r [->| ->]; split; assumption.
Qed.
Lemma mx_band s y : seg_num s = true -> fle (mx_lo s y eps) (mx_aty s y) = true /\ fle (mx_aty s y) (mx_hi s y eps) = true.
Proof.
  intros N. destruct (mx_min_num s N) as (N1 & N2 & LE & _).
  assert (K : nan (mx_lo s y eps) = false /\ nan (mx_hi s y eps) = false /\ fle (mx_lo s y eps) (mx_aty s y) = true /\ fle (mx_aty s y) (mx_hi s y eps) = true).
  { destruct s as [p q|p0 p1 p2 p3].
    - unfold mx_lo, mx_hi, mx_aty, po_lo, po_hi, po_aty. cbn [mx_min mx_max] in N1, N2.
      assert (AN : forall u, nan (ex_aty (SLine p q) u) = false) by (intros u; unfold ex_aty; apply clamped_num; assumption).
      destruct (fmin_nonnan _ _ (AN (fsub y eps)) (AN (fadd y eps))) as [A1 _]. destruct (fmin_nonnan _ _ (AN y) A1) as [A2 A3].
      destruct (fmax_nonnan _ _ (AN (fsub y eps)) (AN (fadd y eps))) as [B1 _]. destruct (fmax_nonnan _ _ (AN y) B1) as [B2 B3]. pose proof (AN y). repeat split; try assumption; fk; zb; lia.
    - unfold mx_lo, mx_hi, mx_aty. set (mn := mx_min _) in *. set (mm := mx_max _) in *. set (w := if feq y (py p0) then _ else _). split; [exact N1|]. split; [exact N2|].
      assert (NW : nan (fmax w mn) = false /\ (key mn <= key (fmax w mn))%Z). { destruct (nan w) eqn:Q; [unfold fmax; rewrite Q; split; [exact N1|lia]|]. destruct (fmax_nonnan _ _ Q N1) as [A B]. split; [exact A|]. lia. }
      destruct NW as [NW KW]. destruct (fmin_nonnan _ _ NW N2) as [A B]. fk. zb. split; lia. }
  destruct K as (K1 & K2 & K3 & K4). split; assumption.
Qed.
Lemma seg_num_num s : seg_num s = true -> num_b [seg_start s; seg_end s] = true.
Proof. unfold seg_num, num_b. destruct s; cbn [forallb seg_start seg_end]; rewrite ?andb_true_iff; tauto. Qed.
Lemma mx_sound : (forall p, In p paths -> path_exact ex_eval mx_monic ex_quad p) -> mx_ok = true -> exists l, mx_sweep 100 100 = Ok (l, true) /\
  topo_input mx_tags mx_arena eps cmp cmp mx_min mx_max mx_lo mx_hi mx_aty ex_pps (@isort) l /\
  (positions_sound mx_arena eps mx_lo mx_hi mx_aty /\ forall s c, In s l -> In c (sw_changed s) -> old_weakly_ordered mx_arena eps mx_lo mx_hi s c /\ new_weakly_ordered mx_arena eps mx_lo mx_hi s c) /\ comparer_ok mx_arena cmp /\ sweepable mx_arena.
Proof.
  intro X. unfold mx_ok. rewrite !andb_true_iff. intros (((((((R & F) & C) & M) & O) & PE) & FE) & S). apply Nat.eqb_eq in O. rewrite forallb_forall in F.
  assert (SW : sweepable mx_arena).
  { apply (reachable_sweepable ex_eval ex_ctrl mx_monic ex_quad ex_at_y isort isort_spec mx_ops mx_arena).
    - intros p H. unfold mx_ops in H. apply in_map_iff in H. destruct H as (q & H & _). discriminate.
    - intros op H. unfold mx_ops in H. apply in_map_iff in H. destruct H as (q & <- & H). apply X, H.
    - intros op H. unfold mx_ops in H. apply in_map_iff in H. destruct H as (q & <- & H). apply X, H.
    - unfold reachable_ok, mx_arena, mx_run in *. destruct (SegmentsSpec.run ex_eval ex_ctrl mx_monic ex_quad ex_at_y isort arena_default mx_ops) as [[a oks]|]; [|discriminate R]. apply andb_true_iff in R. destruct R as [R L]. apply Nat.eqb_eq in L.
      unfold mx_ops. f_equal. f_equal. revert L R. generalize paths. clear. induction oks as [|[] oks IH]; intros [|q l] L R; try discriminate L; try discriminate R; [reflexivity|]. cbn [map]. f_equal. apply IH; [injection L; auto|exact R].
    - intros s Hs. destruct (mx_min_num s (F s Hs)) as (_ & _ & _ & FP). split; [apply FP; left; reflexivity|]. split; [apply FP; right; reflexivity|].
      intros y _. unfold ex_at_y. destruct (FP (seg_start s) (or_introl eq_refl)) as [A _]. apply fin_nonnan in A. split; [exact A|]. fk. apply Z.eqb_refl. }
  assert (CO : comparer_ok mx_arena cmp) by (apply comparer_b_ok, C).
  assert (PS : positions_sound mx_arena eps mx_lo mx_hi mx_aty).
  { split.
    - intros y i _ (L & _). pose proof (registered_lt _ SW _ L) as L'. apply mx_band. apply F. unfold seg_def. apply nth_In. exact L'.
    - intros y i p (L & _) _ SP K1 K2. pose proof (registered_lt _ SW _ L) as L'. unfold mx_meet_b in M. rewrite forallb_forall in M. specialize (M i ltac:(apply in_seq; lia)). rewrite SP in M. rewrite forallb_forall in M. specialize (M y (zeros_in _ _ K1)). apply andb_true_iff in M. exact M. }
  destruct (mx_sweep 100 100) as [[l d]|] eqn:E; [|discriminate S]. apply andb_true_iff in S as (-> & S). rewrite forallb_forall in S. exists l. split; [reflexivity|]. split; [|split; [|split; [exact CO|exact SW]]].
  - constructor.
    + split; [exact SW|exact CO|exact CO| |intros A; apply isort_spec]. intros t. split; [intros p l'; apply scan_pp_boundary|]. split; [intros p l'; apply scan_pp_boundary|]. intros p q l' l'' H. apply scan_pp_mono, H.
    + apply sound_numbers, PS.
    + apply repeat_length.
    + exact O.
    + exists 100, 100. exact E.
    + intros s Hs. apply S, andb_true_iff in Hs. apply boxes_b_ok, Hs.
  - split; [exact PS|]. intros s c Hs Hc. apply S, andb_true_iff in Hs. destruct Hs as [_ Hs]. rewrite forallb_forall in Hs. apply Hs in Hc. apply weak_ok in Hc. exact Hc.
Qed.
End Mix.
(** A path of lines and curves with numbers as coordinates. *)
Lemma nn_b p : num_b [p] = true -> point_nonnan p.
Proof. unfold num_b. cbn [forallb]. rewrite !andb_true_iff. intros ((A & B) & _). split; apply fin_nonnan; assumption. Qed.
Lemma pt_nn x y : fin (z x) = true -> fin (z y) = true -> point_nonnan (pt x y).
Proof. intros A B. split; apply fin_nonnan; assumption. Qed.
Lemma curve_exact p0 p1 p2 p3 : point_nonnan p0 -> point_nonnan p3 -> ends_exact ex_eval mx_monic ex_quad (PCubic (mkCubic p0 p1 p2 p3)).
Proof.
  intros A B. cbn [ends_exact].
  assert (F0 : feq fzero fzero = true) by (vm_compute; reflexivity). assert (F1 : feq fone fone = true) by (vm_compute; reflexivity). assert (F2 : feq fone fzero = false) by (vm_compute; reflexivity).
  assert (D : forall c t, point_nonnan (c0 c) -> point_nonnan (c3 c) -> point_nonnan (ex_eval c t)).
  { intros c u A' B'. unfold ex_eval. destruct (feq u fzero); [exact A'|]. destruct (feq u fone); [exact B'|]. split; vm_compute; reflexivity. }
  cbn [to_cubic ps_start ps_end c0 c3]. split; [|split].
  - unfold ex_eval. rewrite F0. cbn [c0]. apply peq_refl. auto.
  - unfold ex_eval. rewrite F1, F2. cbn [c3]. apply peq_refl. auto.
  - intros t _. apply D; cbn [c0 c3]; auto.
Qed.

(** ** A drop *)
(** A line from (0, v) to (0, v+16), and a curve back that leaves it tangentially and arrives at an angle; they are within 2 of each other near both ends. *)
Definition td_paths (v : Z) : list (list pathel) := [[MoveTo (pt 0 v); LineTo (pt 0 (v + 16)); CurveTo (pt 0 (v + 10)) (pt 8 (v + 4)) (pt 0 v); ClosePath]].
Definition td_cmp (v : Z) (i j : nat) : curve_order :=
  let o := if i <? j then Left else Right in
  mkCO (z v) [mkEntry (z (v + 1)) Ish; mkEntry (z (v + 11)) o; mkEntry (z (v + 16)) Ish].
Lemma td_exact v p : num_b [pt 0 v; pt 0 (v + 16)] = true -> In p (td_paths v) -> path_exact ex_eval mx_monic ex_quad p.
Proof.
  unfold num_b. cbn [forallb]. rewrite !andb_true_iff. intros ((A1 & A2) & (B1 & B2) & _) [<-|[]].
  assert (P0 : point_nonnan (pt 0 v)) by (split; apply fin_nonnan; assumption). assert (P1 : point_nonnan (pt 0 (v + 16))) by (split; apply fin_nonnan; assumption).
  assert (NC : negb (point_eq (pt 0 v) (pt 0 v)) = false). { destruct P0 as [A B]. unfold point_eq. rewrite !feq_key, !Z.eqb_refl by assumption. reflexivity. }
  intros sub ss Hs K. cbn [subpaths subpaths_fuel length take_subpath is_moveto andb] in Hs. destruct Hs as [<-|[]]. cbn [kurbo_segments ksegs] in K. rewrite NC in K. inversion K; subst; clear K.
  constructor; [cbn [ends_exact]; auto|]. constructor; [|constructor]. apply curve_exact; assumption.
Qed.

(** ** A lens and a triangle *)
(** Two curves from (0, 0) to (0, 32) that share their tangents at both ends and stay within 4 of each other; a triangle whose west edge starts further
    down and far away and comes close to them. *)
Definition ln_paths : list (list pathel) := [[MoveTo (pt 0 0); CurveTo (pt 2 4) (pt 2 28) (pt 0 32); CurveTo (pt 4 24) (pt 4 8) (pt 0 0); ClosePath];
  [MoveTo (pt 24 6); LineTo (pt 4 26); LineTo (pt 24 26); ClosePath]].
Definition ln_flip (l : list entry) : list entry := map (fun e => mkEntry (e_end e) (match e_order e with Left => Right | Right => Left | Ish => Ish end)) l.
Definition ln_cmp (i j : nat) : curve_order :=
  let t i j := match i, j with
    | 0, 1 => (0%Z, [mkEntry (z 32) Ish])
    | 0, 2 => (6%Z, [mkEntry (z 25) Left; mkEntry (z 26) Ish])
    | 1, 2 => (6%Z, [mkEntry (z 24) Left; mkEntry (z 26) Ish])
    | 2, 4 => (6%Z, [mkEntry (z 10) Ish; mkEntry (z 26) Left])
    | _, _ => (6%Z, [mkEntry (z 26) Left]) end in
  if i <? j then let '(s, l) := t i j in mkCO (z s) l else let '(s, l) := t j i in mkCO (z s) (ln_flip l).
Lemma ln_exact p : In p ln_paths -> path_exact ex_eval mx_monic ex_quad p.
Proof.
  assert (P0 : point_nonnan (pt 0 0)) by (split; vm_compute; reflexivity). assert (P1 : point_nonnan (pt 0 32)) by (split; vm_compute; reflexivity).
  assert (Q0 : point_nonnan (pt 24 6)) by (split; vm_compute; reflexivity). assert (Q1 : point_nonnan (pt 4 26)) by (split; vm_compute; reflexivity). assert (Q2 : point_nonnan (pt 24 26)) by (split; vm_compute; reflexivity).
  assert (NC : negb (point_eq (pt 0 0) (pt 0 0)) = false) by (vm_compute; reflexivity). assert (ND : negb (point_eq (pt 24 26) (pt 24 6)) = true) by (vm_compute; reflexivity).
  intros [<-|[<-|[]]] sub ss Hs K; cbn [subpaths subpaths_fuel length take_subpath is_moveto andb] in Hs; destruct Hs as [<-|[]]; cbn [kurbo_segments ksegs] in K; rewrite ?NC, ?ND in K; inversion K; subst; clear K.
  - constructor; [apply curve_exact; assumption|]. constructor; [apply curve_exact; assumption|constructor].
  - repeat (constructor; [cbn [ends_exact]; auto|]). constructor.
Qed.
Lemma td_ok : mx_ok (z 2) (td_paths 0) (td_cmp 0) = true.
Proof. vm_compute. reflexivity. Qed.
Lemma td_ok_up : mx_ok (z 2) (td_paths (-32)) (td_cmp (-32)) = true.
Proof. vm_compute. reflexivity. Qed.
Lemma ln_ok : mx_ok (z 4) ln_paths ln_cmp = true.
Proof. vm_compute. reflexivity. Qed.
