(** A concrete setting for examples: closed polygons with straight edges, compared with a tolerance, swept and made into a topology.
    (Used by examples only.) *)
From Coq Require Import List Bool ZArith Arith Lia Permutation Sorted.
From Verif Require TopoProofs.
From Verif Require Import F64 F64Arith TreeVecModel TreeVecSpec GeomModel SegmentsModel SegmentsSpec SegmentsProofs4 CurveOrderModel CurveOrderSpec CurveOrderProofs SweepModel SweepSpec SweepProofs2 SweepCheck SweepReach TreeVecMono
  RangeModel RangeSpec RangeProofs TopoModel TopoSpec PropsSegments PropsSweep PropsRange.
Import ListNotations.

(** Straight lines: the x coordinate at a height, and over the heights within [e] of it. *)
Definition po_aty := ex_aty.
Definition po_lo (s : segment) (y e : f64) : f64 := fmin (ex_aty s y) (fmin (ex_aty s (fsub y e)) (ex_aty s (fadd y e))).
Definition po_hi (s : segment) (y e : f64) : f64 := fmax (ex_aty s y) (fmax (ex_aty s (fsub y e)) (ex_aty s (fadd y e))).
(** Comparison with tolerance [e]. *)
Section Cmp.
Variable e : f64.
Variable a : arena.
Definition po_cls (d : f64) : order := if fgt d e then Left else if flt d (fneg e) then Right else Ish.
Definition po_cmp (i j : nat) : curve_order :=
  let si := seg_def a i in let sj := seg_def a j in
  let y0 := fmax (start_y a i) (start_y a j) in let y1 := fmin (end_y a i) (end_y a j) in
  let d y := fsub (ex_aty sj y) (ex_aty si y) in
  let d0 := d y0 in let d1 := d y1 in
  let cross v := fadd y0 (fmul (fsub v d0) (fdiv (fsub y1 y0) (fsub d1 d0))) in
  mkCO y0 match po_cls d0, po_cls d1 with
          | Left, Ish => [mkEntry (cross e) Left; mkEntry y1 Ish]
          | Ish, Left => [mkEntry (cross e) Ish; mkEntry y1 Left]
          | Right, Ish => [mkEntry (cross (fneg e)) Right; mkEntry y1 Ish]
          | Ish, Right => [mkEntry (cross (fneg e)) Ish; mkEntry y1 Right]
          | Left, Right => [mkEntry (cross e) Left; mkEntry (cross (fneg e)) Ish; mkEntry y1 Right]
          | Right, Left => [mkEntry (cross (fneg e)) Right; mkEntry (cross e) Ish; mkEntry y1 Left]
          | c, _ => [mkEntry y1 c]
          end.
End Cmp.

(** The arena of some closed polygons; the sweep; the topology before and after merging coincident segments. *)
Definition po_arena (pss : list (list point)) : arena := match ex_run arena_default [OpClosed pss] with Some (a, _) => a | None => arena_default end.
Definition po_eps : f64 := z 1.
Definition po_sweep (pss : list (list point)) (f n : nat) : res (list sweeper * bool) :=
  let a := po_arena pss in
  sweep a po_eps (po_cmp po_eps a) (po_cmp po_eps a) ex_min ex_max po_lo po_hi ex_pps (@isort) f n 0 (sweeper_new a).
Definition po_tags (pss : list (list point)) : list unit := repeat tt (arena_len (po_arena pss)).
Definition po_topo (pss : list (list point)) (f n : nat) : res (topo Z) :=
  do! (l, done) := po_sweep pss f n in
  process_lines i32_wops (po_arena pss) (po_tags pss) (@isort) po_eps po_lo po_hi po_aty f l [] (topo_new (arena_len (po_arena pss))).
Definition po_close (a : arena) (i j : nat) (y0 y1 : f64) : bool :=
  let c y := fle (fabs (fsub (ex_aty (seg_def a i) y) (ex_aty (seg_def a j) y))) po_eps in c y0 && c y1.
Definition po_from (pss : list (list point)) (f n : nat) : res (topo Z) :=
  let a := po_arena pss in
  from_segments i32_wops a (po_tags pss) po_eps (po_cmp po_eps a) (po_cmp po_eps a) ex_min ex_max po_lo po_hi po_aty ex_pps (@isort) (po_close a) f n.


(** ** A polygon input that passes some checks gives a sound setting *)
Lemma clamped_num p lo hi : nan lo = false -> nan hi = false -> nan (fmin (fmax p lo) hi) = false.
Proof.
  intros N1 N2. assert (M : nan (fmax p lo) = false).
  { destruct (nan p) eqn:Np; [unfold fmax; rewrite Np; exact N1|]. apply (fmax_nonnan p lo Np N1). }
  apply (fmin_nonnan _ hi M N2).
Qed.
Definition num_b (l : list point) : bool := forallb (fun p => fin (px p) && fin (py p)) l.
Definition zeros (y : f64) : list f64 := if feq y fzero then [BinarySingleNaN.B754_zero false; BinarySingleNaN.B754_zero true] else [y].
Definition meet_b (a : arena) : bool :=
  forallb (fun i => match sweep_prev a i with
    | Ok (Some p) => forallb (fun y => fle (band_lo a po_eps po_lo y p) (po_aty (seg_def a i) y) && fle (po_aty (seg_def a i) y) (band_hi a po_eps po_hi y p)) (zeros (start_y a i))
    | _ => true end) (seq 0 (arena_len a)).
Definition po_ok (pss : list (list point)) : bool :=
  match ex_run arena_default [OpClosed pss] with Some (_, [true]) => true | _ => false end &&
  forallb num_b pss && num_b (map seg_start (segs (po_arena pss)) ++ map seg_end (segs (po_arena pss))) &&
  comparer_b (po_arena pss) (po_cmp po_eps (po_arena pss)) && meet_b (po_arena pss) &&
  (length (orientation (po_arena pss)) =? arena_len (po_arena pss)).
Lemma zeros_in x y : feq x y = true -> In y (zeros x).
Proof.
  intros H. destruct (feq_nonnan _ _ H) as [Nx Ny]. unfold zeros. destruct (feq x fzero) eqn:E.
  - assert (K : key y = key (BinarySingleNaN.B754_zero false : f64)).
    { assert (Nz : nan fzero = false) by reflexivity. assert (Kz : key fzero = key (BinarySingleNaN.B754_zero false : f64)) by reflexivity. fk. zb. lia. }
    destruct (key_inj y (BinarySingleNaN.B754_zero false) Ny eq_refl K) as [->|(u & v & -> & _)]; [left; reflexivity|]. destruct u; cbn; auto.
  - left. assert (K : key x = key y) by (fk; zb; lia).
    destruct (key_inj x y Nx Ny K) as [->|(u & v & -> & ->)]; [reflexivity|]. vm_compute in E. discriminate E.
Qed.
Lemma po_sound pss : po_ok pss = true ->
  sound_setting (po_arena pss) (po_cmp po_eps (po_arena pss)) (po_cmp po_eps (po_arena pss)) ex_pps (@isort) /\
  positions_sound (po_arena pss) po_eps po_lo po_hi po_aty /\ length (orientation (po_arena pss)) = arena_len (po_arena pss).
Proof.
  unfold po_ok. rewrite !andb_true_iff. intros (((((R & N) & F) & C) & M) & O). apply Nat.eqb_eq in O.
  assert (SW : sweepable (po_arena pss)).
  { assert (N1 : forall l, num_b l = true -> Forall (fun p => fin (px p) = true /\ fin (py p) = true) l).
    { intros l H. unfold num_b in H. rewrite forallb_forall in H. apply Forall_forall. intros p Hp. apply H, andb_true_iff in Hp. exact Hp. }
    apply (reachable_sweepable ex_eval ex_ctrl ex_monic ex_quad ex_at_y isort isort_spec [OpClosed pss] (po_arena pss)).
    - intros p [H|[]]; discriminate.
    - intros op [<-|[]]; exact I.
    - intros op [<-|[]]. cbn [op_nonnan]. rewrite forallb_forall in N. apply Forall_forall. intros l Hl. apply N, N1 in Hl. eapply Forall_impl; [|exact Hl].
      intros p (A & B). split; apply fin_nonnan; assumption.
    - unfold reachable_ok, po_arena, ex_run in *. destruct (SegmentsSpec.run ex_eval ex_ctrl ex_monic ex_quad ex_at_y isort arena_default [OpClosed pss]) as [[a [|[|] [|]]]|]; try discriminate R. reflexivity.
    - apply N1 in F. rewrite Forall_forall in F. intros s Hs.
      destruct (F (seg_start s)) as (A & B); [apply in_or_app; left; apply in_map, Hs|]. destruct (F (seg_end s)) as (A' & B'); [apply in_or_app; right; apply in_map, Hs|].
      split; [split; assumption|]. split; [split; assumption|]. intros y _. unfold ex_at_y. split; [apply fin_nonnan, A|]. apply fin_nonnan in A. fk. apply Z.eqb_refl. }
  assert (CO : comparer_ok (po_arena pss) (po_cmp po_eps (po_arena pss))) by (apply comparer_b_ok, C).
  split; [|split; [|exact O]].
  - split; [exact SW|exact CO|exact CO| |intros A; apply isort_spec].
    intros t. split; [intros p l; apply scan_pp_boundary|]. split; [intros p l; apply scan_pp_boundary|]. intros p q l l' H. apply scan_pp_mono, H.
  - split.
    + intros y i _ (L & _). pose proof (registered_lt _ SW _ L) as L'. destruct (sp_finite _ SW _ L') as [[F1 _] [F3 _]]. apply fin_nonnan in F1, F3.
      assert (AN : forall y, nan (ex_aty (seg_def (po_arena pss) i) y) = false).
      { intros u. unfold ex_aty. apply clamped_num; [apply (fmin_nonnan _ _ F1 F3) | apply (fmax_nonnan _ _ F1 F3)]. }
      unfold in_band, band_lo, band_hi, po_lo, po_hi, po_aty.
      destruct (fmin_nonnan _ _ (AN (fsub y po_eps)) (AN (fadd y po_eps))) as [A1 _]. destruct (fmin_nonnan _ _ (AN y) A1) as [A2 A3].
      destruct (fmax_nonnan _ _ (AN (fsub y po_eps)) (AN (fadd y po_eps))) as [B1 _]. destruct (fmax_nonnan _ _ (AN y) B1) as [B2 B3].
      pose proof (AN y). split; fk; zb; lia.
    + intros y i p (L & _) _ SP K1 K2. pose proof (registered_lt _ SW _ L) as L'. unfold meet_b in M. rewrite forallb_forall in M.
      specialize (M i ltac:(apply in_seq; lia)). rewrite SP in M. rewrite forallb_forall in M. specialize (M y (zeros_in _ _ K1)). apply andb_true_iff in M. exact M.
Qed.
Lemma po_input pss f n : po_ok pss = true ->
  match po_sweep pss f n with Ok (l, d) => d && forallb (fun s => boxes_b (po_arena pss) po_eps po_lo po_hi (sw_y s) (sw_line s)) l | Err _ => false end = true ->
  exists l, po_sweep pss f n = Ok (l, true) /\
    topo_input (po_tags pss) (po_arena pss) po_eps (po_cmp po_eps (po_arena pss)) (po_cmp po_eps (po_arena pss)) ex_min ex_max po_lo po_hi po_aty ex_pps (@isort) l.
Proof.
  intros P B. destruct (po_sound pss P) as (S1 & S2 & S3). destruct (po_sweep pss f n) as [[l d]|] eqn:E; [|discriminate B]. apply andb_true_iff in B as (-> & B).
  exists l. split; [reflexivity|]. constructor; auto.
  - apply sound_numbers, S2.
  - apply repeat_length.
  - exists f, n. exact E.
  - rewrite forallb_forall in B. intros s Hs. apply boxes_b_ok, B, Hs.
Qed.

(** ** Checking a topology *)
From Verif Require Import ContoursModel ContoursSpec.
Section Check.
Variable t : topo Z.
Fixpoint ring_from (f : nat) (start h : half) : list half :=
  match f with
  | 0 => []
  | S f => h :: match cw t h with Some k => if half_eqb k start then [] else ring_from f start k | None => [] end
  end.
Definition halves : list half := flat_map (fun o => [first_half o; second_half o]) (segment_indices t).
Definition all_rings : list (list half) :=
  map (fun p => match filter (fun h => opt_eqb (TopoSpec.pt t h) (Some p)) halves with [] => [] | h :: _ => ring_from (2 * length (t_wind t)) h h end) (seq 0 (length (t_points t))).
Fixpoint nodup_b (l : list half) : bool := match l with [] => true | h :: l => negb (existsb (half_eqb h) l) && nodup_b l end.
Definition ohalf_eqb (x y : option half) : bool := match x, y with Some h, Some k => half_eqb h k | _, _ => false end.
Definition linked_b (p : half * half) : bool := ohalf_eqb (cw t (fst p)) (Some (snd p)) && ohalf_eqb (ccw t (snd p)) (Some (fst p)).
Definition oz_eqb (x y : option Z) : bool := match x, y with Some h, Some k => Z.eqb h k | _, _ => false end.
Definition wf_b : bool :=
  nodup_b (concat all_rings) && forallb (fun h => match nth_error (t_deleted t) (h_idx h) with Some d => negb d | None => false end) (concat all_rings) &&
  forallb (fun h => existsb (half_eqb h) (concat all_rings)) halves &&
  forallb (fun p => match nth_error all_rings p with Some r => forallb (fun h => opt_eqb (TopoSpec.pt t h) (Some p)) r | None => true end) (seq 0 (length (t_points t))) &&
  forallb (fun r => forallb (fun hk => linked_b hk && oz_eqb (winding_cw t (fst hk)) (winding_ccw t (snd hk))) (cyclic r)) all_rings &&
  (length (t_deleted t) =? length (t_wind t)) && (length (t_west t) =? length (t_wind t)) &&
  forallb (fun o => match nth_error (t_west t) o with Some (Some w) => w <? o | _ => true end) (seq 0 (length (t_west t))).
Lemma ohalf_eqb_ok x y : ohalf_eqb x y = true -> x = y.
Proof. destruct x, y; cbn; try discriminate. intros H. apply TopoProofs.half_eqb_spec in H. congruence. Qed.
Lemma existsb_half h l : existsb (half_eqb h) l = true <-> In h l.
Proof.
  rewrite existsb_exists. split.
  - intros (x & Hx & E). apply TopoProofs.half_eqb_spec in E. subst. exact Hx.
  - intros H. exists h. split; [exact H | apply TopoProofs.half_eqb_refl].
Qed.
Lemma nodup_b_ok l : nodup_b l = true -> NoDup l.
Proof.
  induction l as [|h l IH]; intros H; [constructor|]. cbn in H. apply andb_true_iff in H as (A & B). constructor; [|apply IH, B].
  intros X. apply existsb_half in X. rewrite X in A. discriminate A.
Qed.
Lemma wf_b_ok : wf_b = true -> well_formed t.
Proof.
  unfold wf_b. rewrite !andb_true_iff. intros (((((((A & B) & C) & D) & E) & F) & G) & H). apply Nat.eqb_eq in F, G. rewrite forallb_forall in B, C, D, E, H.
  assert (RI : rings t (present t) all_rings).
  { constructor.
    - unfold all_rings. rewrite map_length, seq_length. reflexivity.
    - apply nodup_b_ok, A.
    - intros h. split.
      + intros X. apply B in X. unfold present. destruct (nth_error (t_deleted t) (h_idx h)) as [[|]|]; try discriminate X. reflexivity.
      + intros X. apply existsb_half, C. unfold halves. apply in_flat_map. exists (h_idx h). split.
        * unfold segment_indices. apply filter_In. unfold present in X. rewrite X. split; [|reflexivity]. apply in_seq. split; [lia|]. rewrite <- F. apply nth_error_Some. congruence.
        * destruct h as [o [|]]; cbn; auto.
    - intros p r h R X. assert (L : p < length (t_points t)). { assert (p < length all_rings) by (apply nth_error_Some; congruence). unfold all_rings in H0. rewrite map_length, seq_length in H0. exact H0. }
      specialize (D p ltac:(apply in_seq; lia)). rewrite R in D. rewrite forallb_forall in D. apply D in X. destruct (TopoSpec.pt t h) as [q|]; [|discriminate X]. cbn in X. apply Nat.eqb_eq in X. congruence.
    - intros p r R. apply nth_error_In in R. specialize (E r R). rewrite forallb_forall in E. apply Forall_forall. intros hk X. apply E, andb_true_iff in X as (X & _).
      unfold linked_b in X. apply andb_true_iff in X as (X & Y). split; apply ohalf_eqb_ok; assumption. }
  constructor; auto.
  - exists all_rings. split; [exact RI|]. intros p r R. apply nth_error_In in R. specialize (E r R). rewrite forallb_forall in E. apply Forall_forall. intros hk X. apply E, andb_true_iff in X as (_ & X).
    unfold oz_eqb in X. destruct (winding_cw t (fst hk)), (winding_ccw t (snd hk)); try discriminate X. apply Z.eqb_eq in X. congruence.
  - intros o w X. specialize (H o). rewrite X in H. apply Nat.ltb_lt, H, in_seq. split; [lia|]. apply nth_error_Some. congruence.
Qed.
End Check.

(** ** A rhombus with a hole in the shape of a bow tie *)
Definition bowtie : list (list point) :=
  [[pt 0 (-8000); pt 8000 0; pt 0 8000; pt (-8000) 0]; [pt (-2000) (-1000); pt 0 0; pt (-2000) 1000]; [pt 2000 (-1000); pt 0 0; pt 2000 1000]].
Lemma bowtie_ok : po_ok bowtie = true.
Proof. vm_compute. reflexivity. Qed.
Lemma bowtie_input : exists l, po_sweep bowtie 100 100 = Ok (l, true) /\
  topo_input (po_tags bowtie) (po_arena bowtie) po_eps (po_cmp po_eps (po_arena bowtie)) (po_cmp po_eps (po_arena bowtie)) ex_min ex_max po_lo po_hi po_aty ex_pps (@isort) l.
Proof. apply po_input; [exact bowtie_ok|]. vm_compute. reflexivity. Qed.
