(** Proofs about solving for heights on cubic curves. *)
From Coq Require Import ZArith Bool Lia Reals Lra Psatz List.
From Flocq Require Import Core BinarySingleNaN.
From Verif Require Import F64 F64Arith CurveOrderProofs TreeVecModel GeomModel SegmentsModel SweepModel PosModel CompareModel CompareArith LineSpec LineProofs LineProofs2 NearArith QuadProofs ExactModel CubicModel CubicSpec CubicProofs CubicProofs2.
Import ListNotations.
Local Open Scope R_scope.

(** Operations whose exact result is a floating-point number. *)
Lemma mul_exact (x y z : f64) : fin x = true -> fin y = true -> B2R x * B2R y = B2R z -> fin (fmul x y) = true /\ B2R (fmul x y) = B2R z.
Proof.
  intros F F' E. assert (G : rnd64 (B2R x * B2R y) = B2R z) by (rewrite E; apply rnd_gen, gen_B2R).
  destruct (fmul_fin x y F F') as (H & V); [rewrite G; apply emax_lt|]. rewrite V, G. auto.
Qed.
Lemma add_exact (x y z : f64) : fin x = true -> fin y = true -> B2R x + B2R y = B2R z -> fin (fadd x y) = true /\ B2R (fadd x y) = B2R z.
Proof.
  intros F F' E. assert (G : rnd64 (B2R x + B2R y) = B2R z) by (rewrite E; apply rnd_gen, gen_B2R).
  destruct (fadd_fin x y F F') as (H & V); [rewrite G; apply emax_lt|]. rewrite V, G. auto.
Qed.
Lemma zero_R : B2R fzero = 0. Proof. reflexivity. Qed.
Lemma unit_zero : in_unit fzero. Proof. split; [reflexivity|]. rewrite zero_R. lra. Qed.
Lemma unit_one : in_unit fone. Proof. split; [reflexivity|]. rewrite one_R. lra. Qed.

Section Curve.
Variable c : cubic.
Variable M : R.
Hypothesis CW : curve_within M c.
Hypothesis MV : usual_size M.
Lemma M_nonneg : 0 <= M. Proof. destruct CW as ((_ & _ & B & _) & _). apply Rle_trans with (2 := B). apply Rabs_pos. Qed.
Lemma M_1000 : M <= bpow radix2 1000. Proof. apply Rle_trans with (1 := proj2 MV). apply bpow_le. lia. Qed.
Lemma tau_M : CubicProofs.tau M <= (1 + / 1000) * u * M.
Proof.
  unfold CubicProofs.tau. assert (K : h <= / 1000 * u * bpow radix2 (-900)). { pose proof u_pos. apply Rle_trans with (bpow radix2 (-10) * u * bpow radix2 (-900)).
    - unfold u, h. rewrite <- !bpow_plus. apply bpow_le. lia.
    - apply Rmult_le_compat_r; [apply bpow_ge_0|]. apply Rmult_le_compat_r; [lra|]. simpl (bpow radix2 (-10)). lra. }
  assert (/ 1000 * u * bpow radix2 (-900) <= / 1000 * u * M). { apply Rmult_le_compat_l; [pose proof u_pos; lra|apply MV]. } lra.
Qed.
Notation tau := (tau M).
Notation coord := (coord M).
Lemma ctrl_x p : within M p -> coord (px p) (B2R (px p)) 1 0.
Proof. intros (F & _ & B & _). apply coord_exact; [exact F|lra|lra]. Qed.
Lemma ctrl_y p : within M p -> coord (py p) (B2R (py p)) 1 0.
Proof. intros (_ & F & _ & B). apply coord_exact; [exact F|lra|lra]. Qed.
Lemma eval_val t : in_unit t -> coord (px (eval_cubic c t)) (cx (real_curve c) (B2R t)) 1 55 /\ coord (py (eval_cubic c t)) (cy (real_curve c) (B2R t)) 1 55.
Proof.
  intros (F & T). destruct CW as (W0 & W1 & W2 & W3). pose proof M_nonneg. pose proof M_1000.
  split; (apply eval3_val; try assumption); first [apply ctrl_x|apply ctrl_y]; assumption.
Qed.

(** At the ends of the parameters the evaluation is exact. *)
Lemma eval3_start p0 p1 p2 p3 t : fin p0 = true -> Rabs (B2R p0) <= M -> fin p1 = true -> Rabs (B2R p1) <= M -> fin p2 = true -> Rabs (B2R p2) <= M -> fin p3 = true -> Rabs (B2R p3) <= M ->
  t = fzero -> fin (eval3 p0 p1 p2 p3 t) = true /\ B2R (eval3 p0 p1 p2 p3 t) = B2R p0.
Proof.
  intros F0 B0 F1 B1 F2 B2 F3 B3 ->. pose proof M_nonneg as M0. pose proof M_1000 as MB. unfold eval3. cbv zeta.
  destruct (par_rest fzero eq_refl ltac:(rewrite zero_R; lra)) as (Fm & _).
  assert (Em : B2R (fsub fone fzero) = 1). { rewrite fsub_fneg. destruct (add_exact fone (fneg fzero) fone eq_refl eq_refl) as (_ & E). { rewrite B2R_fneg, zero_R. ring. } rewrite E. apply one_R. }
  set (mt := fsub fone fzero) in *.
  destruct (mul_exact mt mt mt Fm Fm) as (Fs & Es); [rewrite Em; ring|]. rewrite Em in Es.
  destruct (mul_exact (fmul mt mt) mt mt Fs Fm) as (Fc & Ec); [rewrite Es, Em; ring|]. rewrite Em in Ec.
  destruct (mul_exact p0 (fmul (fmul mt mt) mt) p0 F0 Fc) as (FA & EA); [rewrite Ec; ring|].
  destruct (mul_exact (fmul mt mt) fthree fthree Fs eq_refl) as (Fs3 & Es3); [rewrite Es; ring|]. rewrite three_R in Es3.
  destruct (mul_exact mt fthree fthree Fm eq_refl) as (Fm3 & Em3); [rewrite Em; ring|]. rewrite three_R in Em3.
  assert (G : forall p q, fin p = true -> Rabs (B2R p) <= M -> fin q = true -> B2R q = 3 -> fin (fmul p q) = true /\ B2R (fmul p q) = rnd64 (B2R p * 3) /\ Rabs (rnd64 (B2R p * 3)) < bpow radix2 1024).
  { intros p q Fp Bp Fq Eq. assert (Q : Rabs (rnd64 (B2R p * 3)) < bpow radix2 1024). { apply (big_M M M0 MB). rewrite Rabs_mult, (Rabs_pos_eq 3) by lra. pose proof (tau_pos M M0). lra. }
    destruct (fmul_fin p q Fp Fq) as (F & E); [rewrite Eq; exact Q|]. rewrite Eq in E. auto. }
  destruct (G p1 _ F1 B1 Fs3 Es3) as (Fp1 & Ep1 & _). destruct (G p2 _ F2 B2 Fm3 Em3) as (Fp2 & _).
  destruct (mul_exact p3 fzero fzero F3 eq_refl) as (F30 & E30); [rewrite zero_R; ring|].
  destruct (add_exact (fmul p2 (fmul mt fthree)) (fmul p3 fzero) (fmul p2 (fmul mt fthree)) Fp2 F30) as (Fi & _); [rewrite E30, zero_R; ring|].
  destruct (mul_exact _ fzero fzero Fi eq_refl) as (Fi0 & Ei0); [rewrite zero_R; ring|].
  destruct (add_exact _ _ (fmul p1 (fmul (fmul mt mt) fthree)) Fp1 Fi0) as (Fj & _); [rewrite Ei0, zero_R; ring|].
  destruct (mul_exact _ fzero fzero Fj eq_refl) as (Fj0 & Ej0); [rewrite zero_R; ring|].
  apply (add_exact _ _ p0 FA Fj0). rewrite EA, Ej0, zero_R. ring.
Qed.
Lemma eval3_end p0 p1 p2 p3 t : fin p0 = true -> fin p1 = true -> fin p2 = true -> fin p3 = true ->
  t = fone -> fin (eval3 p0 p1 p2 p3 t) = true /\ B2R (eval3 p0 p1 p2 p3 t) = B2R p3.
Proof.
  intros F0 F1 F2 F3 ->. unfold eval3. cbv zeta.
  destruct (par_rest fone eq_refl ltac:(rewrite one_R; lra)) as (Fm & _).
  assert (Em : B2R (fsub fone fone) = 0). { rewrite fsub_fneg. destruct (add_exact fone (fneg fone) fzero eq_refl eq_refl) as (_ & E). { rewrite B2R_fneg, zero_R. ring. } exact E. }
  set (mt := fsub fone fone) in *.
  destruct (mul_exact mt mt fzero Fm Fm) as (Fs & Es); [rewrite Em, zero_R; ring|]. rewrite zero_R in Es.
  destruct (mul_exact (fmul mt mt) mt fzero Fs Fm) as (Fc & Ec); [rewrite Es, zero_R; ring|]. rewrite zero_R in Ec.
  destruct (mul_exact (fmul mt mt) fthree fzero Fs eq_refl) as (Fs3 & Es3); [rewrite Es, zero_R; ring|]. rewrite zero_R in Es3.
  destruct (mul_exact mt fthree fzero Fm eq_refl) as (Fm3 & Em3); [rewrite Em, zero_R; ring|]. rewrite zero_R in Em3.
  destruct (mul_exact p0 (fmul (fmul mt mt) mt) fzero F0 Fc) as (FA & EA); [rewrite Ec, zero_R; ring|]. rewrite zero_R in EA.
  destruct (mul_exact p1 (fmul (fmul mt mt) fthree) fzero F1 Fs3) as (FB & EB); [rewrite Es3, zero_R; ring|]. rewrite zero_R in EB.
  destruct (mul_exact p2 (fmul mt fthree) fzero F2 Fm3) as (FC & EC); [rewrite Em3, zero_R; ring|]. rewrite zero_R in EC.
  destruct (mul_exact p3 fone p3 F3 eq_refl) as (FD & ED); [rewrite one_R; ring|].
  destruct (add_exact _ _ p3 FC FD) as (FE & EE); [rewrite EC, ED; ring|].
  destruct (mul_exact _ fone p3 FE eq_refl) as (FF & EF); [rewrite EE, one_R; ring|].
  destruct (add_exact _ _ p3 FB FF) as (FG & EG); [rewrite EB, EF; ring|].
  destruct (mul_exact _ fone p3 FG eq_refl) as (FH & EH); [rewrite EG, one_R; ring|].
  apply (add_exact _ _ p3 FA FH). rewrite EA, EH. ring.
Qed.
Lemma eval_start : fin (px (eval_cubic c fzero)) = true /\ B2R (px (eval_cubic c fzero)) = B2R (px (cb0 c)).
Proof. destruct CW as ((A & _ & A' & _) & (B & _ & B' & _) & (C & _ & C' & _) & (D & _ & D' & _)). apply eval3_start; try assumption. reflexivity. Qed.
Lemma eval_end : fin (px (eval_cubic c fone)) = true /\ B2R (px (eval_cubic c fone)) = B2R (px (cb3 c)).
Proof. destruct CW as ((A & _ & A' & _) & (B & _ & B' & _) & (C & _ & C' & _) & (D & _ & D' & _)). apply eval3_end; try assumption. reflexivity. Qed.

(** The polynomial. *)
Variable y : f64.
Hypothesis L0 : fle (py (cb0 c)) y = true.
Hypothesis L1 : fle y (py (cb3 c)) = true.
Hypothesis DOWN : flt (py (cb0 c)) (py (cb3 c)) = true.
Lemma y_fin : fin y = true.
Proof. destruct CW as ((_ & A & _) & _ & _ & (_ & B & _)). apply (fin_mid (py (cb0 c)) y (py (cb3 c))); assumption. Qed.
Lemma y_in : B2R (py (cb0 c)) <= B2R y <= B2R (py (cb3 c)).
Proof. destruct CW as ((_ & A & _) & _ & _ & (_ & B & _)). split; (apply fle_R; [| |assumption]); try assumption; apply y_fin. Qed.
Lemma y_coord : coord y (B2R y) 1 0.
Proof.
  pose proof y_in as I. destruct CW as ((_ & _ & _ & A) & _ & _ & (_ & _ & _ & B)). apply coord_exact; [apply y_fin| |lra]. apply abs_le in A, B. apply abs_le. lra.
Qed.
Ltac pm := first [eassumption|lra].
Lemma coeffs_val : exists k0 k1 k2 k3, height_coeffs c y = (k0, k1, k2, k3) /\
  (forall k, In k [k0; k1; k2; k3] -> fin k = true /\ Rabs (B2R k) <= 16 * M) /\
  (forall t, 0 <= t <= 1 -> Rabs (poly k0 k1 k2 k3 t - (cy (real_curve c) t - B2R y)) <= 100 * tau).
Proof.
  pose proof M_nonneg as M0. pose proof M_1000 as MB. destruct CW as (W0 & W1 & W2 & W3). unfold height_coeffs. do 4 eexists. split; [reflexivity|].
  pose proof (ctrl_y _ W0) as C0. pose proof (ctrl_y _ W1) as C1. pose proof (ctrl_y _ W2) as C2. pose proof (ctrl_y _ W3) as C3. pose proof y_coord as CY. pose proof par_three as P3. pose proof par_two as P2.
  assert (E1 : coord (fmul fthree (fsub (py (cb1 c)) (py (cb0 c)))) (3 * (B2R (py (cb1 c)) - B2R (py (cb0 c)))) 6 (13 + / 5)).
  { assert (S : coord (fsub (py (cb1 c)) (py (cb0 c))) (B2R (py (cb1 c)) - B2R (py (cb0 c))) 2 (2 + / 100)) by (eapply coord_sub; pm). eapply coord_mul_l; pm. }
  assert (E0 : coord (fsub (py (cb0 c)) y) (B2R (py (cb0 c)) - B2R y) 2 (2 + / 100)) by (eapply coord_sub; pm).
  assert (A1 : coord (fmul ftwo (py (cb1 c))) (2 * B2R (py (cb1 c))) 2 (3 + / 5)) by (eapply coord_mul_l; pm).
  assert (A2 : coord (fsub (py (cb2 c)) (fmul ftwo (py (cb1 c)))) (B2R (py (cb2 c)) - 2 * B2R (py (cb1 c))) 3 (7 + / 5)) by (eapply coord_sub; pm).
  assert (A3 : coord (fadd (fsub (py (cb2 c)) (fmul ftwo (py (cb1 c)))) (py (cb0 c))) (B2R (py (cb2 c)) - 2 * B2R (py (cb1 c)) + B2R (py (cb0 c))) 4 (11 + / 2)) by (eapply coord_add; pm).
  assert (E2 : coord (fmul fthree (fadd (fsub (py (cb2 c)) (fmul ftwo (py (cb1 c)))) (py (cb0 c)))) (3 * (B2R (py (cb2 c)) - 2 * B2R (py (cb1 c)) + B2R (py (cb0 c)))) 12 48) by (eapply coord_mul_l; pm).
  assert (D2 : coord (fmul fthree (py (cb2 c))) (3 * B2R (py (cb2 c))) 3 (4 + / 5)) by (eapply coord_mul_l; pm).
  assert (D1 : coord (fmul fthree (py (cb1 c))) (3 * B2R (py (cb1 c))) 3 (4 + / 5)) by (eapply coord_mul_l; pm).
  assert (B1 : coord (fsub (py (cb3 c)) (fmul fthree (py (cb2 c)))) (B2R (py (cb3 c)) - 3 * B2R (py (cb2 c))) 4 9) by (eapply coord_sub; pm).
  assert (B2 : coord (fadd (fsub (py (cb3 c)) (fmul fthree (py (cb2 c)))) (fmul fthree (py (cb1 c)))) (B2R (py (cb3 c)) - 3 * B2R (py (cb2 c)) + 3 * B2R (py (cb1 c))) 7 21) by (eapply coord_add; pm).
  assert (E3 : coord (fsub (fadd (fsub (py (cb3 c)) (fmul fthree (py (cb2 c)))) (fmul fthree (py (cb1 c)))) (py (cb0 c))) (B2R (py (cb3 c)) - 3 * B2R (py (cb2 c)) + 3 * B2R (py (cb1 c)) - B2R (py (cb0 c))) 8 30) by (eapply coord_sub; pm).
  clear - E0 E1 E2 E3 M0 MV CW. pose proof tau_M as TM. pose proof (tau_pos M M0) as (TP & _). split.
  - assert (G : forall k v m e, coord k v m e -> m <= 12 -> e <= 100 -> fin k = true /\ Rabs (B2R k) <= 16 * M).
    { intros k v m e (F & B & E & C & K) Hm He. split; [exact F|]. apply Rle_trans with (1 := abs_near _ _ _ _ B E). assert (m * M <= 12 * M) by (apply Rmult_le_compat_r; lra).
      assert (e * tau <= 100 * tau) by (apply Rmult_le_compat_r; lra). pose proof u_4. pose proof u_pos. assert (u * M <= / 1000 * M) by (apply Rmult_le_compat_r; lra). lra. }
    intros k [<-|[<-|[<-|[<-|[]]]]]; [eapply G; [exact E0|lra..]|eapply G; [exact E1|lra..]|eapply G; [exact E2|lra..]|eapply G; [exact E3|lra..]].
  - intros t T. unfold poly. destruct E0 as (_ & _ & E0 & _), E1 as (_ & _ & E1 & _), E2 as (_ & _ & E2 & _), E3 as (_ & _ & E3 & _).
    set (k0 := fsub (py (cb0 c)) y) in *. set (k1 := fmul fthree (fsub (py (cb1 c)) (py (cb0 c)))) in *. set (k2 := fmul fthree (fadd (fsub (py (cb2 c)) (fmul ftwo (py (cb1 c)))) (py (cb0 c)))) in *.
    set (k3 := fsub (fadd (fsub (py (cb3 c)) (fmul fthree (py (cb2 c)))) (fmul fthree (py (cb1 c)))) (py (cb0 c))) in *. unfold cy, bern3. cbn [real_curve real_point q0 q1 q2 q3 ry].
    set (y0 := B2R (py (cb0 c))) in *. set (y1 := B2R (py (cb1 c))) in *. set (y2 := B2R (py (cb2 c))) in *. set (y3 := B2R (py (cb3 c))) in *. set (Y := B2R y) in *.
    match goal with |- Rabs ?e <= _ => replace e with ((B2R k0 - (y0 - Y)) + (B2R k1 - 3 * (y1 - y0)) * t + (B2R k2 - 3 * (y2 - 2 * y1 + y0)) * (t * t) + (B2R k3 - (y3 - 3 * y2 + 3 * y1 - y0)) * (t * t * t)) by ring end.
    assert (T1 : Rabs t <= 1) by (apply abs_le; lra). assert (T2 : Rabs (t * t) <= 1 * 1) by (apply abs_mul; assumption). assert (T3 : Rabs (t * t * t) <= 1 * 1 * 1) by (apply abs_mul; assumption).
    pose proof (abs_mul _ _ _ _ E1 T1) as G1. pose proof (abs_mul _ _ _ _ E2 T2) as G2. pose proof (abs_mul _ _ _ _ E3 T3) as G3.
    eapply Rle_trans; [exact (abs_add _ _ _ _ (abs_add _ _ _ _ (abs_add _ _ _ _ E0 G1) G2) G3)|]. lra.
Qed.

(** Solving. *)
Variable roots_between : f64 -> f64 -> f64 -> f64 -> f64 -> list f64.
Variable poly_eval : f64 -> f64 -> f64 -> f64 -> f64 -> f64.
Notation solve_t := (solve_t roots_between poly_eval).
Hypothesis LI : looks_inside roots_between.
Lemma solve_cases : exists t, solve_t false c y = Ok t /\ in_unit t /\ (forall dbg, solve_t dbg c y = Ok t \/ dbg = true /\ solve_t dbg c y = Err EAssert) /\
  (feq y (py (cb0 c)) = true -> t = fzero) /\ (feq y (py (cb3 c)) = true -> t = fone) /\
  (t = fzero /\ feq y (py (cb0 c)) = true \/ t = fone /\ feq y (py (cb3 c)) = true \/
   exists k0 k1 k2 k3, height_coeffs c y = (k0, k1, k2, k3) /\
    (In t (roots_between k0 k1 k2 k3 (root_eps k0 k1 k2 k3)) \/
     roots_between k0 k1 k2 k3 (root_eps k0 k1 k2 k3) = [] /\ t = if fle (fabs (fsub y (py (cb0 c)))) (fabs (fsub y (py (cb3 c)))) then fzero else fone)).
Proof.
  destruct coeffs_val as (k0 & k1 & k2 & k3 & E & F & _). unfold CubicModel.solve_t. rewrite L0, L1, DOWN. cbn [andb negb].
  assert (X : feq y (py (cb3 c)) = true -> feq y (py (cb0 c)) = false).
  { intros H. destruct CW as ((_ & A & _) & _ & _ & (_ & B & _)). destruct (feq y (py (cb0 c))) eqn:K; [|reflexivity]. pose proof y_fin as FY.
    apply feq_R in H; [|assumption..]. apply feq_R in K; [|assumption..]. apply flt_R in DOWN; [|assumption..]. lra. }
  destruct (feq y (py (cb0 c))) eqn:Y0.
  { exists fzero. split; [reflexivity|]. split; [exact unit_zero|]. split; [intros dbg; left; rewrite andb_false_r; reflexivity|]. split; [reflexivity|]. split; [|auto].
    intros H. specialize (X H). discriminate. }
  destruct (feq y (py (cb3 c))) eqn:Y3.
  { exists fone. split; [reflexivity|]. split; [exact unit_one|]. split; [intros dbg; left; rewrite andb_false_r; reflexivity|]. split; [discriminate|]. split; [reflexivity|]. auto. }
  rewrite E. destruct (roots_between k0 k1 k2 k3 (root_eps k0 k1 k2 k3)) as [|t l] eqn:R.
  - exists (if fle (fabs (fsub y (py (cb0 c)))) (fabs (fsub y (py (cb3 c)))) then fzero else fone).
    split; [reflexivity|]. split; [match goal with |- context [if ?b then _ else _] => destruct b end; [exact unit_zero|exact unit_one]|]. split.
    { intros dbg. rewrite andb_false_r. destruct dbg; [|left; reflexivity]. cbn [andb]. destruct (feq (fsignum _) _); cbn [negb]; [left; reflexivity|right; split; reflexivity]. }
    split; [discriminate|]. split; [discriminate|]. right. right. exists k0, k1, k2, k3. split; [reflexivity|]. right. split; [exact R|reflexivity].
  - exists t. split; [reflexivity|]. split.
    { apply (LI k0 k1 k2 k3 (root_eps k0 k1 k2 k3)); [apply F; cbn; auto..|]. rewrite R. left. reflexivity. }
    split; [intros dbg; rewrite andb_false_r; left; reflexivity|]. split; [discriminate|]. split; [discriminate|]. right. right. exists k0, k1, k2, k3. split; [reflexivity|]. left. rewrite R. left. reflexivity.
Qed.
Lemma fabs_R x : fin x = true -> fin (fabs x) = true /\ B2R (fabs x) = Rabs (B2R x).
Proof. intros F. split; [destruct x; exact F|]. apply B2R_Babs. Qed.
Lemma dist_R p : within M p -> fin (fabs (fsub y (py p))) = true /\ Rabs (B2R (fabs (fsub y (py p))) - Rabs (B2R y - B2R (py p))) <= (2 + / 100) * tau.
Proof.
  intros W. pose proof M_nonneg as M0. pose proof M_1000 as MB. pose proof (ctrl_y _ W) as C. pose proof y_coord as CY.
  assert (S : coord (fsub y (py p)) (B2R y - B2R (py p)) 2 (2 + / 100)) by (eapply coord_sub; pm). destruct S as (F & _ & E & _).
  destruct (fabs_R _ F) as (F' & E'). split; [exact F'|]. rewrite E'. apply Rle_trans with (2 := E). apply Rabs_triang_inv2.
Qed.
Lemma solve_height acc t : finds_crossings roots_between M acc -> 0 <= acc -> solve_t false c y = Ok t -> Rabs (cy (real_curve c) (B2R t) - B2R y) <= acc + 105 * tau.
Proof.
  intros FC AP ST. destruct solve_cases as (t' & E & U & _ & _ & _ & CS). rewrite ST in E. injection E as <-. pose proof (proj1 (tau_pos M M_nonneg)) as TP. pose proof y_in as YI.
  assert (CZ : cy (real_curve c) 0 = B2R (py (cb0 c))). { unfold cy, bern3. cbn [real_curve real_point q0 q1 q2 q3 ry]. ring. }
  assert (CO : cy (real_curve c) 1 = B2R (py (cb3 c))). { unfold cy, bern3. cbn [real_curve real_point q0 q1 q2 q3 ry]. ring. }
  destruct CW as (W0 & _ & _ & W3). assert (F0 : fin (py (cb0 c)) = true) by apply W0. assert (F3 : fin (py (cb3 c)) = true) by apply W3. pose proof y_fin as FY.
  destruct CS as [(-> & H)|[(-> & H)|(k0 & k1 & k2 & k3 & HC & CS)]].
  - apply feq_R in H; [|assumption..]. rewrite zero_R, CZ, H, Rminus_diag_eq, Rabs_R0 by reflexivity. lra.
  - apply feq_R in H; [|assumption..]. rewrite one_R, CO, H, Rminus_diag_eq, Rabs_R0 by reflexivity. lra.
  - destruct coeffs_val as (k0' & k1' & k2' & k3' & E & B & P). rewrite HC in E. injection E as <- <- <- <-. destruct (FC k0 k1 k2 k3 (root_eps k0 k1 k2 k3) B) as (FR & FX).
    destruct CS as [IN|(NR & ->)].
    + apply FR in IN. specialize (P (B2R t) (proj2 U)). apply abs_le in IN, P. apply abs_le. lra.
    + assert (D : B2R y - B2R (py (cb0 c)) <= acc + 100 * tau \/ B2R (py (cb3 c)) - B2R y <= acc + 100 * tau).
      { pose proof (P 0 ltac:(lra)) as P0. pose proof (P 1 ltac:(lra)) as P1. rewrite CZ in P0. rewrite CO in P1. apply abs_le in P0, P1.
        destruct (Rlt_or_le (poly k0 k1 k2 k3 0) (- acc)) as [Q0|Q0]; [|left; lra]. destruct (Rlt_or_le acc (poly k0 k1 k2 k3 1)) as [Q1|Q1]; [|right; lra]. exfalso. exact (FX Q0 Q1 NR). }
      destruct (dist_R _ W0) as (G0 & D0). destruct (dist_R _ W3) as (G3 & D3). rewrite (Rabs_pos_eq (B2R y - _)) in D0 by lra. rewrite (Rabs_left1 (B2R y - _)) in D3 by lra. apply abs_le in D0, D3.
      destruct (fle (fabs (fsub y (py (cb0 c)))) (fabs (fsub y (py (cb3 c))))) eqn:L.
      * apply fle_R in L; [|assumption..]. rewrite zero_R, CZ. apply abs_le. destruct D; lra.
      * assert (L' : B2R (fabs (fsub y (py (cb3 c)))) <= B2R (fabs (fsub y (py (cb0 c))))). { destruct (Rle_or_lt (B2R (fabs (fsub y (py (cb3 c))))) (B2R (fabs (fsub y (py (cb0 c)))))) as [Q|Q]; [exact Q|]. apply Rlt_le, fle_R in Q; [congruence|assumption..]. }
        rewrite one_R, CO. apply abs_le. destruct D; lra.
Qed.
End Curve.
