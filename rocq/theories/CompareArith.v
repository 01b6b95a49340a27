(** Floating point facts about comparing curves: heights far from overflow, halving, centering and scaling. *)
From Coq Require Import ZArith Bool Lia Reals Lra.
From Flocq Require Import Core BinarySingleNaN Plus_error.
From Verif Require Import F64 F64Arith PosProofs2 PosModel CompareModel CompareSpec.
Local Open Scope R_scope.

#[local] Instance vexp : Valid_exp fexp64 := fexp_correct 53 1024 _.
#[local] Instance mexp : Monotone_exp fexp64 := fexp_monotone 53 1024.

Lemma rnd_gen x : generic_format radix2 fexp64 x -> rnd64 x = x.
Proof. intro G. apply round_generic; [typeclasses eauto|exact G]. Qed.
Lemma rnd_le x y : x <= y -> rnd64 x <= rnd64 y.
Proof. intro H. apply round_le; [typeclasses eauto..|exact H]. Qed.
Lemma gen_B2R (x : f64) : generic_format radix2 fexp64 (B2R x).
Proof. apply generic_format_B2R. Qed.

Lemma fadd_fin (x y : f64) : fin x = true -> fin y = true -> Rabs (rnd64 (B2R x + B2R y)) < bpow radix2 1024 ->
  fin (fadd x y) = true /\ B2R (fadd x y) = rnd64 (B2R x + B2R y).
Proof.
  intros Fx Fy H. pose proof (Bplus_correct 53 1024 _ _ mode_NE x y Fx Fy) as P. fold (fadd x y) in P.
  rewrite Rlt_bool_true in P by exact H. destruct P as (R & F & _). split; assumption.
Qed.
Lemma fadd_R (x y : f64) : fin x = true -> fin y = true -> fin (fadd x y) = true -> B2R (fadd x y) = rnd64 (B2R x + B2R y) /\ Rabs (rnd64 (B2R x + B2R y)) < bpow radix2 1024.
Proof.
  intros Fx Fy Fs. pose proof (Bplus_correct 53 1024 _ _ mode_NE x y Fx Fy) as P. fold (fadd x y) in P. destruct (Rlt_bool _ _) eqn:E.
  - split; [apply P|]. revert E. case Rlt_bool_spec; [auto|discriminate].
  - destruct P as (HS & _). destruct (fadd x y); try discriminate; destruct (Bsign x); discriminate.
Qed.
Lemma fadd_nonnan (x y : f64) : nan x = false -> fin y = true -> nan (fadd x y) = false.
Proof.
  intros Nx Fy. destruct (fin x) eqn:Fx.
  - pose proof (Bplus_correct 53 1024 _ _ mode_NE x y Fx Fy) as P. fold (fadd x y) in P. destruct (Rlt_bool _ _).
    + apply fin_nonnan, P.
    + destruct P as (HS & _). destruct (fadd x y); try reflexivity; destruct (Bsign x); discriminate.
  - destruct x as [|s| |], y as [|t| |]; try discriminate; reflexivity.
Qed.
Lemma fmul_nonnan (x y : f64) : fin x = true -> fin y = true -> nan (fmul x y) = false.
Proof.
  intros Fx Fy. pose proof (Bmult_correct 53 1024 _ _ mode_NE x y) as P. fold (fmul x y) in P. destruct (Rlt_bool _ _).
  - apply fin_nonnan. destruct P as (_ & F & _). change (is_finite (fmul x y) = true). rewrite F. unfold fin in *. rewrite Fx, Fy. reflexivity.
  - destruct (fmul x y); try reflexivity; destruct (xorb (Bsign x) (Bsign y)); discriminate.
Qed.
Lemma fmul_fin (x y : f64) : fin x = true -> fin y = true -> Rabs (rnd64 (B2R x * B2R y)) < bpow radix2 1024 ->
  fin (fmul x y) = true /\ B2R (fmul x y) = rnd64 (B2R x * B2R y).
Proof.
  intros Fx Fy H. pose proof (Bmult_correct 53 1024 _ _ mode_NE x y) as P. fold (fmul x y) in P.
  rewrite Rlt_bool_true in P by exact H. destruct P as (R & F & _). split; [|exact R]. unfold fin in *. rewrite F, Fx, Fy. reflexivity.
Qed.
Lemma fdiv_fin (x y : f64) : fin x = true -> B2R y <> 0 -> Rabs (rnd64 (B2R x / B2R y)) < bpow radix2 1024 ->
  fin (fdiv x y) = true /\ B2R (fdiv x y) = rnd64 (B2R x / B2R y).
Proof.
  intros Fx Ny H. pose proof (Bdiv_correct 53 1024 _ _ mode_NE x y Ny) as P. fold (fdiv x y) in P.
  rewrite Rlt_bool_true in P by exact H. destruct P as (R & F & _). split; [|exact R]. unfold fin in *. rewrite F, Fx. reflexivity.
Qed.
Lemma fin_fneg x : fin (fneg x) = fin x.
Proof. destruct x; reflexivity. Qed.
Lemma B2R_fneg x : B2R (fneg x) = - B2R x.
Proof. apply B2R_Bopp. Qed.
Lemma emax_lt (x : f64) : Rabs (B2R x) < bpow radix2 1024.
Proof. apply abs_B2R_lt_emax. Qed.

(** ** Heights whose double does not overflow *)
Lemma tame_fin y : tame y -> fin y = true.
Proof. unfold tame. destruct y as [s|[]| |]; intro H; solve [reflexivity|discriminate H]. Qed.
Lemma tame_R y : tame y -> Rabs (2 * B2R y) < bpow radix2 1024.
Proof.
  intro T. pose proof (tame_fin _ T) as F. destruct (fadd_R y y F F T) as (_ & B). replace (B2R y + B2R y) with (2 * B2R y) in B by lra.
  rewrite rnd_gen in B by (apply generic_double, F). exact B.
Qed.
Lemma R_tame y : fin y = true -> Rabs (2 * B2R y) < bpow radix2 1024 -> tame y.
Proof.
  intros F B. apply fadd_fin; [exact F..|]. replace (B2R y + B2R y) with (2 * B2R y) by lra. rewrite rnd_gen by (apply generic_double, F). exact B.
Qed.
Lemma tame_neg y : tame y -> tame (fneg y).
Proof.
  intro T. apply R_tame; [rewrite fin_fneg; apply tame_fin, T|]. rewrite B2R_fneg. replace (2 * - B2R y) with (- (2 * B2R y)) by lra. rewrite Rabs_Ropp. apply tame_R, T.
Qed.
Lemma fin_between' (a b y : f64) : fin a = true -> fin b = true -> nan y = false -> (key a <= key y <= key b)%Z -> fin y = true.
Proof.
  intros Fa Fb Ny [H1 H2]. destruct y as [s|[]| |s m e B]; try reflexivity; try discriminate.
  - exfalso. destruct a as [s|s| |s m e B]; try discriminate; [destruct s; vm_compute in H1; congruence|].
    pose proof (key_finite_bound m e B). unfold key at 2 in H1. unfold key in H1. destruct s; lia.
  - exfalso. destruct b as [s|s| |s m e B]; try discriminate; [destruct s; vm_compute in H2; congruence|].
    pose proof (key_finite_bound m e B). unfold key in H2. destruct s; lia.
Qed.
Lemma tame_between a b y : tame a -> tame b -> nan y = false -> (key a <= key y <= key b)%Z -> tame y.
Proof.
  intros Ta Tb Ny [H1 H2]. pose proof (tame_fin _ Ta) as Fa. pose proof (tame_fin _ Tb) as Fb. pose proof (fin_between' a b y Fa Fb Ny (conj H1 H2)) as Fy.
  apply R_tame; [exact Fy|]. apply key_le_R in H1; [|assumption..]. apply key_le_R in H2; [|assumption..]. pose proof (tame_R _ Ta) as A. pose proof (tame_R _ Tb) as B.
  apply Rabs_def2 in A, B. apply Rabs_def1; lra.
Qed.
Lemma tame_add a b : tame a -> tame b -> fin (fadd a b) = true.
Proof.
  intros Ta Tb. pose proof (tame_fin _ Ta) as Fa. pose proof (tame_fin _ Tb) as Fb. apply fadd_fin; [assumption..|].
  pose proof (tame_R _ Ta) as A. pose proof (tame_R _ Tb) as B. apply Rabs_def2 in A, B.
  destruct (Rle_or_lt (B2R a) (B2R b)) as [L|L].
  - pose proof (rnd_le (2 * B2R a) (B2R a + B2R b) ltac:(lra)) as X. pose proof (rnd_le (B2R a + B2R b) (2 * B2R b) ltac:(lra)) as Y.
    rewrite rnd_gen in X by (apply generic_double, Fa). rewrite (rnd_gen (2 * B2R b)) in Y by (apply generic_double, Fb). apply Rabs_def1; lra.
  - pose proof (rnd_le (2 * B2R b) (B2R a + B2R b) ltac:(lra)) as X. pose proof (rnd_le (B2R a + B2R b) (2 * B2R a) ltac:(lra)) as Y.
    rewrite rnd_gen in X by (apply generic_double, Fb). rewrite (rnd_gen (2 * B2R a)) in Y by (apply generic_double, Fa). apply Rabs_def1; lra.
Qed.
Lemma tame_sub a b : tame a -> tame b -> fin (fsub a b) = true /\ B2R (fsub a b) = rnd64 (B2R a - B2R b).
Proof.
  intros Ta Tb. rewrite fsub_fneg. pose proof (tame_add _ _ Ta (tame_neg _ Tb)) as F. split; [exact F|].
  destruct (fadd_R a (fneg b) (tame_fin _ Ta) (tame_fin _ (tame_neg _ Tb)) F) as (E & _). rewrite E, B2R_fneg. reflexivity.
Qed.
Lemma tame_mid a b : tame a -> tame b -> (key a <= key b)%Z -> tame (fmid a b) /\ (key a <= key (fmid a b) <= key b)%Z.
Proof.
  intros Ta Tb L. destruct (fmid_between a b (tame_fin _ Ta) (tame_fin _ Tb) L (tame_add _ _ Ta Tb)) as (F & L1 & L2).
  split; [|split; assumption]. apply (tame_between a b); [assumption..|apply fin_nonnan, F|split; assumption].
Qed.

(** ** Halving *)
Lemma one_R : B2R fone = 1.
Proof.
  unfold fone. assert (fin (f64_of_Z 1) = true) as F by reflexivity. rewrite B2R_key by exact F.
  replace (key (f64_of_Z 1)) with (2 ^ 1074)%Z by (vm_compute; reflexivity). rewrite (IZR_Zpower radix2) by lia. rewrite <- bpow_plus. reflexivity.
Qed.
Lemma half_R : B2R fhalf = / 2.
Proof.
  assert (fin fhalf = true) as F by reflexivity. rewrite B2R_key by exact F.
  replace (key fhalf) with (2 ^ 1073)%Z by (vm_compute; reflexivity). rewrite (IZR_Zpower radix2) by lia. rewrite <- bpow_plus. simpl. lra.
Qed.
Lemma shrink_lt (x : f64) (y : R) : Rabs y <= Rabs (B2R x) -> Rabs (rnd64 y) < bpow radix2 1024.
Proof.
  intro H. apply Rle_lt_trans with (Rabs (B2R x)); [|apply emax_lt]. apply abs_round_le_generic; [typeclasses eauto..| |exact H]. apply generic_format_abs, gen_B2R.
Qed.
Lemma fhalf_mul (x : f64) : fin x = true -> fin (fmul fhalf x) = true /\ B2R (fmul fhalf x) = rnd64 (B2R x / 2).
Proof.
  intro F. destruct (fmul_fin fhalf x) as (F' & E); [reflexivity|exact F| |].
  - rewrite half_R. apply (shrink_lt x). rewrite Rabs_mult, (Rabs_pos_eq (/2)) by lra. pose proof (Rabs_pos (B2R x)). lra.
  - split; [exact F'|]. rewrite E, half_R. f_equal. lra.
Qed.
Lemma fin_keys (x y : f64) : fin x = true -> fin y = true -> B2R x = B2R y -> key x = key y.
Proof. intros Fx Fy E. apply Z.le_antisymm; (apply key_le_R; [assumption..|lra]). Qed.
(** Rust's [0.5 * (a + b)] and [(a + b) / 2.0] are the same height. *)
Lemma half_mid (a b : f64) : fin (fadd a b) = true -> fin (fmul fhalf (fadd a b)) = true /\ key (fmul fhalf (fadd a b)) = key (fmid a b).
Proof.
  intro F. destruct (fhalf_mul _ F) as (F1 & E1). split; [exact F1|].
  destruct (fdiv_fin (fadd a b) ftwo F) as (F2 & E2).
  - rewrite ftwo_R. lra.
  - rewrite ftwo_R. apply (shrink_lt (fadd a b)). unfold Rdiv. rewrite Rabs_mult, (Rabs_pos_eq (/2)) by lra. pose proof (Rabs_pos (B2R (fadd a b))). lra.
  - apply fin_keys; [exact F1|exact F2|]. rewrite E1. unfold fmid. rewrite E2, ftwo_R. reflexivity.
Qed.

(** ** Lengths of intervals *)
Lemma flt_R (x y : f64) : fin x = true -> fin y = true -> flt x y = true <-> B2R x < B2R y.
Proof.
  intros Fx Fy. rewrite flt_key by (apply fin_nonnan; assumption). rewrite Z.ltb_lt. pose proof (key_le_R y x Fy Fx) as K. split; intro H.
  - apply Rnot_le_lt. intro X. apply K in X. lia.
  - apply Z.nle_gt. intro X. apply K in X. lra.
Qed.
Lemma flt_R_false (x y : f64) : fin x = true -> fin y = true -> flt x y = false <-> B2R y <= B2R x.
Proof.
  intros Fx Fy. pose proof (flt_R x y Fx Fy) as K. destruct (flt x y); split; intro H; try discriminate; try reflexivity.
  - exfalso. apply (Rlt_not_le (B2R y) (B2R x)); [apply K; reflexivity|exact H].
  - apply Rnot_lt_le. intro X. apply K in X. discriminate.
Qed.
Lemma shorter y0 y1 s e : tame y0 -> tame y1 -> tame s -> tame e -> (key y0 <= key s)%Z -> (key s <= key e)%Z -> (key e <= key y1)%Z ->
  flt (fsub e s) (fmul fhalf (fsub y1 y0)) = true -> (key e - key s < key y1 - key y0)%Z.
Proof.
  intros T0 T1 Ts Te L1 L2 L3 H. destruct (Z.eq_dec (key s) (key y0)) as [E1|]; [|lia]. destruct (Z.eq_dec (key e) (key y1)) as [E2|]; [|lia]. exfalso.
  assert (R1 : B2R s = B2R y0) by (rewrite !B2R_key by (apply tame_fin; assumption); rewrite E1; reflexivity).
  assert (R2 : B2R e = B2R y1) by (rewrite !B2R_key by (apply tame_fin; assumption); rewrite E2; reflexivity).
  destruct (tame_sub e s Te Ts) as (F1 & D1). destruct (tame_sub y1 y0 T1 T0) as (F2 & D2). destruct (fhalf_mul _ F2) as (F3 & D3).
  apply flt_R in H; [|assumption..]. rewrite R1, R2 in D1. rewrite D1 in H. rewrite D3, D2 in H.
  assert (0 <= B2R y1 - B2R y0). { pose proof (proj1 (key_le_R y0 y1 (tame_fin _ T0) (tame_fin _ T1)) ltac:(lia)). lra. }
  assert (P : 0 <= rnd64 (B2R y1 - B2R y0)). { rewrite <- (rnd_gen 0) by apply generic_format_0. apply rnd_le; assumption. }
  assert (rnd64 (rnd64 (B2R y1 - B2R y0) / 2) <= rnd64 (B2R y1 - B2R y0)); [|lra].
  rewrite <- (rnd_gen (rnd64 (B2R y1 - B2R y0))) at 2 by (apply generic_format_round; typeclasses eauto). apply rnd_le. lra.
Qed.
Lemma not_shorter acc y0 y1 s e : fin acc = true -> tame y0 -> tame y1 -> tame s -> tame e ->
  flt (fsub y1 y0) acc = false -> flt (fsub e s) (fmul fhalf (fsub y1 y0)) = false -> fle (fmul fhalf acc) (fsub e s) = true.
Proof.
  intros Fa T0 T1 Ts Te H1 H2. destruct (tame_sub e s Te Ts) as (F1 & D1). destruct (tame_sub y1 y0 T1 T0) as (F2 & D2). destruct (fhalf_mul _ F2) as (F3 & D3). destruct (fhalf_mul _ Fa) as (F4 & D4).
  apply flt_R_false in H1; [|assumption..]. apply flt_R_false in H2; [|assumption..].
  rewrite fle_key by (apply fin_nonnan; assumption). apply Z.leb_le. apply key_le_R; [assumption..|]. rewrite D4. apply Rle_trans with (2 := H2). rewrite D3. apply rnd_le. lra.
Qed.

(** ** Monotonicity, also when overflowing *)
Definition rounds (r : f64) (v : R) : Prop :=
  (fin r = true /\ B2R r = rnd64 v) \/ (r = B754_infinity false /\ bpow radix2 1024 <= rnd64 v) \/ (r = B754_infinity true /\ rnd64 v <= - bpow radix2 1024).
Lemma rounds_nonnan r v : rounds r v -> nan r = false.
Proof. intros [(F & _)|[(-> & _)|(-> & _)]]; [apply fin_nonnan, F|reflexivity..]. Qed.
Lemma rounds_mono r v r' v' : rounds r v -> rounds r' v' -> v <= v' -> (key r <= key r')%Z.
Proof.
  intros H H' L. pose proof (rnd_le _ _ L) as RL. pose proof (bpow_gt_0 radix2 1024) as P. pose proof (key_inf_ge r (rounds_nonnan _ _ H)) as K. pose proof (key_inf_ge r' (rounds_nonnan _ _ H')) as K'.
  destruct H as [(F & E)|[(-> & E)|(-> & E)]], H' as [(F' & E')|[(-> & E')|(-> & E')]].
  - apply key_le_R; [assumption..|lra].
  - apply K.
  - exfalso. pose proof (emax_lt r) as A. apply Rabs_def2 in A. lra.
  - exfalso. pose proof (emax_lt r') as A. apply Rabs_def2 in A. lra.
  - lia.
  - exfalso. lra.
  - apply K'.
  - apply K'.
  - lia.
Qed.
Lemma sign_le (x : f64) : fin x = true -> if Bsign x then B2R x <= 0 else 0 <= B2R x.
Proof.
  intro F. destruct x as [[]|[]| |s m e B]; try discriminate; try (simpl; lra). cbn [Bsign]. unfold B2R. destruct s; [apply F2R_le_0|apply F2R_ge_0]; cbn; lia.
Qed.
Lemma over_pos v : 0 <= v -> bpow radix2 1024 <= Rabs (rnd64 v) -> bpow radix2 1024 <= rnd64 v.
Proof. intros P H. rewrite Rabs_pos_eq in H; [exact H|]. rewrite <- (rnd_gen 0) by apply generic_format_0. apply rnd_le, P. Qed.
Lemma over_neg v : v <= 0 -> bpow radix2 1024 <= Rabs (rnd64 v) -> rnd64 v <= - bpow radix2 1024.
Proof. intros P H. rewrite Rabs_left1 in H; [lra|]. rewrite <- (rnd_gen 0) by apply generic_format_0. apply rnd_le, P. Qed.
Lemma fmul_rounds (x u : f64) : fin x = true -> fin u = true -> 0 <= B2R u -> Bsign u = false -> rounds (fmul x u) (B2R x * B2R u).
Proof.
  intros Fx Fu Pu Su. pose proof (Bmult_correct 53 1024 _ _ mode_NE x u) as P. fold (fmul x u) in P. pose proof (sign_le x Fx) as Sx. revert P. case Rlt_bool_spec; intros Q P.
  - left. destruct P as (P & F & _). split; [|exact P]. unfold fin in *. rewrite F, Fx, Fu. reflexivity.
  - right. rewrite Su in P. destruct (Bsign x) eqn:S; cbn [xorb] in P; unfold binary_overflow in P; cbn in P.
    + right. split; [destruct (fmul x u) as [?|t| |]; try discriminate; injection P as ->; reflexivity|]. apply over_neg; [|exact Q]. rewrite Rmult_comm. rewrite <- (Rmult_0_r (B2R u)). apply Rmult_le_compat_l; assumption.
    + left. split; [destruct (fmul x u) as [?|t| |]; try discriminate; injection P as ->; reflexivity|]. apply over_pos; [|exact Q]. apply Rmult_le_pos; assumption.
Qed.
Lemma fadd_rounds (x m : f64) : fin x = true -> fin m = true -> rounds (fadd x m) (B2R x + B2R m).
Proof.
  intros Fx Fm. pose proof (Bplus_correct 53 1024 _ _ mode_NE x m Fx Fm) as P. fold (fadd x m) in P. pose proof (sign_le x Fx) as Sx. pose proof (sign_le m Fm) as Sm. revert P. case Rlt_bool_spec; intros Q P.
  - left. destruct P as (P & F & _). split; [exact F|exact P].
  - right. destruct P as (P & S). rewrite <- S in Sm. destruct (Bsign x); unfold binary_overflow in P; cbn in P.
    + right. split; [destruct (fadd x m) as [?|t| |]; try discriminate; injection P as ->; reflexivity|]. apply over_neg; [lra|exact Q].
    + left. split; [destruct (fadd x m) as [?|t| |]; try discriminate; injection P as ->; reflexivity|]. apply over_pos; [lra|exact Q].
Qed.
Lemma fadd_mono (x x' m : f64) : nan x = false -> nan x' = false -> fin m = true -> (key x <= key x')%Z -> (key (fadd x m) <= key (fadd x' m))%Z.
Proof.
  intros N N' Fm L. destruct (fin x) eqn:F, (fin x') eqn:F'.
  - eapply rounds_mono; [apply fadd_rounds; assumption..|]. apply key_le_R in L; [|assumption..]. lra.
  - destruct x' as [|[]| |]; try discriminate.
    + exfalso. assert (T : fin (B754_infinity true) = true); [|discriminate T]. apply (fin_between' x x); [assumption..|reflexivity|]. pose proof (key_inf_ge x N) as K. change (key (B754_infinity true)) with (- key_inf)%Z in *. lia.
    + pose proof (key_inf_ge _ (fadd_nonnan x m N Fm)) as K. destruct m as [|[]| |]; try discriminate; apply K.
  - destruct x as [|[]| |]; try discriminate.
    + pose proof (key_inf_ge _ (fadd_nonnan x' m N' Fm)) as K. destruct m as [|[]| |]; try discriminate; apply K.
    + exfalso. assert (T : fin (B754_infinity false) = true); [|discriminate T]. apply (fin_between' x' x'); [assumption..|reflexivity|]. pose proof (key_inf_ge x' N') as K. change (key (B754_infinity false)) with key_inf in *. lia.
  - destruct x as [|s| |]; try discriminate. destruct x' as [|s'| |]; try discriminate. destruct m as [|t| |]; try discriminate; exact L.
Qed.
Lemma fmul_mono (x x' u : f64) : fin x = true -> fin x' = true -> fin u = true -> 0 <= B2R u -> Bsign u = false -> (key x <= key x')%Z -> (key (fmul x u) <= key (fmul x' u))%Z.
Proof.
  intros F F' Fu Pu Su L. eapply rounds_mono; [apply fmul_rounds; assumption..|]. apply key_le_R in L; [|assumption..]. apply Rmult_le_compat_r; assumption.
Qed.
Lemma sign_pos (u : f64) : 0 < B2R u -> Bsign u = false.
Proof.
  destruct u as [[]|[]| |s m e B]; intro H; try reflexivity; try (simpl in H; lra). destruct s; [|reflexivity]. exfalso. unfold B2R in H. assert (F2R (Float radix2 (cond_Zopp true (Zpos m)) e) <= 0); [apply F2R_le_0; cbn; lia|]. lra.
Qed.

Definition positive (u : f64) : Prop := 0 < B2R u.
Lemma fmul_mono_pos (x x' u : f64) : fin x = true -> fin x' = true -> fin u = true -> positive u -> (key x <= key x')%Z -> (key (fmul x u) <= key (fmul x' u))%Z.
Proof. intros F F' Fu P L. apply fmul_mono; try assumption; [apply Rlt_le, P|apply sign_pos, P]. Qed.

(** ** Centering and scaling *)
Lemma generic_one : generic_format radix2 fexp64 1.
Proof. rewrite <- one_R. apply gen_B2R. Qed.
Lemma generic_pow e : (-1074 <= e)%Z -> (e < 1024)%Z -> generic_format radix2 fexp64 (bpow radix2 e).
Proof. intros H1 H2. apply generic_format_bpow. unfold SpecFloat.fexp, SpecFloat.emin. lia. Qed.

Section Scale.
Variables y0 y1 : f64.
Hypothesis T0 : tame y0.
Hypothesis T1 : tame y1.
Hypothesis L : (key y0 < key y1)%Z.
Let m := fdiv (fadd y0 y1) ftwo.
Let u := fmax (fsub y1 y0) fone.
Let k := fdiv fone u.

Lemma mid_tame : tame m /\ (key y0 <= key m <= key y1)%Z.
Proof. apply tame_mid; [assumption..|lia]. Qed.
Lemma unscale_ok : fin u = true /\ 1 <= B2R u /\ (B2R u = 1 \/ /2 <= B2R y1 - B2R y0).
Proof.
  destruct (tame_sub y1 y0 T1 T0) as (F & D). unfold u, fmax. rewrite (fin_nonnan _ F). change (nan fone) with false. cbv iota.
  rewrite fle_key by (try apply fin_nonnan; trivial). destruct (Z.leb_spec (key fone) (key (fsub y1 y0))) as [H|H].
  - apply key_le_R in H; [|reflexivity|exact F]. rewrite one_R in H. split; [exact F|]. split; [exact H|]. right.
    apply Rnot_lt_le. intro X. rewrite D in H. assert (rnd64 (B2R y1 - B2R y0) <= /2); [|lra].
    change (/2) with (bpow radix2 (-1)). rewrite <- (rnd_gen (bpow radix2 (-1))) by (apply generic_pow; lia). apply rnd_le. change (bpow radix2 (-1)) with (/2). lra.
  - split; [reflexivity|]. rewrite one_R. split; [lra|]. left. reflexivity.
Qed.
Lemma scale_ok : fin k = true /\ 0 < B2R k <= 1 /\ bpow radix2 (-1024) <= B2R k /\ (B2R u = 1 -> B2R k = 1).
Proof.
  destruct unscale_ok as (F & H & _). assert (Q : 0 < 1 / B2R u <= 1). { split; [apply Rdiv_lt_0_compat; lra|]. apply Rmult_le_reg_r with (B2R u); [lra|]. unfold Rdiv. rewrite Rmult_assoc, Rinv_l by lra. lra. }
  destruct (fdiv_fin fone u) as (Fk & D); [reflexivity|lra| |].
  - rewrite one_R. apply (shrink_lt fone). rewrite one_R, Rabs_R1, Rabs_pos_eq; lra.
  - rewrite one_R in D. fold k in Fk, D. split; [exact Fk|].
    assert (U : rnd64 (1 / B2R u) <= 1). { rewrite <- (rnd_gen 1) at 2 by apply generic_one. apply rnd_le. lra. }
    assert (B : bpow radix2 (-1024) <= rnd64 (1 / B2R u)).
    { rewrite <- (rnd_gen (bpow radix2 (-1024))) by (apply generic_pow; lia). apply rnd_le. pose proof (emax_lt u) as E. apply Rabs_def2 in E.
      change (-1024)%Z with (-(1024))%Z. rewrite bpow_opp. unfold Rdiv. rewrite Rmult_1_l. apply Rinv_le; lra. }
    rewrite D. split; [pose proof (bpow_gt_0 radix2 (-1024)); lra|]. split; [exact B|]. intro X. rewrite X. unfold Rdiv. rewrite Rinv_1, Rmult_1_r. apply rnd_gen, generic_one.
Qed.
Lemma scaled_R (x : f64) : fin x = true -> fin (fmul x k) = true /\ B2R (fmul x k) = rnd64 (B2R x * B2R k).
Proof.
  intro F. destruct scale_ok as (Fk & Hk & _). apply fmul_fin; [exact F|exact Fk|]. apply (shrink_lt x). rewrite Rabs_mult, (Rabs_pos_eq (B2R k)) by lra.
  pose proof (Rabs_pos (B2R x)). nra.
Qed.
Lemma scaled_pos (x : f64) : 0 < B2R x -> (B2R u = 1 \/ /4 <= B2R x) -> 0 < rnd64 (B2R x * B2R k).
Proof.
  intros P C. destruct scale_ok as (Fk & Hk & Bk & Ok1). destruct C as [C|C].
  - rewrite (Ok1 C), Rmult_1_r, rnd_gen by apply gen_B2R. exact P.
  - apply Rlt_le_trans with (bpow radix2 (-1026)); [apply bpow_gt_0|]. rewrite <- (rnd_gen (bpow radix2 (-1026))) by (apply generic_pow; lia). apply rnd_le.
    change (-1026)%Z with (-2 + -1024)%Z. rewrite bpow_plus. change (bpow radix2 (-2)) with (/4). pose proof (bpow_gt_0 radix2 (-1024)).
    apply Rmult_le_compat; lra.
Qed.
Lemma diff_pos (a b : f64) : tame a -> tame b -> B2R a < B2R b -> 0 < B2R (fsub b a) /\ (/4 <= B2R b - B2R a -> /4 <= B2R (fsub b a)).
Proof.
  intros Ta Tb H. destruct (tame_sub b a Tb Ta) as (F & D). rewrite D. split.
  - assert (0 <= rnd64 (B2R b - B2R a)). { rewrite <- (rnd_gen 0) by apply generic_format_0. apply rnd_le. lra. }
    assert (rnd64 (B2R b + - B2R a) <> 0); [|unfold Rminus in *; lra].
    apply round_plus_neq_0; [typeclasses eauto..|apply gen_B2R|apply generic_format_opp, gen_B2R|lra].
  - intro Q. change (/4) with (bpow radix2 (-2)) in *. rewrite <- (rnd_gen (bpow radix2 (-2))) by (apply generic_pow; lia). apply rnd_le. exact Q.
Qed.
Lemma B2R_fsub_swap (a b : f64) : tame a -> tame b -> B2R (fsub a b) = - B2R (fsub b a).
Proof.
  intros Ta Tb. destruct (tame_sub a b Ta Tb) as (_ & D1). destruct (tame_sub b a Tb Ta) as (_ & D2). rewrite D1, D2.
  replace (B2R a - B2R b) with (- (B2R b - B2R a)) by lra. apply round_NE_opp.
Qed.
Lemma scaled_strict : fin (fmul (fsub y0 m) k) = true /\ fin (fmul (fsub y1 m) k) = true /\ flt (fmul (fsub y0 m) k) (fmul (fsub y1 m) k) = true.
Proof.
  destruct mid_tame as (Tm & Lm). destruct (tame_sub y0 m T0 Tm) as (F0 & _). destruct (tame_sub y1 m T1 Tm) as (F1 & _).
  destruct (scaled_R _ F0) as (G0 & E0). destruct (scaled_R _ F1) as (G1 & E1). split; [exact G0|]. split; [exact G1|]. apply flt_R; [assumption..|]. rewrite E0, E1.
  pose proof (proj1 (key_le_R y0 m (tame_fin _ T0) (tame_fin _ Tm)) ltac:(lia)) as A. pose proof (proj1 (key_le_R m y1 (tame_fin _ Tm) (tame_fin _ T1)) ltac:(lia)) as B.
  assert (C : B2R y0 < B2R y1). { apply Rnot_le_lt. intro X. apply key_le_R in X; [lia|apply tame_fin; assumption..]. }
  destruct unscale_ok as (_ & _ & U). destruct scale_ok as (_ & Kp & _).
  assert (Z1 : 0 <= rnd64 (B2R (fsub y1 m) * B2R k)).
  { rewrite <- (rnd_gen 0) by apply generic_format_0. apply rnd_le. destruct (tame_sub y1 m T1 Tm) as (_ & D). apply Rmult_le_pos; [|lra]. rewrite D. rewrite <- (rnd_gen 0) by apply generic_format_0. apply rnd_le. lra. }
  assert (N0 : rnd64 (B2R (fsub y0 m) * B2R k) = - rnd64 (B2R (fsub m y0) * B2R k)).
  { rewrite (B2R_fsub_swap y0 m T0 Tm). replace (- B2R (fsub m y0) * B2R k) with (- (B2R (fsub m y0) * B2R k)) by lra. apply round_NE_opp. }
  assert (Z0 : 0 <= rnd64 (B2R (fsub m y0) * B2R k)).
  { rewrite <- (rnd_gen 0) by apply generic_format_0. apply rnd_le. destruct (tame_sub m y0 Tm T0) as (_ & D). apply Rmult_le_pos; [|lra]. rewrite D. rewrite <- (rnd_gen 0) by apply generic_format_0. apply rnd_le. lra. }
  rewrite N0. destruct (Rle_or_lt (B2R m - B2R y0) (B2R y1 - B2R m)) as [Q|Q].
  - assert (0 < rnd64 (B2R (fsub y1 m) * B2R k)); [|lra]. destruct (diff_pos m y1 Tm T1 ltac:(lra)) as (P1 & P2). apply scaled_pos; [exact P1|].
    destruct U as [U|U]; [left; exact U|right; apply P2; lra].
  - assert (0 < rnd64 (B2R (fsub m y0) * B2R k)); [|lra]. destruct (diff_pos y0 m T0 Tm ltac:(lra)) as (P1 & P2). apply scaled_pos; [exact P1|].
    destruct U as [U|U]; [left; exact U|right; apply P2; lra].
Qed.
Lemma unscale_pos : fin u = true /\ positive u.
Proof. destruct unscale_ok as (F & P & _). split; [exact F|]. unfold positive. lra. Qed.
End Scale.

Lemma sub_zero (a b : f64) : fin a = true -> fin b = true -> key a = key b -> rnd64 (B2R a - B2R b) = B2R fzero.
Proof. intros Fa Fb K. rewrite !B2R_key by assumption. rewrite K. replace (IZR (key b) * bpow radix2 (-1074) - IZR (key b) * bpow radix2 (-1074)) with 0 by lra. apply rnd_gen, generic_format_0. Qed.
