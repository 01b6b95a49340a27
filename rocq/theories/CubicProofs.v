(** Rounding errors of curve evaluation: a calculus of bounds. *)
From Coq Require Import ZArith Bool Lia Reals Lra Psatz.
From Flocq Require Import Core BinarySingleNaN.
From Verif Require Import F64 F64Arith PosModel CompareModel CompareArith LineProofs NearArith QuadProofs.
Local Open Scope R_scope.

(** [x] is finite, and approximates [v], which is at most [c], with an error of at most [k] (in units of 2^-53). *)
Definition par (x : f64) (v c k : R) : Prop := fin x = true /\ Rabs v <= c /\ Rabs (B2R x - v) <= k * u /\ 0 <= c <= 100 /\ 0 <= k <= 10000.
(** The same of coordinates of size [M]. *)
Definition tau (M : R) : R := u * M + h.
Definition coord (M : R) (x : f64) (v c k : R) : Prop := fin x = true /\ Rabs v <= c * M /\ Rabs (B2R x - v) <= k * tau M /\ 0 <= c <= 100 /\ 0 <= k <= 10000.

Lemma u_4 : 10000 * 10000 * u <= /10000000.
Proof. pose proof u_pos. assert (E : u * bpow radix2 53 = 1) by (unfold u; rewrite <- bpow_plus; reflexivity). replace (bpow radix2 53) with 9007199254740992 in E by (simpl; lra). lra. Qed.
Lemma h_u : h <= /1000 * u.
Proof. apply Rle_trans with (bpow radix2 (-10) * u); [unfold u, h; rewrite <- bpow_plus; apply bpow_le; lia|]. pose proof u_pos. simpl (bpow radix2 (-10)). lra. Qed.
Lemma abs_add x y a b : Rabs x <= a -> Rabs y <= b -> Rabs (x + y) <= a + b.
Proof. intros H K. apply Rle_trans with (1 := Rabs_triang _ _). lra. Qed.
Lemma abs_mul x y a b : Rabs x <= a -> Rabs y <= b -> Rabs (x * y) <= a * b.
Proof. intros H K. rewrite Rabs_mult. apply Rmult_le_compat; try apply Rabs_pos; assumption. Qed.
Lemma abs_near x v c e : Rabs v <= c -> Rabs (x - v) <= e -> Rabs x <= c + e.
Proof. intros H K. replace x with (v + (x - v)) by ring. apply abs_add; assumption. Qed.
Lemma abs_dist x y z a b : Rabs (x - y) <= a -> Rabs (y - z) <= b -> Rabs (x - z) <= a + b.
Proof. intros H K. replace (x - z) with ((x - y) + (y - z)) by ring. apply abs_add; assumption. Qed.
(** The error of a product. *)
Lemma prod_dist x y v w cv cw ev ew : Rabs v <= cv -> Rabs w <= cw -> Rabs (x - v) <= ev -> Rabs (y - w) <= ew ->
  Rabs (x * y - v * w) <= ev * cw + ew * cv + ev * ew.
Proof.
  intros. replace (x * y - v * w) with ((x - v) * w + (y - w) * v + (x - v) * (y - w)) by ring.
  repeat apply abs_add; apply abs_mul; assumption.
Qed.
Lemma par_weak x v c k c' k' : c <= c' <= 100 -> k <= k' <= 10000 -> par x v c k -> par x v c' k'.
Proof. intros C K (F & B & E & ? & ?). pose proof u_pos. repeat split; try assumption; try lra. apply Rle_trans with (1 := E). apply Rmult_le_compat_r; lra. Qed.
Lemma par_bound x v c k c' : par x v c k -> Rabs v <= c' <= 100 -> par x v c' k.
Proof. intros (F & B & E & C & K) H. pose proof (Rabs_pos v). repeat split; try assumption; lra. Qed.
Lemma par_exact x c : fin x = true -> Rabs (B2R x) <= c -> c <= 100 -> par x (B2R x) c 0.
Proof. intros F B C. pose proof (Rabs_pos (B2R x)). repeat split; try assumption; try lra. rewrite Rminus_diag_eq by reflexivity. rewrite Rabs_R0. lra. Qed.
Lemma par_mul x y v w c k c' k' c'' k'' : par x v c k -> par y w c' k' -> c * c' <= c'' <= 100 -> k * c' + k' * c + c * c' + /100 <= k'' <= 10000 ->
  par (fmul x y) (v * w) c'' k''.
Proof.
  intros (F & B & E & C & K) (F' & B' & E' & C' & K') CC KK. pose proof u_pos as U. pose proof u_4 as U4. pose proof h_u as HU.
  pose proof (prod_dist _ _ _ _ _ _ _ _ B B' E E') as P. pose proof (abs_near _ _ _ _ (abs_mul _ _ _ _ B B') P) as Q.
  assert (S : k * u * (k' * u) <= / 10000000 * u). { replace (k * u * (k' * u)) with (k * k' * u * u) by ring. apply Rmult_le_compat_r; [lra|]. apply Rle_trans with (2 := U4). apply Rmult_le_compat_r; [lra|]. apply Rmult_le_compat; lra. }
  assert (CP : 0 <= c * c') by (apply Rmult_le_pos; lra). assert (KP : 0 <= k * c') by (apply Rmult_le_pos; lra). assert (KP' : 0 <= k' * c) by (apply Rmult_le_pos; lra).
  assert (L : k * u * c' + k' * u * c = (k * c' + k' * c) * u) by ring.
  assert (S2 : (k * c' + k' * c) * u <= / 4000000). { assert (k * c' <= 10000 * 100) by (apply Rmult_le_compat; lra). assert (k' * c <= 10000 * 100) by (apply Rmult_le_compat; lra). 
    assert ((k * c' + k' * c) * u <= 2000000 * u) by (apply Rmult_le_compat_r; lra). lra. }
  destruct (fmul_fin x y F F') as (G & V). { apply big_fin. apply Rle_trans with (1 := Q). apply Rle_trans with (bpow radix2 10); [simpl (bpow radix2 10); lra|apply bpow_le; lia]. }
  split; [exact G|]. split; [apply Rle_trans with (1 := abs_mul _ _ _ _ B B'); lra|]. split; [|lra]. rewrite V.
  apply Rle_trans with (1 := abs_dist _ _ _ _ _ (any_err _) P).
  assert (u * Rabs (B2R x * B2R y) <= u * (c * c' + / 1000000)) by (apply Rmult_le_compat_l; lra).
  apply Rle_trans with ((k * c' + k' * c + c * c' + /100) * u); [|apply Rmult_le_compat_r; lra]. lra.
Qed.
(** [1 - t]. *)
Lemma par_rest t : fin t = true -> 0 <= B2R t <= 1 -> par (fsub fone t) (1 - B2R t) 1 1.
Proof.
  intros F T. destruct (sub_val fone t eq_refl F) as (G & V).
  { rewrite one_R. apply Rle_trans with (4 * 1). rewrite Rabs_R1; lra. apply Rmult_le_compat_l; [lra|]. change 1 with (bpow radix2 0). apply bpow_le. lia. }
  { apply Rle_trans with (4 * 1). apply abs_le; lra. apply Rmult_le_compat_l; [lra|]. change 1 with (bpow radix2 0). apply bpow_le. lia. }
  pose proof u_pos. split; [exact G|]. rewrite one_R in V. assert (B : Rabs (1 - B2R t) <= 1) by (apply abs_le; lra). split; [exact B|]. split; [|lra]. rewrite V.
  apply Rle_trans with (u * Rabs (1 - B2R t)). { rewrite <- one_R at 1 2 3. apply sub_err; apply gen_B2R. } nra.
Qed.

Section Coord.
Variable M : R.
Hypothesis M0 : 0 <= M.
Hypothesis MB : M <= bpow radix2 1000.
Notation tau := (tau M).
Notation coord := (coord M).
Lemma tau_pos : 0 < tau /\ u * M <= tau /\ h <= tau.
Proof. unfold tau. pose proof u_pos. pose proof h_pos. assert (0 <= u * M) by (apply Rmult_le_pos; lra). lra. Qed.
Lemma tau_B : tau <= bpow radix2 1000.
Proof.
  unfold tau. apply Rle_trans with (bpow radix2 999 + bpow radix2 999).
  - apply Rplus_le_compat; [|unfold h; apply bpow_le; lia]. apply Rle_trans with (u * bpow radix2 1000); [apply Rmult_le_compat_l; [apply Rlt_le, u_pos|exact MB]|].
    unfold u. rewrite <- bpow_plus. apply bpow_le. lia.
  - change 1000%Z with (999 + 1)%Z. rewrite bpow_plus. simpl (bpow radix2 1). lra.
Qed.
Lemma big_M r : Rabs r <= 1000000 * M + 3000000 * tau -> Rabs (rnd64 r) < bpow radix2 1024.
Proof.
  intros H. apply big_fin. apply Rle_trans with (1 := H). pose proof tau_B.
  assert (bpow radix2 1023 = 8388608 * bpow radix2 1000) as ->. { change 1023%Z with (23 + 1000)%Z. rewrite bpow_plus. simpl (bpow radix2 23). lra. } lra.
Qed.
Lemma coord_weak x v c k c' k' : c <= c' <= 100 -> k <= k' <= 10000 -> coord x v c k -> coord x v c' k'.
Proof.
  intros C K (F & B & E & ? & ?). pose proof tau_pos. split; [exact F|]. split; [apply Rle_trans with (1 := B); apply Rmult_le_compat_r; lra|].
  split; [apply Rle_trans with (1 := E); apply Rmult_le_compat_r; lra|lra].
Qed.
Lemma coord_bound x v c k c' : coord x v c k -> Rabs v <= c' * M -> 0 <= c' <= 100 -> coord x v c' k.
Proof. intros (F & B & E & C & K) H H'. repeat split; try assumption; lra. Qed.
Lemma coord_exact x c : fin x = true -> Rabs (B2R x) <= c * M -> 0 <= c <= 100 -> coord x (B2R x) c 0.
Proof. intros F B C. split; [exact F|]. split; [exact B|]. split; [|lra]. rewrite Rminus_diag_eq by reflexivity. rewrite Rabs_R0. lra. Qed.
Lemma coord_add x y v w c k c' k' c'' k'' : coord x v c k -> coord y w c' k' -> c + c' <= c'' <= 100 -> k + k' + c + c' + /100 <= k'' <= 10000 ->
  coord (fadd x y) (v + w) c'' k''.
Proof.
  intros (F & B & E & C & K) (F' & B' & E' & C' & K') CC KK. destruct tau_pos as (T & UM & HT). pose proof u_pos as U. pose proof u_4 as U4.
  assert (P : Rabs (B2R x + B2R y - (v + w)) <= (k + k') * tau). { replace (B2R x + B2R y - (v + w)) with ((B2R x - v) + (B2R y - w)) by ring. rewrite Rmult_plus_distr_r. apply abs_add; assumption. }
  assert (Q : Rabs (B2R x + B2R y) <= (c + c') * M + (k + k') * tau). { apply abs_near with (v + w); [|exact P]. rewrite Rmult_plus_distr_r. apply abs_add; assumption. }
  assert (KT : (k + k') * tau <= 20000 * tau) by (apply Rmult_le_compat_r; lra). assert (CM : (c + c') * M <= 200 * M) by (apply Rmult_le_compat_r; lra).
  destruct (fadd_fin x y F F') as (G & V). { apply big_M. lra. }
  split; [exact G|]. split. { apply Rle_trans with ((c + c') * M); [rewrite Rmult_plus_distr_r; apply abs_add; assumption|apply Rmult_le_compat_r; lra]. }
  split; [|lra]. rewrite V. apply Rle_trans with (1 := abs_dist _ _ _ _ _ (plus_err _ _ (gen_B2R _) (gen_B2R _)) P).
  assert (u * Rabs (B2R x + B2R y) <= u * ((c + c') * M + (k + k') * tau)) by (apply Rmult_le_compat_l; lra).
  assert (u * ((c + c') * M) <= (c + c') * tau). { replace (u * ((c + c') * M)) with ((c + c') * (u * M)) by ring. apply Rmult_le_compat_l; lra. }
  assert (u * ((k + k') * tau) <= /100 * tau). { rewrite <- Rmult_assoc. apply Rmult_le_compat_r; [lra|]. assert (u * (k + k') <= u * 20000) by (apply Rmult_le_compat_l; lra). lra. }
  apply Rle_trans with ((k + k' + c + c' + /100) * tau); [lra|apply Rmult_le_compat_r; lra].
Qed.
Lemma coord_opp x v c k : coord x v c k -> coord (fneg x) (- v) c k.
Proof.
  intros (F & B & E & CK). split; [rewrite fin_fneg; exact F|]. rewrite Rabs_Ropp, B2R_fneg. split; [exact B|]. split; [|exact CK].
  replace (- B2R x - - v) with (- (B2R x - v)) by ring. rewrite Rabs_Ropp. exact E.
Qed.
Lemma coord_sub x y v w c k c' k' c'' k'' : coord x v c k -> coord y w c' k' -> c + c' <= c'' <= 100 -> k + k' + c + c' + /100 <= k'' <= 10000 ->
  coord (fsub x y) (v - w) c'' k''.
Proof. intros X Y CC KK. rewrite fsub_fneg. unfold Rminus. apply coord_opp in Y. exact (coord_add _ _ _ _ _ _ _ _ _ _ X Y CC KK). Qed.
Lemma coord_mul x y v w c k c' k' c'' k'' : coord x v c k -> par y w c' k' -> c * c' <= c'' <= 100 -> k * c' + k' * c + c * c' + 1 + /10 <= k'' <= 10000 ->
  coord (fmul x y) (v * w) c'' k''.
Proof.
  intros (F & B & E & C & K) (F' & B' & E' & C' & K') CC KK. destruct tau_pos as (T & UM & HT). pose proof u_pos as U. pose proof u_4 as U4.
  pose proof (prod_dist _ _ _ _ _ _ _ _ B B' E E') as P. pose proof (abs_near _ _ _ _ (abs_mul _ _ _ _ B B') P) as Q.
  assert (S : k * tau * (k' * u) <= / 10000000 * tau). { replace (k * tau * (k' * u)) with (k * k' * u * tau) by ring. apply Rmult_le_compat_r; [lra|]. apply Rle_trans with (2 := U4). apply Rmult_le_compat_r; [lra|]. apply Rmult_le_compat; lra. }
  assert (CP : 0 <= c * c') by (apply Rmult_le_pos; lra). assert (KP : 0 <= k * c') by (apply Rmult_le_pos; lra). assert (KP' : 0 <= k' * c) by (apply Rmult_le_pos; lra).
  assert (L1 : k * tau * c' = k * c' * tau) by ring.
  assert (L2 : k' * u * (c * M) <= k' * c * tau). { replace (k' * u * (c * M)) with (k' * c * (u * M)) by ring. apply Rmult_le_compat_l; lra. }
  assert (KC : k * c' <= 10000 * 100) by (apply Rmult_le_compat; lra). assert (KC' : k' * c <= 10000 * 100) by (apply Rmult_le_compat; lra). assert (CCM : c * c' <= 100 * 100) by (apply Rmult_le_compat; lra).
  assert (KT : k * c' * tau <= 1000000 * tau) by (apply Rmult_le_compat_r; lra). assert (KT' : k' * c * tau <= 1000000 * tau) by (apply Rmult_le_compat_r; lra).
  assert (CM : c * c' * M <= 10000 * M) by (apply Rmult_le_compat_r; lra). assert (CE : c * M * c' = c * c' * M) by ring.
  destruct (fmul_fin x y F F') as (G & V). { apply big_M. lra. }
  split; [exact G|]. split. { apply Rle_trans with (1 := abs_mul _ _ _ _ B B'). rewrite CE. apply Rmult_le_compat_r; lra. }
  split; [|lra]. rewrite V. apply Rle_trans with (1 := abs_dist _ _ _ _ _ (any_err _) P).
  assert (W1 : u * Rabs (B2R x * B2R y) <= u * (c * c' * M + 2000001 * tau)) by (apply Rmult_le_compat_l; lra).
  assert (W2 : u * (c * c' * M) <= c * c' * tau). { replace (u * (c * c' * M)) with (c * c' * (u * M)) by ring. apply Rmult_le_compat_l; lra. }
  assert (W3 : u * (2000001 * tau) <= / 100 * tau). { rewrite <- Rmult_assoc. apply Rmult_le_compat_r; lra. }
  apply Rle_trans with ((k * c' + k' * c + c * c' + 1 + /10) * tau); [lra|apply Rmult_le_compat_r; lra].
Qed.
Lemma mul_comm_R x y : fin x = true -> fin y = true -> fin (fmul x y) = true -> fin (fmul y x) = true /\ B2R (fmul y x) = B2R (fmul x y).
Proof.
  intros F F' G. unfold fmul in *. pose proof (Bmult_correct 53 1024 _ _ mode_NE x y) as C. pose proof (Bmult_correct 53 1024 _ _ mode_NE y x) as C'. rewrite Rmult_comm in C'.
  destruct (Rlt_bool _ _).
  - destruct C as (E & FF & _), C' as (E' & FF' & _). fold (fin (Bmult mode_NE y x)) in FF'. unfold fin in *. rewrite FF', F, F'. split; [reflexivity|]. rewrite E, E'. reflexivity.
  - exfalso. unfold fin in *. clear C'. destruct (Bmult mode_NE x y); try discriminate; destruct (Bsign x), (Bsign y); discriminate.
Qed.
Lemma coord_mul_l x y v w c k c' k' c'' k'' : par y w c' k' -> coord x v c k -> c * c' <= c'' <= 100 -> k * c' + k' * c + c * c' + 1 + /10 <= k'' <= 10000 ->
  coord (fmul y x) (w * v) c'' k''.
Proof.
  intros P X CC KK. destruct (coord_mul _ _ _ _ _ _ _ _ _ _ X P CC KK) as (G & B & E & R). destruct (mul_comm_R x y) as (G' & E'); [apply X|apply P|exact G|].
  split; [exact G'|]. rewrite E', (Rmult_comm w v). auto.
Qed.
End Coord.
