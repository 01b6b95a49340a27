(** Proofs about PieceModel.v. *)
From Coq Require Import Reals Lra Psatz List Bool Lia.
From Verif Require Import ExactModel ExactSpec ExactProofs ExactProofs2 PieceModel PieceSpec.
Import ListNotations.
Local Open Scope R_scope.

Section Pieces.
Variable c : rcubic.
Notation A := (piece_a c).
Notation B := (piece_b c).
Notation C := (piece_c c).
Definition D (t : R) : R := C + B * t + A * (t * t).
Lemma cy_poly t : cy c t = ry (q0 c) + 3 * (C * t + B / 2 * (t * t) + A / 3 * (t * t * t)).
Proof. unfold cy, bern3, piece_a, piece_b, piece_c. field. Qed.
Lemma D_deriv t : derivable_pt_lim (cy c) t (3 * D t).
Proof.
  pose proof (cy_deriv c t) as H. replace (3 * D t) with (quad_eval (ry (deriv2 c)) (ry (deriv1 c)) (ry (deriv0 c)) t); [exact H|].
  unfold quad_eval, deriv0, deriv1, deriv2, rtriple, rdiff, D, piece_a, piece_b, piece_c. cbn [ry]. ring.
Qed.
Lemma D_cont : continuity D.
Proof. unfold D. reg. Qed.
Lemma flat_zero : A = 0 -> B = 0 -> C = 0 -> flat c.
Proof. unfold piece_a, piece_b, piece_c, flat. lra. Qed.

(** The derivative has one sign between [t0] and [t1]. *)
Definition one_sign (t0 t1 : R) : Prop := (forall u, t0 <= u <= t1 -> 0 <= D u) \/ (forall u, t0 <= u <= t1 -> D u <= 0).
Lemma ivt u v : u < v -> D u * D v < 0 -> exists w, u < w < v /\ D w = 0.
Proof.
  intros L N. destruct (IVT_cor D u v D_cont ltac:(lra) ltac:(lra)) as (w & W & E). exists w. split; [|exact E].
  destruct (Req_dec w u) as [->|]; [rewrite E in N; lra|]. destruct (Req_dec w v) as [->|]; [rewrite E in N; lra|]. lra.
Qed.
Lemma no_root_sign t0 t1 : t0 < t1 -> (forall u, t0 < u < t1 -> D u <> 0) -> one_sign t0 t1.
Proof.
  intros L N. set (m := (t0 + t1) / 2). assert (Hm : t0 < m < t1) by (unfold m; lra). pose proof (N m Hm) as Dm.
  assert (G : forall u, t0 <= u <= t1 -> D u * D m < 0 -> False).
  { intros u U P. destruct (Rtotal_order u m) as [L1|[->|L1]].
    - destruct (ivt u m L1 P) as (w & W & E). apply (N w); [lra|exact E].
    - pose proof (Rle_0_sqr (D m)) as S. unfold Rsqr in S. lra.
    - rewrite Rmult_comm in P. destruct (ivt m u L1 P) as (w & W & E). apply (N w); [lra|exact E]. }
  destruct (Rtotal_order (D m) 0) as [S|[S|S]]; [right|contradiction|left]; intros u U.
  - destruct (Rle_or_lt (D u) 0) as [|P]; [assumption|exfalso]. apply (G u U). nra.
  - destruct (Rle_or_lt 0 (D u)) as [|P]; [assumption|exfalso]. apply (G u U). nra.
Qed.
(** A curve that is level between two different parameters is flat. *)
Lemma level_flat t0 t1 : t0 < t1 -> (forall u, t0 <= u <= t1 -> cy c u = cy c t0) -> flat c.
Proof.
  intros L H. set (h := (t1 - t0) / 3). assert (Hh : 0 < h) by (unfold h; lra). assert (T3 : t0 + 3 * h = t1) by (unfold h; lra).
  pose proof (H (t0 + h) ltac:(lra)) as E1. pose proof (H (t0 + 2 * h) ltac:(lra)) as E2. pose proof (H (t0 + 3 * h) ltac:(lra)) as E3. rewrite !cy_poly in E1, E2, E3.
  set (a := A) in *. set (b := B) in *. set (k := C) in *.
  assert (Z3 : 2 * a * (h * h * h) = 0). { replace (2 * a * (h * h * h)) with (((k * (t0 + 3 * h) + b / 2 * ((t0 + 3 * h) * (t0 + 3 * h)) + a / 3 * ((t0 + 3 * h) * (t0 + 3 * h) * (t0 + 3 * h))) - (k * t0 + b / 2 * (t0 * t0) + a / 3 * (t0 * t0 * t0)))
      - 3 * ((k * (t0 + 2 * h) + b / 2 * ((t0 + 2 * h) * (t0 + 2 * h)) + a / 3 * ((t0 + 2 * h) * (t0 + 2 * h) * (t0 + 2 * h))) - (k * t0 + b / 2 * (t0 * t0) + a / 3 * (t0 * t0 * t0)))
      + 3 * ((k * (t0 + h) + b / 2 * ((t0 + h) * (t0 + h)) + a / 3 * ((t0 + h) * (t0 + h) * (t0 + h))) - (k * t0 + b / 2 * (t0 * t0) + a / 3 * (t0 * t0 * t0)))) by field. lra. }
  assert (Hp : 0 < h * h) by (apply Rmult_lt_0_compat; lra). assert (Hc : 0 < h * h * h) by (apply Rmult_lt_0_compat; lra).
  assert (Za : a = 0). { apply Rmult_integral in Z3. destruct Z3; lra. }
  rewrite Za in E1, E2, E3. assert (Z2 : b * (h * h) = 0).
  { replace (b * (h * h)) with (((k * (t0 + 2 * h) + b / 2 * ((t0 + 2 * h) * (t0 + 2 * h))) - (k * t0 + b / 2 * (t0 * t0))) - 2 * ((k * (t0 + h) + b / 2 * ((t0 + h) * (t0 + h))) - (k * t0 + b / 2 * (t0 * t0)))) by field. lra. }
  assert (Zb : b = 0). { apply Rmult_integral in Z2. destruct Z2; lra. }
  rewrite Zb in E1. assert (Z1 : k * h = 0) by lra. assert (Zk : k = 0). { apply Rmult_integral in Z1. destruct Z1; lra. }
  apply flat_zero; assumption.
Qed.

(** One piece. *)
Section One.
Variables t0 t1 : R.
Hypothesis T : t0 < t1.
Notation sub := (subsegment c t0 t1).
Lemma sub_cy r : cy sub r = cy c (t0 + r * (t1 - t0)).
Proof. unfold cy, subsegment, cubic_at, deriv_at. cbn [q0 q1 q2 q3 rx ry]. unfold cx, cy, deriv0, deriv1, deriv2, rtriple, rdiff, bern3, bern2. cbn [rx ry]. field. Qed.
Lemma sub_cx r : cx sub r = cx c (t0 + r * (t1 - t0)).
Proof. unfold cx, subsegment, cubic_at, deriv_at. cbn [q0 q1 q2 q3 rx ry]. unfold cx, cy, deriv0, deriv1, deriv2, rtriple, rdiff, bern3, bern2. cbn [rx ry]. field. Qed.
Lemma sub_q0 : ry (q0 sub) = cy c t0. Proof. reflexivity. Qed.
Lemma sub_q3 : ry (q3 sub) = cy c t1. Proof. reflexivity. Qed.
Lemma sub_q1 : ry (q1 sub) = cy c t0 + (t1 - t0) * D t0.
Proof. unfold subsegment, cubic_at, deriv_at. cbn [q1 ry]. unfold deriv0, deriv1, deriv2, rtriple, rdiff, bern2, D, piece_a, piece_b, piece_c. cbn [ry]. field. Qed.
Lemma sub_q2 : ry (q2 sub) = cy c t1 - (t1 - t0) * D t1.
Proof. unfold subsegment, cubic_at, deriv_at. cbn [q2 ry]. unfold deriv0, deriv1, deriv2, rtriple, rdiff, bern2, D, piece_a, piece_b, piece_c. cbn [ry]. field. Qed.
Lemma up_mono s t : (forall u, t0 <= u <= t1 -> 0 <= D u) -> t0 <= s -> s <= t -> t <= t1 -> cy c s <= cy c t.
Proof.
  intros P S ST L. destruct (Req_dec s t) as [->|]; [lra|]. destruct (MVT_cor2 (cy c) (fun u => 3 * D u) s t ltac:(lra) (fun u _ => D_deriv u)) as (w & E & W). specialize (P w ltac:(lra)).
  assert (0 <= 3 * D w * (t - s)) by (apply Rmult_le_pos; lra). lra.
Qed.
Lemma down_mono s t : (forall u, t0 <= u <= t1 -> D u <= 0) -> t0 <= s -> s <= t -> t <= t1 -> cy c t <= cy c s.
Proof.
  intros P S ST L. destruct (Req_dec s t) as [->|]; [lra|]. destruct (MVT_cor2 (cy c) (fun u => 3 * D u) s t ltac:(lra) (fun u _ => D_deriv u)) as (w & E & W). specialize (P w ltac:(lra)).
  assert (0 <= - (3 * D w) * (t - s)) by (apply Rmult_le_pos; lra). lra.
Qed.
Lemma in_part r : 0 <= r <= 1 -> t0 <= t0 + r * (t1 - t0) <= t1.
Proof. intros [R0 R1]. split. - assert (0 <= r * (t1 - t0)) by (apply Rmult_le_pos; lra). lra. - assert (0 <= (1 - r) * (t1 - t0)) by (apply Rmult_le_pos; lra). lra. Qed.
Lemma part_mono r s : r <= s -> t0 + r * (t1 - t0) <= t0 + s * (t1 - t0).
Proof. intros H. apply Rplus_le_compat_l, Rmult_le_compat_r; lra. Qed.
Lemma one_ok : ~ flat c -> one_sign t0 t1 -> one_piece c t0 t1 = [mkPiece t0 t1 sub] /\ (rises sub \/ rises (backwards sub)).
Proof.
  intros NF [P|P].
  - assert (L : cy c t0 < cy c t1).
    { pose proof (up_mono t0 t1 P ltac:(lra) ltac:(lra) ltac:(lra)) as K. destruct (Req_dec (cy c t0) (cy c t1)) as [E|]; [exfalso|lra].
      apply NF, (level_flat t0 t1 T). intros u U. pose proof (up_mono t0 u P ltac:(lra) ltac:(lra) ltac:(lra)). pose proof (up_mono u t1 P ltac:(lra) ltac:(lra) ltac:(lra)). lra. }
    assert (G1 : cy c t0 <= ry (q1 sub)). { rewrite sub_q1. assert (0 <= (t1 - t0) * D t0) by (apply Rmult_le_pos; [lra|apply P; lra]). lra. }
    assert (G2 : ry (q2 sub) <= cy c t1). { rewrite sub_q2. assert (0 <= (t1 - t0) * D t1) by (apply Rmult_le_pos; [lra|apply P; lra]). lra. }
    split.
    + unfold one_piece, force_rising. rewrite sub_q0, sub_q3. destruct (Rlt_dec (cy c t0) (cy c t1)); [|contradiction]. rewrite Rmax_right by exact G1. rewrite Rmin_right by exact G2. reflexivity.
    + left. split; [|rewrite sub_q0, sub_q3; exact L]. intros s t S ST T'. rewrite !sub_cy. apply (up_mono _ _ P); [apply in_part; lra|apply part_mono; lra|apply in_part; lra].
  - assert (L : cy c t1 < cy c t0).
    { pose proof (down_mono t0 t1 P ltac:(lra) ltac:(lra) ltac:(lra)) as K. destruct (Req_dec (cy c t0) (cy c t1)) as [E|]; [exfalso|lra].
      apply NF, (level_flat t0 t1 T). intros u U. pose proof (down_mono t0 u P ltac:(lra) ltac:(lra) ltac:(lra)). pose proof (down_mono u t1 P ltac:(lra) ltac:(lra) ltac:(lra)). lra. }
    assert (G1 : ry (q1 sub) <= cy c t0). { rewrite sub_q1. assert (0 <= (t1 - t0) * - D t0) by (apply Rmult_le_pos; [lra|specialize (P t0 ltac:(lra)); lra]). lra. }
    assert (G2 : cy c t1 <= ry (q2 sub)). { rewrite sub_q2. assert (0 <= (t1 - t0) * - D t1) by (apply Rmult_le_pos; [lra|specialize (P t1 ltac:(lra)); lra]). lra. }
    split.
    + unfold one_piece, force_rising. rewrite sub_q0, sub_q3. destruct (Rlt_dec (cy c t0) (cy c t1)); [lra|]. destruct (Rlt_dec (cy c t1) (cy c t0)); [|contradiction]. rewrite Rmin_right by exact G1. rewrite Rmax_right by exact G2. reflexivity.
    + right. split; [|cbn [backwards q0 q3]; rewrite sub_q0, sub_q3; exact L]. intros s t S ST T'.
      assert (BW : forall r, cy (backwards sub) r = cy sub (1 - r)) by (intros r; unfold cy, backwards, bern3; cbn [q0 q1 q2 q3]; ring).
      rewrite !BW, !sub_cy. apply (down_mono _ _ P); [apply in_part; lra|apply part_mono; lra|apply in_part; lra].
Qed.
End One.

(** The roots. *)
Fixpoint ascending (l : list R) : Prop := match l with [] => True | r :: l' => (forall s, In s l' -> r < s) /\ ascending l' end.
Lemma roots_ok : ~ flat c -> ascending (piece_roots c) /\ (length (piece_roots c) <= 2)%nat /\ ((forall t, D t = 0 -> In t (piece_roots c)) \/ piece_roots c = [] /\ forall t0 t1, one_sign t0 t1).
Proof.
  intros NF. unfold piece_roots. cbv zeta. destruct (Req_EM_T A 0) as [EA|EA].
  - destruct (Req_EM_T B 0) as [EB|EB].
    + split; [exact I|]. split; [cbn; lia|]. left. intros t E. exfalso. apply NF, flat_zero; [exact EA|exact EB|]. unfold D in E. rewrite EA, EB in E. lra.
    + split; [split; [intros s []|exact I]|]. split; [cbn; lia|]. left. intros t E. left. unfold D in E. rewrite EA in E. apply Rmult_eq_reg_l with (r := B); [|exact EB]. field_simplify; [lra|exact EB].
  - assert (SC : forall t, D t = A * (t * t + B * / A * t + C * / A)) by (intros t; unfold D; field; exact EA).
    destruct (roots_some (B * / A) (C * / A)) as [(E & L)|(r & s & E & L & RS & F)]; rewrite E.
    + split; [exact I|]. split; [cbn; lia|]. right. split; [reflexivity|]. intros t0 t1. pose proof (roots_none _ _ E) as P.
      destruct (Rtotal_order A 0) as [S|[S|S]]; [right|contradiction|left]; intros u _; rewrite SC; specialize (P u).
      * assert (0 <= - A * (u * u + B * / A * u + C * / A)) by (apply Rmult_le_pos; lra). lra.
      * apply Rmult_le_pos; lra.
    + assert (ALL : forall t, D t = 0 -> t = r \/ t = s). { intros t Z. rewrite SC, F in Z. apply Rmult_integral in Z as [Z|Z]; [contradiction|]. apply Rmult_integral in Z as [Z|Z]; lra. }
      destruct (Req_EM_T s r) as [EQ|NE].
      * split; [split; [intros w []|exact I]|]. split; [cbn; lia|]. left. intros t Z. left. destruct (ALL t Z); congruence.
      * split; [split; [intros w [<-|[]]; lra|split; [intros w []|exact I]]|]. split; [cbn; lia|]. left. intros t Z. destruct (ALL t Z); [left|right; left]; congruence.
Qed.
Lemma loop_ok rs : ~ flat c -> forall last, 0 <= last < 1 -> ascending rs -> (forall r, In r rs -> 0 < r -> last < r) ->
  (forall t, last < t < 1 -> D t = 0 -> In t rs) \/ rs = [] /\ (forall t0 t1, one_sign t0 t1) ->
  covers last 1 (pieces_from c last rs) /\ (length (pieces_from c last rs) <= S (length rs))%nat /\
  Forall (fun p => r_curve p = subsegment c (r_start p) (r_end p) /\ (rises (r_curve p) \/ rises (backwards (r_curve p)))) (pieces_from c last rs).
Proof.
  intros NF. induction rs as [|r rs IH]; intros last L AS GT H; cbn [pieces_from].
  - assert (OS : one_sign last 1). { destruct H as [H|(_ & H)]; [|apply H]. apply no_root_sign; [lra|]. intros u U Z. exact (H u U Z). }
    destruct (one_ok last 1 ltac:(lra) NF OS) as (E & RI). rewrite E. split; [cbn; split; [reflexivity|split; [lra|reflexivity]]|]. split; [cbn; lia|]. constructor; [split; [reflexivity|exact RI]|constructor].
  - destruct H as [H|(H & _)]; [|discriminate H]. destruct AS as (AH & AS).
    destruct (rltb 0 r && rltb r 1) eqn:G.
    + unfold rltb in G. destruct (Rlt_dec 0 r) as [G0|]; [|discriminate G]. destruct (Rlt_dec r 1) as [G1|]; [|discriminate G]. assert (LR : last < r) by (apply GT; [left; reflexivity|exact G0]).
      assert (OS : one_sign last r). { apply no_root_sign; [exact LR|]. intros u U Z. destruct (H u ltac:(lra) Z) as [->|I]; [lra|]. specialize (AH u I). lra. }
      destruct (one_ok last r LR NF OS) as (E & RI). rewrite E. cbn [app].
      destruct (IH r ltac:(lra) AS ltac:(intros w I _; apply AH, I)) as (I1 & I2 & I3).
      { left. intros t Q Z. destruct (H t ltac:(lra) Z) as [->|I]; [lra|exact I]. }
      split; [cbn [covers r_start r_end]; auto|]. split; [cbn [length] in *; lia|]. constructor; [split; [reflexivity|exact RI]|exact I3].
    + destruct (IH last L AS ltac:(intros w I; apply GT; right; exact I)) as (I1 & I2 & I3).
      { left. intros t Q Z. destruct (H t Q Z) as [->|I]; [exfalso|exact I]. unfold rltb in G. destruct (Rlt_dec 0 t); [|lra]. destruct (Rlt_dec t 1); [discriminate G|lra]. }
      split; [exact I1|]. split; [cbn [length]; lia|exact I3].
Qed.
End Pieces.
