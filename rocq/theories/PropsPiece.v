(** C85: splitting a curve into monotone pieces, in exact arithmetic. *)
From Coq Require Import Reals Lra List Bool Lia.
From Verif Require Import ExactModel ExactSpec PieceModel PieceSpec PieceProofs.
Import ListNotations.
Local Open Scope R_scope.

(** C85.  A curve whose control points are not all at one height is split into at most three pieces that follow each other from 0 to 1; each piece is that part of the curve, point by point (making it
    monotone changes nothing), and its heights rise, or rise when it is run backwards. *)
Theorem pieces_monotone : forall c, ~ flat c ->
  covers 0 1 (monotonic_pieces c) /\ (length (monotonic_pieces c) <= 3)%nat /\
  forall p, In p (monotonic_pieces c) -> part_of c p /\ (rises (r_curve p) \/ rises (backwards (r_curve p))).
Proof.
  intros c NF. destruct (roots_ok c NF) as (AS & LE & RT). unfold monotonic_pieces.
  destruct (loop_ok c (piece_roots c) NF 0 ltac:(lra) AS ltac:(auto)) as (C1 & C2 & C3).
  { destruct RT as [RT|RT]; [left; intros t _; apply RT|right; exact RT]. }
  split; [exact C1|]. split; [lia|]. rewrite Forall_forall in C3. intros p I. destruct (C3 p I) as (E & RI). split; [|exact RI].
  intros r. rewrite E. split; [apply sub_cy|apply sub_cx].
Qed.
Print Assumptions pieces_monotone.

(** C85 (level curves).  Of a curve with all control points at one height only the straight line between the ends is kept, and nothing if they are the same. *)
Theorem pieces_flat : forall c, flat c ->
  (rx (q0 c) = rx (q3 c) -> monotonic_pieces c = []) /\
  (rx (q0 c) <> rx (q3 c) -> exists p, monotonic_pieces c = [p] /\ r_start p = 0 /\ r_end p = 1 /\
     forall r, cy (r_curve p) r = ry (q0 c) /\ cx (r_curve p) r = rx (q0 c) + r * (rx (q3 c) - rx (q0 c))).
Proof.
  intros c (F0 & F1 & F2). assert (RT : piece_roots c = []).
  { unfold piece_roots, piece_a, piece_b, piece_c. cbv zeta. rewrite F0, F1, F2. destruct (Req_EM_T _ 0) as [_|N]; [|exfalso; apply N; ring]. destruct (Req_EM_T _ 0) as [_|N]; [reflexivity|exfalso; apply N; ring]. }
  assert (Y0 : ry (q0 (subsegment c 0 1)) = ry (q0 c)) by (cbn; unfold cy, bern3; ring).
  assert (Y3 : ry (q3 (subsegment c 0 1)) = ry (q0 c)) by (cbn; unfold cy, bern3; rewrite F0, F1, F2; ring).
  assert (X0 : rx (q0 (subsegment c 0 1)) = rx (q0 c)) by (cbn; unfold cx, bern3; ring).
  assert (X3 : rx (q3 (subsegment c 0 1)) = rx (q3 c)) by (cbn; unfold cx, bern3; ring).
  unfold monotonic_pieces. rewrite RT. cbn [pieces_from]. unfold one_piece, force_rising, point_same. rewrite Y0, Y3, X0, X3.
  destruct (Rlt_dec (ry (q0 c)) (ry (q0 c))) as [L|_]; [lra|]. destruct (Req_EM_T (ry (q0 c)) (ry (q0 c))) as [_|N]; [|lra]. split; intros H.
  - destruct (Req_EM_T (rx (q0 c)) (rx (q3 c))) as [_|N]; [reflexivity|contradiction].
  - destruct (Req_EM_T (rx (q0 c)) (rx (q3 c))) as [E|_]; [contradiction|]. cbn [andb negb]. eexists. split; [reflexivity|]. split; [reflexivity|]. split; [reflexivity|].
    intros r. cbn [r_curve]. unfold cy, cx, bern3, rtowards. cbn [q0 q1 q2 q3 ry rx]. rewrite Y0, Y3, X0, X3. split; field.
Qed.
Print Assumptions pieces_flat.

(** ** Examples *)
(** A hump: it is split at its top, which is at the parameter 1/2. *)
Definition hump : rcubic := mkRC (mkRP 0 0) (mkRP 1 1) (mkRP 1 2) (mkRP 0 3).
Example hump_pieces : ~ flat hump /\ piece_roots hump = [1 / 2] /\ exists p q, monotonic_pieces hump = [p; q] /\ r_end p = 1 / 2 /\ r_start q = 1 / 2 /\ rises (r_curve p) /\ rises (backwards (r_curve q)).
Proof.
  assert (NF : ~ flat hump) by (unfold flat, hump; cbn; lra). split; [exact NF|].
  assert (RT : piece_roots hump = [1 / 2]).
  { unfold piece_roots, piece_a, piece_b, piece_c, hump. cbn [q0 q1 q2 q3 ry]. destruct (Req_EM_T _ 0) as [_|N]; [|exfalso; apply N; ring]. destruct (Req_EM_T _ 0) as [Z|_]; [lra|]. f_equal. field. }
  split; [exact RT|]. destruct (pieces_monotone hump NF) as (CV & _ & PM). unfold monotonic_pieces in *. rewrite RT in *. cbn [pieces_from] in *.
  assert (G : rltb 0 (1 / 2) && rltb (1 / 2) 1 = true). { unfold rltb. destruct (Rlt_dec 0 (1 / 2)); [|lra]. destruct (Rlt_dec (1 / 2) 1); [reflexivity|lra]. }
  rewrite G in *. unfold one_piece in *.
  assert (Y : forall t, cy hump t = 3 * t * (1 - t)) by (intros t; unfold cy, bern3, hump; cbn; ring).
  destruct (force_rising (subsegment hump 0 (1 / 2))) as [p|]; [|exfalso; destruct (force_rising (subsegment hump (1 / 2) 1)); cbn in CV; lra].
  destruct (force_rising (subsegment hump (1 / 2) 1)) as [q|]; [|exfalso; cbn in CV; lra].
  exists (mkPiece 0 (1 / 2) p), (mkPiece (1 / 2) 1 q). split; [reflexivity|]. split; [reflexivity|]. split; [reflexivity|]. cbn [r_curve].
  destruct (PM (mkPiece 0 (1 / 2) p) ltac:(left; reflexivity)) as (P1 & R1). destruct (PM (mkPiece (1 / 2) 1 q) ltac:(right; left; reflexivity)) as (P2 & R2). cbn [r_curve] in *.
  assert (E0 : forall c, cy c 0 = ry (q0 c)) by (intros c; unfold cy, bern3; ring). assert (E1 : forall c, cy c 1 = ry (q3 c)) by (intros c; unfold cy, bern3; ring).
  pose proof (proj1 (P1 0)) as A0. pose proof (proj1 (P1 1)) as A1. pose proof (proj1 (P2 0)) as B0. pose proof (proj1 (P2 1)) as B1. cbn [r_curve r_start r_end] in *. rewrite Y, ?E0, ?E1 in *.
  split.
  - destruct R1 as [R1|(_ & R1)]; [exact R1|exfalso]. cbn [backwards q0 q3] in R1. lra.
  - destruct R2 as [(_ & R2)|R2]; [exfalso; lra|exact R2].
Qed.
(** A level curve that goes back and forth. *)
Example level_line : monotonic_pieces (mkRC (mkRP 0 0) (mkRP 0 5) (mkRP 0 (-4)) (mkRP 0 1)) <> [].
Proof.
  destruct (pieces_flat (mkRC (mkRP 0 0) (mkRP 0 5) (mkRP 0 (-4)) (mkRP 0 1)) ltac:(unfold flat; cbn; auto)) as (_ & H). destruct H as (p & -> & _); [cbn; lra|discriminate].
Qed.
