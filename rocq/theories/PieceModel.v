(** src/geom.rs:138-229 read in exact arithmetic: splitting a curve into pieces whose heights do not turn.

    Simplification: an [f64] is a real number and every operation is exact.  A division by zero gives an infinity or a NaN in the code; both are treated
    as the code treats them.  [GeomModel.v] has the same functions over IEEE floats. *)
From Coq Require Import Reals List Bool.
From Verif Require Import ExactModel.
Import ListNotations.
Local Open Scope R_scope.

(** The coefficients of a third of the derivative of the height: geom.rs:176-183. *)
Definition piece_c (cub : rcubic) : R := ry (q1 cub) - ry (q0 cub).
Definition piece_b (cub : rcubic) : R := ((ry (q2 cub) - ry (q1 cub)) - (ry (q1 cub) - ry (q0 cub))) * 2.
Definition piece_a (cub : rcubic) : R := (ry (q1 cub) - ry (q0 cub)) - (ry (q2 cub) - ry (q1 cub)) * 2 + (ry (q3 cub) - ry (q2 cub)).
(** geom.rs:186-201.  With [a] zero, [scaled_b] or [scaled_c] is infinite unless [b] and [c] are zero, too (then they are NaNs, and so are the roots);
    with [b] zero the root is infinite.  A root that is infinite or a NaN is ignored by the loop and left out here. *)
Definition piece_roots (cub : rcubic) : list R :=
  let a := piece_a cub in let b := piece_b cub in let c := piece_c cub in
  if Req_EM_T a 0 then (if Req_EM_T b 0 then [] else [- c / b])
  else match monic_quadratic_roots (b * / a) (c * / a) with
       | (Some r0, Some r1) => r0 :: (if Req_EM_T r1 r0 then [] else [r1])
       | _ => []
       end.
(** geom.rs:144-165 [force_monotonic]. *)
Definition point_same (p q : rpoint) : bool := (if Req_EM_T (ry p) (ry q) then true else false) && (if Req_EM_T (rx p) (rx q) then true else false).
Definition rtowards (p q : rpoint) (k : R) : rpoint := mkRP (ry p + (ry q - ry p) * k) (rx p + (rx q - rx p) * k).
Definition force_rising (c : rcubic) : option rcubic :=
  if Rlt_dec (ry (q0 c)) (ry (q3 c)) then
    Some (mkRC (q0 c) (mkRP (Rmax (ry (q0 c)) (ry (q1 c))) (rx (q1 c))) (mkRP (Rmin (ry (q3 c)) (ry (q2 c))) (rx (q2 c))) (q3 c))
  else if Rlt_dec (ry (q3 c)) (ry (q0 c)) then
    Some (mkRC (q0 c) (mkRP (Rmin (ry (q0 c)) (ry (q1 c))) (rx (q1 c))) (mkRP (Rmax (ry (q3 c)) (ry (q2 c))) (rx (q2 c))) (q3 c))
  else if negb (point_same (q0 c) (q3 c)) then
    Some (mkRC (q0 c) (rtowards (q0 c) (q3 c) (1 / 3)) (rtowards (q0 c) (q3 c) (2 / 3)) (q3 c))
  else None.
(** geom.rs:167-172 [MonotonicPiece]. *)
Record rpiece : Type := mkPiece { r_start : R; r_end : R; r_curve : rcubic }.
(** geom.rs:207-214, 219-226: one piece. *)
Definition one_piece (c : rcubic) (t0 t1 : R) : list rpiece :=
  match force_rising (subsegment c t0 t1) with Some p => [mkPiece t0 t1 p] | None => [] end.
(** geom.rs:202-226: the loop. *)
Fixpoint pieces_from (c : rcubic) (last_r : R) (rs : list R) : list rpiece :=
  match rs with
  | [] => one_piece c last_r 1
  | r :: rs' => if rltb 0 r && rltb r 1 then one_piece c last_r r ++ pieces_from c r rs' else pieces_from c last_r rs'
  end.
(** geom.rs:174-229 [monotonic_pieces]. *)
Definition monotonic_pieces (c : rcubic) : list rpiece := pieces_from c 0 (piece_roots c).
