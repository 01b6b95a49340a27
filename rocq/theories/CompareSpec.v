(** What a reader needs to understand the property theorems about comparing two curves. *)
From Coq Require Import List Bool ZArith.
From Verif Require Import F64 F64Arith TreeVecModel GeomModel SegmentsModel CurveOrderModel CurveOrderSpec SweepModel SweepSpec PosModel CompareModel.
Import ListNotations.

(** A height whose double does not overflow. *)
Definition tame (y : f64) : Prop := fin (fadd y y) = true.

(** The heights two curves have in common. *)
Definition common_start (c0 c1 : cubic) : f64 := fmax (py (cb0 c0)) (py (cb0 c1)).
Definition common_end (c0 c1 : cubic) : f64 := fmin (py (cb3 c0)) (py (cb3 c1)).
Definition tame_curve (c : cubic) : Prop := tame (py (cb0 c)) /\ tame (py (cb3 c)).

(** A table for exactly the heights from [y0] to [y1]. *)
Definition table_between (y0 y1 : f64) (t : curve_order) : Prop :=
  table_wf t /\ co_start t = y0 /\ feq (table_end t) y1 = true.

(** Between [lo] and [hi], any two heights at least half an [accuracy] apart have another one strictly between them. *)
Definition resolved (accuracy lo hi : f64) : Prop := forall a b, fle lo a = true -> fle b hi = true ->
  fle (fmul fhalf accuracy) (fsub b a) = true -> exists z, flt a z = true /\ flt z b = true.

(** The part of a curve between two heights, as the comparison sees it. *)
Definition cut (sub : cubic -> f64 -> f64 -> cubic) (c : cubic) (y0 y1 : f64) : cubic :=
  mkCubic (mkPoint y0 (px (cb0 (sub c y0 y1)))) (cb1 (sub c y0 y1)) (cb2 (sub c y0 y1)) (mkPoint y1 (px (cb3 (sub c y0 y1)))).

(** Rotations nest at most [n] deep: between [lo] and [hi], wherever the two curves are so flat that the comparison rotates them, the rotated
    curves can again be compared in that way, with one rotation less; and all heights are tame and resolved. *)
Fixpoint calm (sub : cubic -> f64 -> f64 -> cubic) (rot : bool -> point -> point -> point) (accuracy : f64) (n : nat) (c0 c1 : cubic) (lo hi : f64) : Prop :=
  tame lo /\ tame hi /\ resolved accuracy lo hi /\
  forall y0 y1, fle lo y0 = true -> flt y0 y1 = true -> fle y1 hi = true ->
  forall flag center r0 r1, rotation rot (cut sub c0 y0 y1) (cut sub c1 y0 y1) y0 y1 = Some (flag, center, r0, r1) ->
    fge (common_start r0 r1) (common_end r0 r1) = true \/
    match n with
    | 0 => False
    | S n' => exists lo' hi', fle lo' (common_start r0 r1) = true /\ fle (common_end r0 r1) hi' = true /\ calm sub rot accuracy n' r0 r1 lo' hi'
    end.

(** Mapping a height of the rotated curves back to a height of the original ones. *)
Definition back (solve_x : cubic -> f64 -> f64) (unrot : bool -> point -> point -> point) (flag : bool) (center : point) (r0 r1 : cubic) (h : f64) : f64 :=
  py (unrot flag center (mkPoint h (fdiv (fadd (solve_x r0 h) (solve_x r1 h)) ftwo))).
(** Rotations keep the order of heights, and nest at most [n] deep. *)
Fixpoint steady (sub : cubic -> f64 -> f64 -> cubic) (solve_x : cubic -> f64 -> f64) (rot unrot : bool -> point -> point -> point) (n : nat) (c0 c1 : cubic) (lo hi : f64) : Prop :=
  forall y0 y1, fle lo y0 = true -> flt y0 y1 = true -> fle y1 hi = true ->
  forall flag center r0 r1, rotation rot (cut sub c0 y0 y1) (cut sub c1 y0 y1) y0 y1 = Some (flag, center, r0, r1) ->
    fge (common_start r0 r1) (common_end r0 r1) = true \/
    match n with
    | 0 => False
    | S n' => tame (common_start r0 r1) /\ tame (common_end r0 r1) /\
        (forall h h', fle (common_start r0 r1) h = true -> fle h h' = true -> fle h' (common_end r0 r1) = true ->
           fle (back solve_x unrot flag center r0 r1 h) (back solve_x unrot flag center r0 r1 h') = true) /\
        steady sub solve_x rot unrot n' r0 r1 (common_start r0 r1) (common_end r0 r1)
    end.

(** [cmp] answers like a comparison cache over the segments of [a] in which every comparison succeeds: the answer for two segments is the
    comparison of their curves with slop added, or the flipped one of the same two segments in the other order. *)
Definition answers_from (compare : cubic -> cubic -> res curve_order) (slop : f64) (a : arena) (cmp : nat -> nat -> curve_order) : Prop :=
  forall i j, i < arena_len a -> j < arena_len a -> i <> j -> slanted a i = true -> slanted a j = true ->
    fle (start_y a i) (end_y a j) = true -> fle (start_y a j) (end_y a i) = true ->
    (exists t, compare (to_cubic (seg_def a i)) (to_cubic (seg_def a j)) = Ok t /\ co_with_y_slop t slop = Some (cmp i j)) \/
    (exists t t', compare (to_cubic (seg_def a j)) (to_cubic (seg_def a i)) = Ok t /\ co_with_y_slop t slop = Some t' /\ cmp i j = co_flip t').
