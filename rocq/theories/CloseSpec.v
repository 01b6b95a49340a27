(** When neighbours become close: what [close_west_neighbor_height_after] and [close_east_neighbor_height_after] look for. *)
From Coq Require Import List Bool.
From Verif Require Import F64 F64Arith TreeVecModel GeomModel SegmentsModel CurveOrderModel CurveOrderSpec SweepModel RangeModel TopoModel ScanModel.
Import ListNotations.

Section Spec.
Context {W : Type}.
Variable cmp : nat -> nat -> curve_order.

(** At height [h] the western (eastern) neighbour of output segment [o] is [n]. *)
Definition neighbour_at (m : scan_order) (west : bool) (o : nat) (h : f64) (n : nat) : Prop :=
  (if west then west_neighbor_after m o h else east_neighbor_after m o h) = Ok (Some n).
(** Output segments [o] and [n] are close from [h] on: the comparison of the input segments has a close interval starting there. *)
Definition becomes_close (t : topo W) (o n : nat) (h : f64) : Prop :=
  exists i j k e, nth_error (t_orig t) o = Some i /\ nth_error (t_orig t) n = Some j /\ interval (cmp i j) k h e Ish.
(** The query, as the code has it (topology.rs:1726-1755). *)
Definition close_after (t : topo W) (m : scan_order) (west : bool) (o : nat) (y : f64) : res (option f64) :=
  close_neighbor_height_after cmp (t_orig t) (if west then so_west m else so_east m) o y.
End Spec.
