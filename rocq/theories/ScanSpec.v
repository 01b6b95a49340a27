(** Scan-line orders: what the western and eastern neighbours of output segments have to be. *)
From Coq Require Import List Bool Sorted.
From Verif Require Import F64 TreeVecModel CurveOrderModel SegmentsModel SweepModel SweepSpec TopoModel ScanModel.
Import ListNotations.

Section Spec.
Context {W : Type}.

(** Output segment [o] starts at height [h] or above it and ends below [h]; in particular it is not horizontal. *)
Definition crosses (t : topo W) (o : nat) (h : f64) : Prop :=
  exists p q, point_of t (first_half o) = Ok p /\ point_of t (second_half o) = Ok q /\ fle (py p) h = true /\ flt h (py q) = true.

(** The input segments just below height [h], from west to east: the order that the last sweep line at or above [h] ends up with. *)
Definition order_below (lines : list sweeper) (h : f64) : list nat :=
  fold_left (fun order s => if fle (sw_y s) h then new_segs (sw_line s) else order) lines [].

(** The last element of a list. *)
Definition final (l : list nat) : option nat := hd_error (rev l).

(** At height [h] the order [m] lists exactly the segments that cross [h], in the order of the sweep line, each next to its neighbours. *)
Definition exact_at (t : topo W) (lines : list sweeper) (m : scan_order) (h : f64) : Prop :=
  exists outs, NoDup outs /\ (forall o, In o outs <-> o < length (t_wind t) /\ crosses t o h) /\
    Forall2 (fun o i => nth_error (t_orig t) o = Some i) outs (order_below lines h) /\
    forall west o east, outs = west ++ o :: east -> west_neighbor_after m o h = Ok (final west) /\ east_neighbor_after m o h = Ok (hd_error east).

(** Each table has one row for each output segment, with strictly increasing heights. *)
Definition increasing (m : stable) : Prop := Forall (StronglySorted (fun e e' : sentry => flt (fst e) (fst e') = true)) m.
Definition scan_tables (t : topo W) (m : scan_order) : Prop :=
  length (so_west m) = length (t_wind t) /\ length (so_east m) = length (t_wind t) /\ increasing (so_west m) /\ increasing (so_east m).

(** Height [y] lies within segment [i] of the input, above its lower end. *)
Definition spans (a : arena) (i : nat) (y : f64) : Prop := fle (start_y a i) y = true /\ flt y (end_y a i) = true.
(** Output segment [o] and the input segment it comes from both cross height [y]. *)
Definition alive_at (a : arena) (t : topo W) (o : nat) (y : f64) : Prop :=
  o < length (t_wind t) /\ crosses t o y /\ exists i, nth_error (t_orig t) o = Some i /\ spans a i y.
(** Every entry of a table is at a height where the row's segment and the neighbour that is named cross; nobody is named as its own neighbour. *)
Definition names_alive (a : arena) (t : topo W) (m : stable) : Prop :=
  forall o row y n, nth_error m o = Some row -> In (y, n) row -> alive_at a t o y /\ forall e, n = Some e -> e <> o /\ alive_at a t e y.
End Spec.
