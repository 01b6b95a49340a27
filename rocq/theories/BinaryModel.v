(** Model of src/lib.rs [binary_op_with_eps] and [binary_op] as a whole: the parts modelled in FromPathsModel, TopoModel, PosModel, ContoursModel, PathModel and BinOpModel put together. *)
From Coq Require Import List Bool ZArith Arith.
From Verif Require Import F64 F64Arith TreeVecModel GeomModel SegmentsModel CurveOrderModel SweepModel TopoModel BinOpModel ContoursModel FromPathsModel ScanModel PosModel PathModel.
Import ListNotations.

(** What the code computes through kurbo, polycool, the standard library and the curve comparison: evaluation of curves and their monotone pieces, bounding boxes,
    comparisons of segments with their tolerance, horizontal boxes and positions, searching and sorting, the priority queue, and parts of curves. *)
Record numerics : Type := {
  nm_eval : GeomModel.cubic -> f64 -> point;
  nm_ctrl : GeomModel.cubic -> f64 -> f64 -> point * point;
  nm_monic : f64 -> f64 -> f64 * f64;
  nm_quad : point -> point -> point -> point * point;
  nm_bbox : list pathel -> list pathel -> bbox;
  nm_cmp : arena -> f64 -> nat -> nat -> curve_order;
  nm_ccmp : arena -> f64 -> nat -> nat -> curve_order;
  nm_pcmp : arena -> f64 -> nat -> nat -> curve_order;
  nm_close : arena -> f64 -> nat -> nat -> f64 -> f64 -> bool;
  nm_min_x : segment -> f64; nm_max_x : segment -> f64;
  nm_lower : segment -> f64 -> f64 -> f64; nm_upper : segment -> f64 -> f64 -> f64;
  nm_at_y : segment -> f64 -> f64;
  nm_pps : nat -> ((lentry -> bool) -> list lentry -> nat) * ((lentry -> bool) -> list lentry -> nat);
  nm_sort : forall A : Type, (A -> A -> comparison) -> list A -> list A;
  nm_pop : list qentry -> option (qentry * list qentry);
  nm_sub : segment -> f64 -> f64 -> PosModel.cubic;
  nm_after : PosModel.cubic -> PosModel.cubic -> f64 -> bool;
  nm_before : PosModel.cubic -> PosModel.cubic -> f64 -> bool;
  nm_est : PosModel.cubic -> parab;
  nm_root : segment -> f64 -> f64;
  nm_sub_input : pathseg -> f64 -> f64 -> pel }.

(** The contours with their paths; the three errors of lib.rs:60-73 [Error]; a panic while collecting the paths, or later (or fuel ran out). *)
Inductive outcome : Type :=
| Contoured (cs : list (contour * list pel))
| ErrInfinity
| ErrNaN
| ErrNonClosed (start_point end_point : point)
| PanicCollect
| Panic (e : err).

Section Op.
Variable N : numerics.
Variable dbg : bool.

(** topology.rs:1618-1624 [from_paths_binary]: the paths of the first shape have the tag [true], those of the second one [false]. *)
Definition collect_binary (pa pb : list pathel) : collected bool :=
  FromPathsModel.collect (nm_eval N) (nm_ctrl N) (nm_monic N) (nm_quad N) (nm_at_y N) (nm_sort N (f64 * nat)%type) [(pa, true); (pb, false)].
Definition sweep_binary (a : arena) (eps : f64) (fuel n : nat) : res (list sweeper * bool) :=
  sweep a eps (nm_cmp N a eps) (nm_ccmp N a eps) (nm_min_x N) (nm_max_x N) (nm_lower N) (nm_upper N) (nm_pps N) (nm_sort N) fuel n 0 (sweeper_new a).
Definition topology_binary (a : arena) (tag : list bool) (eps : f64) (fuel n : nat) : res (topo bwn) :=
  from_segments binary_i32_wops a tag eps (nm_cmp N a eps) (nm_ccmp N a eps) (nm_min_x N) (nm_max_x N) (nm_lower N) (nm_upper N) (nm_at_y N) (nm_pps N) (nm_sort N) (nm_close N a eps) fuel n.
Definition layout_binary (a : arena) (t : topo bwn) (eps : f64) (m : nat) : res (list posn) :=
  topo_positions false a (nm_pcmp N a eps) (nm_sub N) (nm_after N) (nm_before N) (nm_est N) (nm_pop N) (nm_sort N) eps t m.
(** topology.rs:1131-1307 [contours] with the paths of topology.rs:913-985.  (The code draws each contour as soon as it is found; here all are found first, which makes
    a difference only for which of two panics comes first.) *)
Definition contours_binary (a : arena) (t : topo bwn) (out : list posn) (r : fill_rule) (op : bin_op) : res (list (contour * list pel)) :=
  do! cs := contours t (inside r op) in
  rmap (fun c => do! p := segs_to_path dbg a t out (nm_root N) (nm_sub_input N) (c_segs c) in Ok (c, p)) cs.
(** lib.rs:123-166 [binary_op_with_eps]. *)
Definition binary_op_with_eps (pa pb : list pathel) (r : fill_rule) (op : bin_op) (eps : f64) (fuel n m : nat) : outcome :=
  match collect_binary pa pb with
  | NotClosed sp ep => ErrNonClosed sp ep
  | CollectPanic | CheckFailed => PanicCollect
  | Collected a tag =>
      match (do! t := topology_binary a tag eps fuel n in do! out := layout_binary a t eps m in contours_binary a t out r op) with
      | Ok cs => Contoured cs
      | Err e => Panic e
      end
  end.
(** lib.rs:93-116 [binary_op]. *)
Definition binary_op (pa pb : list pathel) (r : fill_rule) (op : bin_op) (fuel n m : nat) : outcome :=
  match choose_eps (nm_bbox N pa pb) with
  | inl EInfinity => ErrInfinity
  | inl ENaN => ErrNaN
  | inr eps => binary_op_with_eps pa pb r op eps fuel n m
  end.
End Op.
