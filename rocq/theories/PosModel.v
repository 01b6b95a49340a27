(** Model of src/position.rs: laying out the output curves in the decided order.

    Numerical helpers that live elsewhere are parameters: [sub] (the result of curve/mod.rs:385-394 [y_subsegment] before
    its end heights are set), [trans_after]/[trans_before] (curve/transverse.rs), [est] (curve/mod.rs
    [EstParab::from_cubic]); [pop] is [BinaryHeap::pop].  The comparison cache is the function [cmp] (see C14).  [dbg]
    says whether the debug assertions of [y_subsegment] are on; those of [trans_after] and [trans_before] are not
    modelled.  A [BezPath] is the list of its elements; [close_path] is never called here. *)
From Coq Require Import List Bool ZArith Arith.
From Flocq Require Import BinarySingleNaN.
From Verif Require Import F64 F64Arith TreeVecModel GeomModel SegmentsModel CurveOrderModel SweepModel TopoModel ScanModel.
Import ListNotations.

(** kurbo's [CubicBez]. *)
Record cubic : Set := mkCubic { cb0 : point; cb1 : point; cb2 : point; cb3 : point }.
(** curve/mod.rs:742-765 [EstParab]. *)
Record parab : Set := mkParab { pb_c0 : f64; pb_c1 : f64; pb_c2 : f64; pb_dmin : f64; pb_dmax : f64 }.
(** kurbo's [PathEl]. *)
Inductive pel : Set := MoveTo (p : point) | LineTo (p : point) | QuadTo (p q : point) | CurveTo (p q r : point).
Definition pel_end (e : pel) : point := match e with MoveTo p | LineTo p | QuadTo _ p | CurveTo _ _ p => p end.
Definition pel_set_end (e : pel) (z : point) : pel :=
  match e with MoveTo _ => MoveTo z | LineTo _ => LineTo z | QuadTo p _ => QuadTo p z | CurveTo p q _ => CurveTo p q z end.
(** position.rs:233-243 [PositionedOutputSeg]. *)
Record posn : Set := mkPosn { ps_path : list pel; ps_copied : option nat }.

(** position.rs:187-196 [HeapEntry]: a height and an output segment; [BinaryHeap] pops the greatest. *)
Definition qentry : Type := f64 * nat.
Definition entry_cmp (e f : qentry) : comparison :=
  match cof_cmp (fst f) (fst e) with Eq => Nat.compare (snd e) (snd f) | c => c end.

(** position.rs:204-216 [bez_end], [bez_end_y]. *)
Definition bez_end (path : list pel) : res point := do! e := orerr EIndex (last_opt path) in Ok (pel_end e).
Definition bez_end_y (path : list pel) : res f64 := do! p := bez_end path in Ok (py p).
(** geom.rs:300-302 [is_line]. *)
Definition is_line (s : segment) : bool := match s with SLine _ _ => true | SCubic _ _ _ _ => false end.

(** position.rs:122-144 [horizontal_error_weight]. *)
Definition fone : f64 := f64_of_Z 1.
Definition fsqrt (x : f64) : f64 := Bsqrt mode_NE x.
Definition different_signs (x y : f64) : bool := fgt x fzero && flt y fzero || flt x fzero && fgt y fzero.
Definition diff (p q : point) : point := mkPoint (fsub (py p) (py q)) (fsub (px p) (px q)).
Definition horizontal_error_weight (c : cubic) : f64 :=
  let v0 := diff (cb1 c) (cb0 c) in let v1 := diff (cb2 c) (cb1 c) in let v2 := diff (cb3 c) (cb2 c) in
  if different_signs (px v0) (px v1) || different_signs (px v1) (px v2) then fone else
  fold_left (fun weight v =>
    let denom := fsqrt (fadd (fmul (px v) (px v)) (fmul (py v) (py v))) in
    if fne denom fzero then fmax weight (fdiv (fabs (py v)) denom) else weight) [v0; v1; v2] fzero.

Section Positions.
Variable dbg : bool.
Variable a : arena.
Variable cmp : nat -> nat -> curve_order.
Variable sub : segment -> f64 -> f64 -> cubic.
Variables trans_after trans_before : cubic -> cubic -> f64 -> bool.
Variable est : cubic -> parab.
Variable pop : list qentry -> option (qentry * list qentry).
(** [orig_seg_map]; [endpoints], as pairs of first and second half; [scan_order]; [accuracy]. *)
Variable orig : list nat.
Variable ends : list (point * point).
Variable order : scan_order.
Variable accuracy : f64.

Definition start_of (o : nat) : res point := do! e := orerr EIndex (nth_error ends o) in Ok (fst e).
Definition stop_of (o : nat) : res point := do! e := orerr EIndex (nth_error ends o) in Ok (snd e).
Definition orig_of (o : nat) : res nat := orerr EIndex (nth_error orig o).
Definition seg_of (i : nat) : res segment := orerr EIndex (nth_error (segs a) i).

(** curve/mod.rs:385-394 [y_subsegment]. *)
Definition y_subsegment (s : segment) (y0 y1 : f64) : res cubic :=
  if dbg && negb (flt y0 y1 && (fle (py (seg_start s)) y0 && fle y1 (py (seg_end s)))) then Err EAssert else
  let c := sub s y0 y1 in Ok (mkCubic (mkPoint y0 (px (cb0 c))) (cb1 c) (cb2 c) (mkPoint y1 (px (cb3 c)))).
(** position.rs:218-226 [next_subsegment]. *)
Definition next_subsegment (s : segment) (path : list pel) (y1 : f64) (endpoint : point) : res cubic :=
  do! p0 := bez_end path in
  do! c := y_subsegment s (py p0) y1 in
  Ok (mkCubic p0 (cb1 c) (cb2 c) (if feq (py endpoint) y1 then endpoint else cb3 c)).

(** position.rs:157-180: the loop over the segments; [None] is [continue 'retry]. *)
Definition recenter (y_mid : f64) (c : cubic) : cubic :=
  let f p := mkPoint (fsub (py p) y_mid) (px p) in mkCubic (f (cb0 c)) (f (cb1 c)) (f (cb2 c)) (f (cb3 c)).
Fixpoint approximate_all (y0 y1 : f64) (is : list nat) : res (option (list parab)) :=
  match is with
  | [] => Ok (Some [])
  | i :: is =>
      do! s := seg_of i in
      do! c := y_subsegment s y0 y1 in
      let c := recenter (fmid y0 y1) c in
      let approx := est c in
      let factor := horizontal_error_weight c in
      let too_short := fle y1 (fadd y0 accuracy) in
      let accurate := flt (fmul (fmax (pb_dmax approx) (fneg (pb_dmin approx))) factor) accuracy in
      if negb too_short && negb accurate then Ok None else
      do! r := approximate_all y0 y1 is in Ok (option_map (cons approx) r)
  end.
(** position.rs:147-184 [approximate]: the height reached and the parabolas. *)
Fixpoint approximate (fuel : nat) (y0 y1 : f64) (is : list nat) : res (f64 * list parab) :=
  match fuel with
  | 0 => Err EFuel
  | S fuel =>
      do! r := approximate_all y0 y1 is in
      match r with
      | None => approximate fuel y0 (fmid y0 y1) is
      | Some l => Ok (y1, l)
      end
  end.

(** Appending one element to the path of an output segment. *)
Definition append (out : list posn) (o : nat) (e : pel) : res (list posn) :=
  do! p := orerr EIndex (nth_error out o) in orerr EIndex (upd out o (mkPosn (ps_path p ++ [e]) (ps_copied p))).
(** [elements().len() - 1] and appending: the element is marked as copied from the input. *)
Definition append_copied (out : list posn) (o : nat) (e : pel) : res (list posn) :=
  do! p := orerr EIndex (nth_error out o) in
  orerr EIndex (upd out o (mkPosn (ps_path p ++ [e]) (Some (length (ps_path p) - 1)))).

(** position.rs:97-114: one parabola for each segment between [y0] and [y1]; [xm], [xe] are the maxima so far. *)
Definition parab_mid (y0 y1 : f64) (q : parab) : f64 :=
  let m := fmid y0 y1 in fadd (pb_c0 q) (fmul (fmul (fsub y0 m) (fsub y1 m)) (pb_c2 q)).
Definition parab_end (y0 y1 : f64) (q : parab) : f64 :=
  let m := fmid y0 y1 in
  fadd (fadd (pb_c0 q) (fmul (pb_c1 q) (fsub y1 m))) (fmul (fmul (pb_c2 q) (fsub y1 m)) (fsub y1 m)).
Fixpoint quads (y0 y1 xm xe : f64) (l : list (parab * nat)) (out : list posn) : res (list posn) :=
  match l with
  | [] => Ok out
  | (q, o) :: l =>
      let xm := fmax xm (parab_mid y0 y1 q) in
      let xe := fmax xe (parab_end y0 y1 q) in
      do! out := append out o (QuadTo (mkPoint (fmid y0 y1) xm) (mkPoint y1 xe)) in
      quads y0 y1 xm xe l out
  end.
(** position.rs:92-118: approximating piece by piece. *)
Fixpoint pieces (fuel : nat) (y0 y1 : f64) (is os : list nat) (out : list posn) : res (list posn) :=
  match fuel with
  | 0 => Err EFuel
  | S fuel =>
      if flt y0 y1 then
        do! (next, l) := approximate fuel y0 y1 is in
        do! out := quads y0 next fneginf fneginf (combine l os) out in
        pieces fuel next y1 is os out
      else Ok out
  end.
(** position.rs:75-87: copying the input until [y0]. *)
Fixpoint catch_up (y0 : f64) (l : list (nat * nat)) (out : list posn) : res (list posn) :=
  match l with
  | [] => Ok out
  | (i, o) :: l =>
      do! p := orerr EIndex (nth_error out o) in
      do! y := bez_end_y (ps_path p) in
      do! out :=
        (if flt y y0 then
           do! endpoint := stop_of o in
           do! s := seg_of i in
           if is_line s then append_copied out o (LineTo endpoint)
           else do! c := next_subsegment s (ps_path p) y0 endpoint in append_copied out o (CurveTo (cb1 c) (cb2 c) (cb3 c))
         else Ok out) in
      catch_up y0 l out
  end.
(** position.rs:43-71: two curves that can be seen to be in order need no change. *)
Definition two_apart (is os : list nat) (out : list posn) (y0 y1 : f64) : res bool :=
  match is, os with
  | [i0; i1], o0 :: o1 :: _ =>
      do! s0 := seg_of i0 in do! s1 := seg_of i1 in
      do! out0 := orerr EIndex (nth_error out o0) in do! out1 := orerr EIndex (nth_error out o1) in
      do! p0 := bez_end (ps_path out0) in do! p1 := bez_end (ps_path out1) in
      do! q0 := stop_of o0 in do! q1 := stop_of o1 in
      do! after :=
        (if feq (py p0) y0 && feq (py p1) y0 then
           do! c0 := next_subsegment s0 (ps_path out0) y1 q0 in
           do! c1 := next_subsegment s1 (ps_path out1) y1 q1 in
           Ok (trans_after c0 c1 y1)
         else Ok false) in
      if (after : bool) then Ok true else
      if feq (py q0) y1 && feq (py q1) y1 then
        do! c0 := next_subsegment s0 (ps_path out0) y1 q0 in
        do! c1 := next_subsegment s1 (ps_path out1) y1 q1 in
        Ok (trans_before c0 c1 y0)
      else Ok false
  | _, _ => Ok false
  end.
Fixpoint all_lines (is : list nat) : res bool :=
  match is with
  | [] => Ok true
  | i :: is => do! s := seg_of i in if is_line s then all_lines is else Ok false
  end.
(** position.rs:27-119 [ordered_curves_all_close]. *)
Definition ordered_curves (fuel : nat) (is os : list nat) (out : list posn) (y0 y1 : f64) : res (list posn) :=
  do! b := all_lines is in
  if (b : bool) then Ok out else
  do! b := two_apart is os out y0 y1 in
  if (b : bool) then Ok out else
  do! out := catch_up y0 (combine is os) out in
  pieces fuel y0 y1 is os out.

(** position.rs:265-276: the start of every path, and the queue. *)
Fixpoint start_paths (n o : nat) : res (list posn * list qentry) :=
  match n with
  | 0 => Ok ([], [])
  | S n =>
      do! p := start_of o in
      do! q := stop_of o in
      do! (out, queue) := start_paths n (S o) in
      if feq (py p) (py q) then Ok (mkPosn [MoveTo p; LineTo q] (Some 0) :: out, queue)
      else Ok (mkPosn [MoveTo p] None :: out, (py p, o) :: queue)
  end.

(** position.rs:288-304 and 308-324: collecting the close neighbours on one side; the height until which that holds
    shrinks from [y1]. *)
Definition next_neighbour (west : bool) (o : nat) (y : f64) : res (option nat) :=
  if west then west_neighbor_after order o y else east_neighbor_after order o y.
Definition close_height (west : bool) (o : nat) (y : f64) : res (option f64) :=
  close_neighbor_height_after cmp orig (if west then so_west order else so_east order) o y.
Fixpoint collect (west : bool) (fuel : nat) (cur : nat) (y0 y1 : f64) : res (f64 * list nat) :=
  match fuel with
  | 0 => Err EFuel
  | S fuel =>
      do! n := next_neighbour west cur y0 in
      match n with
      | None => Ok (y1, [])
      | Some nbr =>
          do! j := orig_of nbr in
          do! i := orig_of cur in
          let c := if west then cmp j i else cmp i j in
          do! (_, cmp_end_y, cmp_order) := orerr EEntryAt (find (fun '(_, end_y, _) => fgt end_y y0) (co_iter c)) in
          if order_eqb cmp_order Left then
            do! h := close_height west cur y0 in
            let next_close_y := match h with Some h => h | None => finfinity end in
            Ok (fmin y1 (fmax next_close_y cmp_end_y), [])
          else
            do! q := stop_of nbr in
            do! (y1, l) := collect west fuel nbr y0 (fmin (fmin y1 cmp_end_y) (py q)) in
            Ok (y1, nbr :: l)
      end
  end.

(** position.rs:354-360: queueing the rest of each segment of the group. *)
Fixpoint requeue (y1 : f64) (l : list nat) (last_y : list f64) (queue : list qentry) : res (list f64 * list qentry) :=
  match l with
  | [] => Ok (last_y, queue)
  | o :: l =>
      do! q := stop_of o in
      let queue := if flt y1 (py q) then queue ++ [(y1, o)] else queue in
      do! last_y := orerr EIndex (upd last_y o y1) in
      requeue y1 l last_y queue
  end.
Fixpoint rmap_orig (l : list nat) : res (list nat) :=
  match l with [] => Ok [] | o :: l => do! i := orig_of o in do! l := rmap_orig l in Ok (i :: l) end.

Record pstate : Type := mkPS { st_out : list posn; st_last : list f64; st_queue : list qentry }.
(** position.rs:285-328: the group of segments around [o] that are close to each other from [y0] on, and until which height. *)
Definition group (fuel : nat) (o : nat) (y0 : f64) : res (f64 * list nat) :=
  do! q := stop_of o in
  do! (y1, ws) := collect true fuel o y0 (py q) in
  do! (y1, es) := collect false fuel o y0 y1 in
  Ok (y1, rev (o :: ws) ++ es).
(** position.rs:285-360: handling one entry. *)
Definition handle (fuel : nat) (y0 : f64) (o : nat) (s : pstate) : res pstate :=
  do! (y1, nbrs) := group fuel o y0 in
  do! out :=
    (if length nbrs =? 1 then
       if feq y0 y1 then do! q := stop_of o in append_copied (st_out s) o (LineTo q) else Ok (st_out s)
     else
       do! is := rmap_orig nbrs in
       ordered_curves fuel is nbrs (st_out s) y0 y1) in
  do! (last_y, queue) := requeue y1 nbrs (st_last s) (st_queue s) in
  Ok (mkPS out last_y queue).
(** position.rs:278-361: one turn of the loop; [None] when the queue is empty. *)
Definition turn (fuel : nat) (s : pstate) : res (option (qentry * pstate)) :=
  match pop (st_queue s) with
  | None => Ok None
  | Some ((y0, o), queue) =>
      let s := mkPS (st_out s) (st_last s) queue in
      do! ly := orerr EIndex (nth_error (st_last s) o) in
      if fgt ly y0 then Ok (Some ((y0, o), s)) else
      do! s := handle fuel y0 o s in Ok (Some ((y0, o), s))
  end.
Fixpoint turns (fuel n : nat) (s : pstate) : res pstate :=
  match n with
  | 0 => Err EFuel
  | S n =>
      do! r := turn fuel s in
      match r with None => Ok s | Some (_, s) => turns fuel n s end
  end.

(** position.rs:363-389: completing every path. *)
Definition finish (o : nat) (p : posn) : res posn :=
  do! endpoint := stop_of o in
  do! y := bez_end_y (ps_path p) in
  if flt y (py endpoint) then
    do! i := orig_of o in
    do! s := seg_of i in
    let copied := Some (length (ps_path p) - 1) in
    if is_line s then Ok (mkPosn (ps_path p ++ [LineTo endpoint]) copied)
    else do! c := next_subsegment s (ps_path p) (py endpoint) endpoint in
         Ok (mkPosn (ps_path p ++ [CurveTo (cb1 c) (cb2 c) (cb3 c)]) copied)
  else
    do! e := orerr EIndex (last_opt (ps_path p)) in
    Ok (mkPosn (removelast (ps_path p) ++ [pel_set_end e endpoint]) (ps_copied p)).
Fixpoint finish_all (o : nat) (l : list posn) : res (list posn) :=
  match l with [] => Ok [] | p :: l => do! p := finish o p in do! l := finish_all (S o) l in Ok (p :: l) end.

(** position.rs:250-391 [compute_positions]; [last_y] starts with [f64::default()], which is 0.0. *)
Definition compute_positions (fuel : nat) : res (list posn) :=
  let n := length orig in
  do! (out, queue) := start_paths n 0 in
  do! s := turns fuel fuel (mkPS out (repeat fzero n) queue) in
  finish_all 0 (st_out s).
End Positions.

(** topology.rs:1381-1403 [compute_positions]: the end points, the scan-line orders and a quarter of [eps]. *)
Definition ffour : f64 := f64_of_Z 4.
Definition end_points {W} (t : topo W) : res (list (point * point)) :=
  rmap (fun o => do! p := point_of t (first_half o) in do! q := point_of t (second_half o) in Ok (p, q)) (seq 0 (length (t_orig t))).
Definition topo_positions {W} (dbg : bool) (a : arena) (cmp : nat -> nat -> curve_order) (sub : segment -> f64 -> f64 -> cubic)
  (trans_after trans_before : cubic -> cubic -> f64 -> bool) (est : cubic -> parab) (pop : list qentry -> option (qentry * list qentry))
  (sort_by : forall A : Type, (A -> A -> comparison) -> list A -> list A) (eps : f64) (t : topo W) (fuel : nat) : res (list posn) :=
  do! ends := end_points t in
  do! m := build_scan_line_orders sort_by t in
  compute_positions dbg a cmp sub trans_after trans_before est pop (t_orig t) ends m (fdiv eps ffour) fuel.
