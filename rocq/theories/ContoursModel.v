(** Model of [Topology::contours] and [Contours::grouped] (src/topology.rs).

    A contour carries, instead of its path, the list [segs] of half-segments from which [segs_to_path] makes the path (913-977): each
    is the end of an output segment, in the order in which the contour is walked.  The [debug_assert!]s of the code are [Err EAssert]. *)
From Coq Require Import List Bool ZArith Arith.
From Verif Require Import F64 F64Arith TreeVecModel GeomModel SegmentsModel CurveOrderModel SweepModel RangeModel TopoModel.
Import ListNotations.

(** topology.rs:1785-1880 [Contour]. *)
Record contour : Type := mkContour { c_segs : list half; c_parent : option nat; c_outer : bool }.
Definition with_segs (c : contour) (l : list half) : contour := mkContour l (c_parent c) (c_outer c).

Section Contours.
Context {W : Type}.
Variable t : topo W.
Variable inside : W -> bool.

(** [inside(self.winding_clockwise(h))], [inside(self.winding_counter_clockwise(h))] (topology.rs:890-906). *)
Definition in_cw (h : half) : res bool := do! w := orerr EIndex (winding_cw t h) in Ok (inside w).
Definition in_ccw (h : half) : res bool := do! w := orerr EIndex (winding_ccw t h) in Ok (inside w).
(** topology.rs:1154-1156 [bdy]. *)
Definition bdy (o : nat) : res bool :=
  do! x := in_cw (first_half o) in do! y := in_ccw (first_half o) in Ok (negb (Bool.eqb x y)).

(** The mutable state of [contours]: [ret.contours], [seg_contour], [visited], [last_visit]. *)
Record cstate : Type := mkCs {
  cs_contours : list contour; cs_seg : list (option nat); cs_visited : list bool; cs_last : list (option nat) }.

(** topology.rs:1176-1183: the closest segment to the west that is in the boundary, on fuel. *)
Fixpoint scan_left (fuel : nat) (west : option nat) : res (option nat) :=
  match fuel with
  | 0 => Err EFuel
  | S fuel =>
      match west with
      | None => Ok None
      | Some lf =>
          do! d := orerr EIndex (nth_error (t_deleted t) lf) in
          do! b := (if (d : bool) then Ok false else bdy lf) in
          if (d || negb b) then do! w := orerr EIndex (nth_error (t_west t) lf) in scan_left fuel w else Ok (Some lf)
      end
  end.
(** topology.rs:1184-1202: parent and orientation of a new contour. *)
Definition place (st : cstate) (west : option nat) : res contour :=
  match west with
  | None => Ok (mkContour [] None true)
  | Some west =>
      do! wc := orerr EIndex (nth_error (cs_seg st) west) in
      match wc with
      | None => Err EUnreachable
      | Some wc =>
          do! x := in_ccw (first_half west) in
          let outside := negb x in
          do! c := orerr EIndex (nth_error (cs_contours st) wc) in
          if Bool.eqb outside (c_outer c) then
            (if outside || match c_parent c with Some _ => true | None => false end
             then Ok (mkContour [] (c_parent c) outside) else Err EAssert)
          else Ok (mkContour [] (Some wc) (negb (c_outer c)))
      end
  end.

(** topology.rs:1230-1232: walk clockwise round a point to the next boundary segment, on fuel. *)
Fixpoint turn (fuel : nat) (nbr : half) : res half :=
  match fuel with
  | 0 => Err EFuel
  | S fuel =>
      do! x := in_cw nbr in
      if (x : bool) then do! n := orerr EIndex (hv_get (t_nbrs t) nbr) in turn fuel (nb_cw n) else Ok nbr
  end.

(** [for &seg in segs { seg_contour[seg.idx.0] = Some(c) }] (topology.rs:1254-1256, 1276-1278). *)
Fixpoint assign_contour (segs : list half) (c : nat) (v : list (option nat)) : res (list (option nat)) :=
  match segs with
  | [] => Ok v
  | h :: segs => do! v := orerr EIndex (upd v (h_idx h) (Some c)) in assign_contour segs c v
  end.
Definition point_idx (h : half) : res nat := do! p := orerr EIndex (hv_get (t_pidx t) h) in orerr EIndex p.

(** topology.rs:1240-1247: [last_visit[p]], unless it is a false positive from an earlier contour. *)
Definition recent (last : list (option nat)) (segs : list half) (p : nat) : res (option nat) :=
  do! v := orerr EIndex (nth_error last p) in
  match v with
  | None => Ok None
  | Some i =>
      match nth_error segs i with
      | None => Ok None
      | Some h => do! q := point_idx (other_half h) in Ok (if q =? p then Some i else None)
      end
  end.

(** topology.rs:1220-1275: the walk along the contour [ci], on fuel; [next] is the end of the segment being walked. *)
Fixpoint walk (fuel : nat) (ci : nat) (start next : half) (segs : list half) (st : cstate) : res (list half * cstate) :=
  match fuel with
  | 0 => Err EFuel
  | S fuel =>
      do! vis := orerr EIndex (upd (cs_visited st) (h_idx next) true) in
      let st := mkCs (cs_contours st) (cs_seg st) vis (cs_last st) in
      do! x := in_cw next in
      do! y := in_ccw next in
      if negb x || y then Err EAssert else
      do! n := orerr EIndex (hv_get (t_nbrs t) next) in
      do! z := in_ccw (nb_cw n) in
      if negb z then Err EAssert else
      do! nbr := turn (2 * length (t_wind t)) (nb_cw n) in
      let segs := segs ++ [next] in
      if half_eqb nbr start then Ok (segs, st) else
      do! p := point_idx nbr in
      do! lv := recent (cs_last st) segs p in
      match lv with
      | Some i =>
          let loop_idx := length (cs_contours st) in
          do! v := assign_contour (skipn i segs) loop_idx (cs_seg st) in
          do! c := orerr EIndex (nth_error (cs_contours st) ci) in
          let cs := cs_contours st ++ [mkContour (skipn i segs) (Some ci) (negb (c_outer c))] in
          walk fuel ci start (other_half nbr) (firstn i segs) (mkCs cs v (cs_visited st) (cs_last st))
      | None =>
          do! l := orerr EIndex (upd (cs_last st) p (Some (length segs))) in
          walk fuel ci start (other_half nbr) segs (mkCs (cs_contours st) (cs_seg st) (cs_visited st) l)
      end
  end.

(** topology.rs:1164-1280: one round of the loop over the output segments. *)
Definition contours_one (st : cstate) (idx : nat) : res cstate :=
  do! v := orerr EIndex (nth_error (cs_visited st) idx) in
  if (v : bool) then Ok st else
  do! b := bdy idx in
  if negb b then Ok st else
  let ci := length (cs_contours st) in
  do! w := orerr EIndex (nth_error (t_west t) idx) in
  do! west := scan_left (S (length (t_wind t))) w in
  do! c := place st west in
  let st := mkCs (cs_contours st ++ [c]) (cs_seg st) (cs_visited st) (cs_last st) in
  do! x := in_ccw (first_half idx) in
  let start := mkHalf idx x in
  let next := mkHalf idx (negb x) in
  do! p := point_idx start in
  do! l := orerr EIndex (upd (cs_last st) p (Some 0)) in
  do! z := in_ccw start in
  if negb z then Err EAssert else
  do! (segs, st) := walk (S (length (t_wind t))) ci start next [] (mkCs (cs_contours st) (cs_seg st) (cs_visited st) l) in
  do! v := assign_contour segs ci (cs_seg st) in
  do! c := orerr EIndex (nth_error (cs_contours st) ci) in
  do! cs := orerr EIndex (upd (cs_contours st) ci (with_segs c segs)) in
  Ok (mkCs cs v (cs_visited st) (cs_last st)).
Fixpoint contours_loop (idxs : list nat) (st : cstate) : res cstate :=
  match idxs with [] => Ok st | i :: idxs => do! st := contours_one st i in contours_loop idxs st end.
(** topology.rs:1131-1283 [contours]. *)
Definition contours : res (list contour) :=
  let n := length (t_wind t) in
  do! st := contours_loop (segment_indices t) (mkCs [] (repeat None n) (repeat false n) (repeat None (length (t_points t)))) in
  Ok (cs_contours st).
End Contours.

(** ** Grouping *)
(** topology.rs:1946-1954: the children of every contour, and the contours without parent. *)
Fixpoint children_loop (cs : list contour) (i : nat) (children : list (list nat)) (top : list nat) : res (list (list nat) * list nat) :=
  match cs with
  | [] => Ok (children, top)
  | c :: cs =>
      match c_parent c with
      | Some p =>
          do! l := orerr EIndex (nth_error children p) in
          do! children := orerr EIndex (upd children p (l ++ [i])) in
          children_loop cs (S i) children top
      | None => children_loop cs (S i) children (top ++ [i])
      end
  end.
(** topology.rs:1959-1964 [visit], on fuel. *)
Fixpoint visit (fuel : nat) (children : list (list nat)) (idx : nat) (acc : list nat) : res (list nat) :=
  match fuel with
  | 0 => Err EFuel
  | S fuel =>
      do! l := orerr EIndex (nth_error children idx) in
      (fix loop (l : list nat) (acc : list nat) : res (list nat) :=
         match l with [] => Ok acc | c :: l => do! acc := visit fuel children c acc in loop l acc end) l (acc ++ [idx])
  end.
(** topology.rs:1956-1967. *)
Fixpoint group_loop (fuel : nat) (children : list (list nat)) (top : list nat) : res (list (list nat)) :=
  match top with
  | [] => Ok []
  | i :: top => do! g := visit fuel children i [] in do! gs := group_loop fuel children top in Ok (g :: gs)
  end.
(** topology.rs:1945-1970 [grouped]. *)
Definition grouped (fuel : nat) (cs : list contour) : res (list (list nat)) :=
  do! (children, top) := children_loop cs 0 (repeat [] (length cs)) [] in
  group_loop fuel children top.
