(** Model of src/segments.rs: the segment arena. *)
From Coq Require Import List Bool ZArith.
From Verif Require Import F64 F64Arith TreeVecModel GeomModel.
Import ListNotations.

(** kurbo::PathEl and kurbo::PathSeg (quadratics carry their cubic elevation's end points in the
    same positions: [PQuad p0 p1 p2]). *)
Inductive pathel : Set :=
| MoveTo (p : point) | LineTo (p : point) | QuadTo (p1 p2 : point)
| CurveTo (p1 p2 p3 : point) | ClosePath.
Inductive pathseg : Set :=
| PLine (p0 p1 : point) | PQuad (p0 p1 p2 : point) | PCubic (c : cubic).

Definition is_moveto (e : pathel) : bool := match e with MoveTo _ => true | _ => false end.

(** segments.rs:132-152 [SubpathIter]: elements up to (not including) the next [MoveTo],
    except that the very first element is taken whatever it is. *)
Fixpoint take_subpath (started : bool) (l : list pathel) : list pathel * list pathel :=
  match l with
  | [] => ([], [])
  | e :: l' =>
      if is_moveto e && started then ([], l)
      else let '(a, b) := take_subpath true l' in (e :: a, b)
  end.

(** segments.rs:154-172 [Subpaths]: repeat while elements remain (fuel: one subpath consumes at
    least one element). *)
Fixpoint subpaths_fuel (fuel : nat) (l : list pathel) : list (list pathel) :=
  match fuel, l with
  | _, [] => []
  | O, _ => []
  | S f, _ => let '(a, b) := take_subpath false l in a :: subpaths_fuel f b
  end.
Definition subpaths (l : list pathel) : list (list pathel) := subpaths_fuel (length l) l.

(** kurbo::segments (the iterator of kurbo 0.11/0.12, not in /repo): [None] is its panic on a
    path starting with [ClosePath]. *)
Fixpoint ksegs (start last : point) (l : list pathel) : list pathseg :=
  match l with
  | [] => []
  | MoveTo p :: l' => ksegs p p l'
  | LineTo p :: l' => PLine last p :: ksegs start p l'
  | QuadTo p1 p2 :: l' => PQuad last p1 p2 :: ksegs start p2 l'
  | CurveTo p1 p2 p3 :: l' => PCubic (mkCubic last p1 p2 p3) :: ksegs start p3 l'
  | ClosePath :: l' =>
      if negb (point_eq last start) then PLine last start :: ksegs start start l'
      else ksegs start last l'
  end.
Definition kurbo_segments (l : list pathel) : option (list pathseg) :=
  match l with
  | [] => Some []
  | e :: _ =>
      match e with
      | ClosePath => None
      | MoveTo p | LineTo p => Some (ksegs p p l)
      | QuadTo _ p2 => Some (ksegs p2 p2 l)
      | CurveTo _ _ p3 => Some (ksegs p3 p3 l)
      end
  end.

(** segments.rs:36-59 [Segments]. *)
Record arena : Type := mkArena {
  segs : list segment;
  contour_prev : list (option nat);
  contour_next : list (option nat);
  orientation : list bool;
  split_from : list (f64 * f64);
  input_segs : list pathseg;
  enter : list (f64 * nat);
  exit_ : list (f64 * nat)
}.

(** [#[derive(Default)]]. *)
Definition arena_default : arena := mkArena [] [] [] [] [] [] [] [].

(** segments.rs:177-179 [len]. *)
Definition arena_len (a : arena) : nat := length (segs a).

(** segments.rs:197-217 [oriented_start], [oriented_end]; indexing out of bounds is [None]. *)
Definition oriented_start (a : arena) (i : nat) : option point :=
  let! s := nth_error (segs a) i in let! o := nth_error (orientation a) i in
  Some (if (o : bool) then seg_start s else seg_end s).
Definition oriented_end (a : arena) (i : nat) : option point :=
  let! s := nth_error (segs a) i in let! o := nth_error (orientation a) i in
  Some (if (o : bool) then seg_end s else seg_start s).

(** [v[i] = x] on a vector; out of bounds is a panic. *)
Fixpoint upd {A} (l : list A) (i : nat) (x : A) : option (list A) :=
  match l, i with
  | [], _ => None
  | _ :: l', 0 => Some (x :: l')
  | y :: l', S i' => let! r := upd l' i' x in Some (y :: r)
  end.

(** The six pushes at segments.rs:255-262, 338-344, 357-371, 408-415.  [saturating_sub] is the
    truncated subtraction of nat. *)
Definition push_seg (a : arena) (s : segment) (orient : bool) (t : f64 * f64) (inp : pathseg) : arena :=
  let segs' := segs a ++ [s] in
  mkArena segs' (contour_prev a ++ [Some (length segs' - 2)])
    (contour_next a ++ [Some (length segs')]) (orientation a ++ [orient])
    (split_from a ++ [t]) (input_segs a ++ [inp]) (enter a) (exit_ a).

(** segments.rs:124-130 [pairs], [cyclic_pairs]. *)
Fixpoint pairs {A} (l : list A) : list (A * A) :=
  match l with
  | x :: (y :: _) as l' => (x, y) :: pairs l'
  | _ => []
  end.
Definition cyclic_pairs {A} (l : list A) : list (A * A) :=
  pairs l ++ match l with [] => [] | x :: _ => [(last l x, x)] end.

(** The loop body of segments.rs:253-263 and 406-416. *)
Fixpoint push_edges (a : arena) (es : list (point * point)) : option arena :=
  match es with
  | [] => Some a
  | (p, q) :: es' =>
      let '(x, y, orient) := if point_lt p q then (p, q, true) else (q, p, false) in
      let! s := straight x y in
      push_edges (push_seg a s orient (fzero, fone) (PLine p q)) es'
  end.

(** [contour_prev[i] = x], [contour_next[j] = y]. *)
Definition set_links (a : arena) (i : nat) (x : option nat) (j : nat) (y : option nat) : option arena :=
  let! p := upd (contour_prev a) i x in
  let! n := upd (contour_next a) j y in
  Some (mkArena (segs a) p n (orientation a) (split_from a) (input_segs a) (enter a) (exit_ a)).

Section Arena.
Variable eval : cubic -> f64 -> point.
Variable ctrl : cubic -> f64 -> f64 -> point * point.
Variable monic : f64 -> f64 -> f64 * f64.
(** [PathSeg::to_cubic] of a quadratic: its two inner control points. *)
Variable quad_ctrl : point -> point -> point -> point * point.
(** [Segment::at_y] (geom.rs:327-344), used only to break ties between equal heights. *)
Variable at_y : segment -> f64 -> f64.
(** [slice::sort_by]. *)
Variable sort_by : ((f64 * nat) -> (f64 * nat) -> comparison) -> list (f64 * nat) -> list (f64 * nat).

(** segments.rs:433-442 [update_enter_exit]: the pushes. *)
Fixpoint register (ss : list segment) (i : nat) (en ex : list (f64 * nat)) :
  option (list (f64 * nat) * list (f64 * nat)) :=
  match ss with
  | [] => Some (en, ex)
  | s :: ss' =>
      let! h := is_horizontal s in
      register ss' (S i) (en ++ [(py (seg_start s), i)])
        (if (h : bool) then ex else ex ++ [(py (seg_end s), i)])
  end.

(** segments.rs:447-454: the comparison used to sort [enter] ([self.segs[..]] is in bounds; the
    default is never used). *)
Definition enter_cmp (ss : list segment) (a b : f64 * nat) : comparison :=
  match cof_cmp (fst a) (fst b) with
  | Eq => cof_cmp (at_y (nth (snd a) ss (SLine (mkPoint fzero fzero) (mkPoint fzero fzero))) (fst a))
                  (at_y (nth (snd b) ss (SLine (mkPoint fzero fzero) (mkPoint fzero fzero))) (fst a))
  | c => c
  end.
Definition exit_cmp (a b : f64 * nat) : comparison := cof_cmp (fst a) (fst b).

Definition update_enter_exit (a : arena) (old_len : nat) : option arena :=
  let! r := register (skipn old_len (segs a)) old_len (enter a) (exit_ a) in
  Some (mkArena (segs a) (contour_prev a) (contour_next a) (orientation a) (split_from a)
          (input_segs a) (sort_by (enter_cmp (segs a)) (fst r)) (sort_by exit_cmp (snd r))).

(** segments.rs:245-273 [add_points]. *)
Definition add_points (a : arena) (ps : list point) : option arena :=
  let old_len := arena_len a in
  if length ps <=? 1 then Some a else
  let! a1 := push_edges a (pairs ps) in
  let! a2 := if old_len <? arena_len a1
             then set_links a1 old_len None (arena_len a1 - 1) None else Some a1 in
  update_enter_exit a2 old_len.

(** segments.rs:395-424 [add_polyline_without_updating_enter_exit]. *)
Definition add_polyline (a : arena) (ps : list point) : option arena :=
  let old_len := arena_len a in
  if length ps <=? 1 then Some a else
  let! a1 := push_edges a (cyclic_pairs ps) in
  if old_len <? arena_len a1
  then set_links a1 old_len (Some (arena_len a1 - 1)) (arena_len a1 - 1) (Some old_len)
  else Some a1.

(** segments.rs:278-287 [add_closed_polylines]; [add_closed_polyline] (290-294) is the case of
    one polyline. *)
Fixpoint add_polylines (a : arena) (pss : list (list point)) : option arena :=
  match pss with
  | [] => Some a
  | ps :: pss' => let! a1 := add_polyline a ps in add_polylines a1 pss'
  end.
Definition add_closed_polylines (a : arena) (pss : list (list point)) : option arena :=
  let! a1 := add_polylines a pss in update_enter_exit a1 (arena_len a).

(** segments.rs:489-500 [to_cubic] on the non-line cases. *)
Definition to_cubic (s : pathseg) : cubic :=
  match s with
  | PLine p0 p1 => mkCubic p0 (klerp p0 p1 fthird) (klerp p0 p1 ftwothirds) p1
  | PQuad p0 p1 p2 => mkCubic p0 (fst (quad_ctrl p0 p1 p2)) (snd (quad_ctrl p0 p1 p2)) p2
  | PCubic c => c
  end.

(** [(a.y, a.x) <= (b.y, b.x)] on tuples of f64 (PartialOrd: false as soon as NaN decides). *)
Definition tuple_le (a b : point) : bool :=
  flt (py a) (py b) || (feq (py a) (py b) && fle (px a) (px b)).

(** segments.rs:350-372: one monotone piece. *)
Definition push_piece (a : arena) (inp : pathseg) (m : piece) : option arena :=
  let c := pc m in
  let '(p0, p1, p2, p3, orient) :=
    if tuple_le (c0 c) (c3 c) then (c0 c, c1 c, c2 c, c3 c, true) else (c3 c, c2 c, c1 c, c0 c, false) in
  let! p0 := from_kurbo p0 in let! p1 := from_kurbo p1 in
  let! p2 := from_kurbo p2 in let! p3 := from_kurbo p3 in
  let! s := monotonic_cubic p0 p1 p2 p3 in
  Some (push_seg a s orient (start_t m, end_t m) inp).

Fixpoint push_pieces (a : arena) (inp : pathseg) (ms : list piece) : option arena :=
  match ms with
  | [] => Some a
  | m :: ms' => let! a1 := push_piece a inp m in push_pieces a1 inp ms'
  end.

(** segments.rs:326-375: one kurbo segment. *)
Definition push_pathseg (a : arena) (s : pathseg) : option arena :=
  match s with
  | PLine p0 p1 =>
      let! p0 := from_kurbo p0 in let! p1 := from_kurbo p1 in
      let '(q0, q1, orient) := if point_le p0 p1 then (p0, p1, true) else (p1, p0, false) in
      if negb (point_eq q0 q1) then
        let! sg := straight q0 q1 in Some (push_seg a sg orient (fzero, fone) s)
      else Some a
  | _ =>
      let! ms := monotonic_pieces eval ctrl monic (to_cubic s) in
      push_pieces a s ms
  end.

Fixpoint push_pathsegs (a : arena) (l : list pathseg) : option arena :=
  match l with
  | [] => Some a
  | s :: l' => let! a1 := push_pathseg a s in push_pathsegs a1 l'
  end.

(** The [Result<(), NonClosedPath>] together with the arena as mutated so far. *)
Inductive add_result : Type :=
| AddOk (a : arena)
| AddErr (a : arena) (start_point end_point : point)
| AddPanic.

(** segments.rs:324-391: one subpath. *)
Definition add_subpath (must_be_closed : bool) (a : arena) (sub : list pathel) : add_result :=
  let old_len := arena_len a in
  match (let! ss := kurbo_segments sub in push_pathsegs a ss) with
  | None => AddPanic
  | Some a1 =>
      if old_len <? arena_len a1 then
        let start_idx := old_len in
        let end_idx := arena_len a1 - 1 in
        match oriented_start a1 start_idx, oriented_end a1 end_idx with
        | Some sp, Some ep =>
            if kpoint_eq sp ep then
              match set_links a1 start_idx (Some end_idx) end_idx (Some start_idx) with
              | Some a2 => AddOk a2
              | None => AddPanic
              end
            else if must_be_closed then AddErr a1 sp ep
            else AddOk a1
        | _, _ => AddPanic
        end
      else AddOk a1
  end.

(** segments.rs:316-393 [add_path_without_updating_enter_exit]. *)
Fixpoint add_subpaths (must_be_closed : bool) (a : arena) (subs : list (list pathel)) : add_result :=
  match subs with
  | [] => AddOk a
  | sub :: subs' =>
      match add_subpath must_be_closed a sub with
      | AddOk a1 => add_subpaths must_be_closed a1 subs'
      | r => r
      end
  end.

(** segments.rs:299-314 [add_bez_path] ([must_be_closed = true]) and [add_non_closed_bez_path]. *)
Definition add_bez_path (must_be_closed : bool) (a : arena) (p : list pathel) : add_result :=
  match add_subpaths must_be_closed a (subpaths p) with
  | AddOk a1 =>
      match update_enter_exit a1 (arena_len a) with Some a2 => AddOk a2 | None => AddPanic end
  | r => r
  end.

(** ** Histories *)

Inductive seg_op : Type :=
| OpPoints (ps : list point)
| OpClosed (pss : list (list point))
| OpBez (must_be_closed : bool) (p : list pathel).

Definition opt_result (o : option arena) : add_result :=
  match o with Some a => AddOk a | None => AddPanic end.
Definition apply_op (a : arena) (op : seg_op) : add_result :=
  match op with
  | OpPoints ps => opt_result (add_points a ps)
  | OpClosed pss => opt_result (add_closed_polylines a pss)
  | OpBez b p => add_bez_path b a p
  end.
End Arena.
