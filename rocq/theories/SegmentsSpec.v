(** Specification of the segment arena: what a user reads back after a history of additions. *)
From Coq Require Import List Bool ZArith Permutation Sorted.
From Verif Require Import F64 F64Arith TreeVecModel GeomModel SegmentsModel.
Import ListNotations.

(** ** Sorting *)

(** A comparator that is a total preorder on the elements of [l]. *)
Definition preorder_on {A} (cmp : A -> A -> comparison) (l : list A) : Prop :=
  (forall x y, In x l -> In y l -> cmp y x = CompOpp (cmp x y)) /\
  (forall x y z, In x l -> In y l -> In z l -> cmp x y <> Gt -> cmp y z <> Gt -> cmp x z <> Gt).

(** What the documentation of [slice::sort_by] promises: always a rearrangement, and sorted if
    the comparator is a total preorder on the elements. *)
Definition sort_spec {A} (sort : (A -> A -> comparison) -> list A -> list A) : Prop :=
  (forall cmp l, Permutation l (sort cmp l)) /\
  (forall cmp l, preorder_on cmp l -> StronglySorted (fun a b => cmp a b <> Gt) (sort cmp l)).

(** [Segment::at_y] at the start height of [s] is a number, and does not distinguish the two zeros.
    (It is only ever called at that height by the arena.) *)
Definition at_y_ok (at_y : segment -> f64 -> f64) (s : segment) : Prop :=
  forall y, feq y (py (seg_start s)) = true ->
    nan (at_y s y) = false /\ feq (at_y s y) (at_y s (py (seg_start s))) = true.

(** ** Contours *)

(** One directed edge of the input: where it starts and ends, which parameter range of which
    input segment it is. *)
Record edge : Type := mkEdge {
  e_from : point; e_to : point; e_t : f64 * f64; e_inp : pathseg }.

Definition line_edge (p q : point) : edge := mkEdge p q (fzero, fone) (PLine p q).

Definition p00 : point := mkPoint fzero fzero.

(** The edges of an open and of a closed polyline (no edges if there is at most one point). *)
Definition open_edges (ps : list point) : list edge :=
  map (fun i => line_edge (nth i ps p00) (nth (S i) ps p00)) (seq 0 (length ps - 1)).
Definition closed_edges (ps : list point) : list edge :=
  if length ps <=? 1 then [] else
  map (fun i => line_edge (nth i ps p00) (nth (S i mod length ps) ps p00)) (seq 0 (length ps)).

(** A contour as stored in the arena: [KOpen] has no neighbours at its ends, [KClosed] is linked
    to itself, [KDangling] is what an open bezier subpath leaves behind. *)
Inductive kind := KOpen | KClosed | KDangling.

(** [registered]: does the contour take part in the entrance and exit lists? *)
Record contour : Type := mkContour { ckind : kind; registered : bool; edges : list edge }.

Definition all_edges (cs : list contour) : list edge := flat_map edges cs.

(** The contour neighbours in index space: contour by contour, [o] the index of the first edge. *)
Definition prev_of (k : kind) (o n j : nat) : option nat :=
  match j, k with
  | 0, KOpen => None
  | 0, KClosed => Some (o + n - 1)
  | 0, KDangling => Some (o - 1)
  | S j', _ => Some (o + j')
  end.
Definition next_of (k : kind) (o n j : nat) : option nat :=
  if S j =? n then match k with KOpen => None | KClosed => Some o | KDangling => Some (o + n) end
  else Some (o + S j).

Fixpoint links (f : kind -> nat -> nat -> nat -> option nat) (o : nat) (cs : list contour)
  : list (option nat) :=
  match cs with
  | [] => []
  | c :: cs' =>
      let n := length (edges c) in
      map (f (ckind c) o n) (seq 0 n) ++ links f (o + n) cs'
  end.

(** Indices of the edges of registered contours. *)
Fixpoint registered_from (o : nat) (cs : list contour) : list nat :=
  match cs with
  | [] => []
  | c :: cs' =>
      let n := length (edges c) in
      (if registered c then seq o n else []) ++ registered_from (o + n) cs'
  end.

(** ** Segments *)

(** A stored segment: start before end; a cubic rises strictly and its control points do not
    leave its end points on the wrong side. *)
Definition seg_wf (s : segment) : Prop :=
  point_le (seg_start s) (seg_end s) = true /\
  match s with
  | SLine _ _ => True
  | SCubic p0 p1 p2 p3 =>
      flt (py p0) (py p3) = true /\ fle (py p0) (py p1) = true /\ fle (py p2) (py p3) = true
  end.

Definition read_from (so : segment * bool) : point :=
  if snd so then seg_start (fst so) else seg_end (fst so).
Definition read_to (so : segment * bool) : point :=
  if snd so then seg_end (fst so) else seg_start (fst so).

(** The arena [a] stores exactly the contours [cs]. *)
Record stores (cs : list contour) (a : arena) : Prop := {
  st_orient : length (orientation a) = length (segs a);
  st_from : map read_from (combine (segs a) (orientation a)) = map e_from (all_edges cs);
  st_to : map read_to (combine (segs a) (orientation a)) = map e_to (all_edges cs);
  st_t : split_from a = map e_t (all_edges cs);
  st_inp : input_segs a = map e_inp (all_edges cs);
  st_prev : contour_prev a = links prev_of 0 cs;
  st_next : contour_next a = links next_of 0 cs;
  st_wf : Forall seg_wf (segs a);
  st_enter : Permutation (enter a)
     (map (fun i => (py (seg_start (nth i (segs a) (SLine p00 p00))), i)) (registered_from 0 cs));
  st_exit : Permutation (exit_ a)
     (map (fun i => (py (seg_end (nth i (segs a) (SLine p00 p00))), i))
        (filter (fun i => let s := nth i (segs a) (SLine p00 p00) in
                          negb (feq (py (seg_start s)) (py (seg_end s)))) (registered_from 0 cs)))
}.

(** ** The contours of an operation *)

Section Ops.
Variable eval : cubic -> f64 -> point.
Variable monic : f64 -> f64 -> f64 * f64.
Variable quad_ctrl : point -> point -> point -> point * point.

(** Parameters at which a curve is cut: 0, the interior critical points, 1. *)
Definition cuts (c : cubic) : list f64 :=
  [fzero] ++ filter (fun r => flt fzero r && flt r fone) (roots monic c) ++ [fone].

Fixpoint curve_edges (inp : pathseg) (c : cubic) (ts : list f64) : list edge :=
  match ts with
  | t0 :: ((t1 :: _) as ts') =>
      (if point_eq (eval c t0) (eval c t1) then []
       else [mkEdge (eval c t0) (eval c t1) (t0, t1) inp]) ++ curve_edges inp c ts'
  | _ => []
  end.

(** The edges of one input segment: a line is one edge unless it is a point; a curve is cut at
    its vertical extrema, and pieces that are points are dropped. *)
Definition pathseg_edges (s : pathseg) : list edge :=
  match s with
  | PLine p q => if point_eq p q then [] else [line_edge p q]
  | _ => curve_edges s (to_cubic quad_ctrl s) (cuts (to_cubic quad_ctrl s))
  end.
Definition subpath_edges (sub : list pathel) : list edge :=
  match kurbo_segments sub with Some ss => flat_map pathseg_edges ss | None => [] end.

(** Does the chain of edges return to its start? *)
Definition closes (es : list edge) : bool :=
  match es with
  | [] => true
  | e :: _ => point_eq (e_from e) (e_to (last es e))
  end.

Definition bez_contour (reg : bool) (es : list edge) : contour :=
  mkContour (if closes es then KClosed else KDangling) reg es.

(** The prefix of [l] up to and including the first element not satisfying [f]. *)
Fixpoint upto_first_bad {A} (f : A -> bool) (l : list A) : list A :=
  match l with
  | [] => []
  | x :: l' => x :: (if f x then upto_first_bad f l' else [])
  end.

(** Contours added by one operation, and whether it reports success. *)
Definition op_contours (op : seg_op) : list contour * bool :=
  match op with
  | OpPoints ps => ([mkContour KOpen true (open_edges ps)], true)
  | OpClosed pss => (map (fun ps => mkContour KClosed true (closed_edges ps)) pss, true)
  | OpBez must_be_closed p =>
      let ess := map subpath_edges (subpaths p) in
      if must_be_closed && negb (forallb closes ess)
      then (map (bez_contour false) (upto_first_bad closes ess), false)
      else (map (bez_contour true) ess, true)
  end.

Definition history_contours (ops : list seg_op) : list contour :=
  flat_map (fun op => fst (op_contours op)) ops.
End Ops.

(** ** Histories *)

Section Histories.
Variable eval : cubic -> f64 -> point.
Variable ctrl : cubic -> f64 -> f64 -> point * point.
Variable monic : f64 -> f64 -> f64 * f64.
Variable quad_ctrl : point -> point -> point -> point * point.
Variable at_y : segment -> f64 -> f64.
Variable sort_by : ((f64 * nat) -> (f64 * nat) -> comparison) -> list (f64 * nat) -> list (f64 * nat).

(** Apply the operations one after the other, going on after a [NonClosedPath] error; [None] if
    one of them panics. *)
Fixpoint run (a : arena) (ops : list seg_op) : option (arena * list bool) :=
  match ops with
  | [] => Some (a, [])
  | op :: ops' =>
      match apply_op eval ctrl monic quad_ctrl at_y sort_by a op with
      | AddOk a' => let! r := run a' ops' in Some (fst r, true :: snd r)
      | AddErr a' _ _ => let! r := run a' ops' in Some (fst r, false :: snd r)
      | AddPanic => None
      end
  end.
End Histories.

(** Finite coordinates. *)
Definition point_fin (p : point) : Prop := fin (px p) = true /\ fin (py p) = true.

(** Two points with equal coordinates ([-0.0] equals [0.0]; a NaN point only equals itself). *)
Definition same_point (p q : point) : Prop := p = q \/ point_eq p q = true.

