(** Model of src/topology.rs:913-1123: drawing a contour from the positions of its output segments ([segs_to_path]), with the test whether two of
    them are joined again ([can_merge], [input_seg_t], [is_simple_point]).

    Parameters: [root] (curve/mod.rs:349-373, the rest of [solve_t_for_y] for a height strictly inside), [sub_input] (kurbo's
    [PathSeg::subsegment] followed by [as_path_el]).  [dbg] says whether the debug assertions are on.  A [BezPath] is the list of its elements; the [ClosePath] at the end of a contour is left out. *)
From Coq Require Import List Bool ZArith Arith.
From Verif Require Import F64 F64Arith TreeVecModel GeomModel SegmentsModel CurveOrderModel SweepModel TopoModel PosModel.
Import ListNotations.

(** kurbo's [BezPath::reverse_subpaths], for a path that is one [MoveTo] and then lines and curves: the element that starts at [p], backwards; all of them. *)
Definition pel_back (p : point) (e : pel) : res pel :=
  match e with
  | MoveTo _ => Err EUnreachable
  | LineTo _ => Ok (LineTo p)
  | QuadTo c _ => Ok (QuadTo c p)
  | CurveTo c d _ => Ok (CurveTo d c p)
  end.
Fixpoint back_els (p : point) (l acc : list pel) : res (list pel) :=
  match l with
  | [] => Ok acc
  | e :: l => do! b := pel_back p e in back_els (pel_end e) l (b :: acc)
  end.
Definition reverse_subpaths (path : list pel) : res (list pel) :=
  match path with
  | MoveTo p :: l => do! b := back_els p l [] in Ok (MoveTo (last (map pel_end l) p) :: b)
  | _ => Err EUnreachable
  end.

(** kurbo's [PathSeg::reverse]. *)
Definition pathseg_reverse (s : pathseg) : pathseg :=
  match s with
  | PLine p q => PLine q p
  | PQuad p c q => PQuad q c p
  | PCubic c => PCubic (GeomModel.mkCubic (c3 c) (c2 c) (c1 c) (c0 c))
  end.
(** [f64::clamp] between 0 and 1. *)
Definition clamp01 (x : f64) : f64 := let x := if flt x fzero then fzero else x in if fgt x fone then fone else x.

Section Path.
Variable dbg : bool.
Variable a : arena.
Context {W : Type}.
Variable t : topo W.
Variable positions : list posn.
Variable root : segment -> f64 -> f64.
Variable sub_input : pathseg -> f64 -> f64 -> pel.

(** curve/mod.rs:336-374 [solve_t_for_y]. *)
Definition solve_t (s : segment) (y : f64) : res f64 :=
  let y0 := py (seg_start s) in let y3 := py (seg_end s) in
  if dbg && negb (fle y0 y && fle y y3 && flt y0 y3) then Err EAssert else
  Ok (if feq y y0 then fzero else if feq y y3 then fone else root s y).
(** topology.rs:1114-1123 [input_seg_t]. *)
Definition input_seg_t (o : nat) (u : f64) : res f64 :=
  do! i := orerr EIndex (nth_error (t_orig t) o) in
  do! sp := orerr EIndex (nth_error (split_from a) i) in
  do! orient := orerr EIndex (nth_error (orientation a) i) in
  let d := fmul u (fsub (snd sp) (fst sp)) in
  Ok (clamp01 (if (orient : bool) then fadd (fst sp) d else fsub (snd sp) d)).
(** topology.rs:987-990 [is_simple_point]. *)
Definition is_simple_point (h : half) : res bool :=
  do! n := orerr EIndex (hv_get (t_nbrs t) h) in Ok (half_eqb (nb_cw n) (nb_ccw n)).
Definition some_eqb (x : option nat) (k : nat) : bool := match x with Some j => j =? k | None => false end.
(** topology.rs:1047-1112 [can_merge].  [elements().len() - 2] is a panic for a path with less than two elements (with overflow checks; the paths have two). *)
Definition can_merge (h : half) : res (option f64) :=
  do! pos := orerr EIndex (nth_error positions (h_idx h)) in
  do! i := orerr EIndex (nth_error (t_orig t) (h_idx h)) in
  do! s := orerr EIndex (nth_error (segs a) i) in
  do! hz := orerr EAssert (is_horizontal s) in
  if (hz : bool) then Ok None else
  do! extremal :=
    (if h_first h then Ok (some_eqb (ps_copied pos) 0)
     else if length (ps_path pos) <? 2 then Err EAssert else Ok (some_eqb (ps_copied pos) (length (ps_path pos) - 2))) in
  do! orient := orerr EIndex (nth_error (orientation a) i) in
  do! p := point_of t h in
  do! q := point_of t (other_half h) in
  do! sp := orerr EIndex (nth_error (split_from a) i) in
  do! r :=
    (if Bool.eqb (h_first h) orient then
       do! e := orerr EIndex (oriented_start a i) in
       if fgt (fst sp) fzero && (extremal : bool) && feq (py p) (py e) then
         do! u := solve_t s (py q) in do! v := input_seg_t (h_idx h) u in Ok (Some v)
       else Ok None
     else
       do! e := orerr EIndex (oriented_end a i) in
       if flt (snd sp) fone && (extremal : bool) && feq (py p) (py e) then
         do! u := solve_t s (py q) in do! v := input_seg_t (h_idx h) u in Ok (Some v)
       else Ok None) in
  do! simple := is_simple_point h in
  Ok (if (simple : bool) then r else None).

(** topology.rs:929-933: the first segment that cannot be merged into the previous one. *)
Fixpoint find_start (l : list half) (k : nat) : res nat :=
  match l with
  | [] => Err EStart
  | h :: l => do! m := can_merge (other_half h) in match m with None => Ok k | Some _ => find_start l (S k) end
  end.
(** topology.rs:936-949: the elements of a segment in the direction of the contour, without the initial [MoveTo]. *)
Definition oriented_els (h : half) : res (list pel) :=
  do! pos := orerr EIndex (nth_error positions (h_idx h)) in
  do! path := (if h_first h then reverse_subpaths (ps_path pos) else Ok (ps_path pos)) in
  Ok (tl path).
(** topology.rs:953-960: a part of the input curve. *)
Definition rebuilt (input : pathseg) (unfinished_t our_t : f64) : pel :=
  if fgt our_t unfinished_t then sub_input input unfinished_t our_t
  else sub_input (pathseg_reverse input) (fsub fone unfinished_t) (fsub fone our_t).
(** topology.rs:935-981: the loop over the segments. *)
Fixpoint draw (l : list half) (ret : list pel) (unfinished : option f64) : res (list pel) :=
  match l with
  | [] => Ok ret
  | h :: l =>
      do! els := oriented_els h in
      do! m := can_merge (other_half h) in
      match m, unfinished with
      | Some our_t, Some unfinished_t =>
          do! i := orerr EIndex (nth_error (t_orig t) (h_idx h)) in
          do! input := orerr EIndex (nth_error (input_segs a) i) in
          if match ret with [] => true | _ => false end then Err EIndex else
          let ret := removelast ret ++ [rebuilt input unfinished_t our_t] in
          do! n := can_merge h in
          draw l (ret ++ tl els) (match n with None => None | Some _ => unfinished end)
      | _, _ => do! n := can_merge h in draw l (ret ++ els) n
      end
  end.
(** topology.rs:913-985 [segs_to_path]. *)
Definition segs_to_path (l : list half) : res (list pel) :=
  do! k := find_start l 0 in
  do! h := orerr EIndex (nth_error l k) in
  do! p := point_of t (other_half h) in
  draw (skipn k l ++ firstn k l) [MoveTo p] None.
End Path.
