(** Drawing contours: what the path of a contour has to be. *)
From Coq Require Import List Bool Sorted.
From Verif Require Import F64 F64Arith TreeVecModel GeomModel SegmentsModel CurveOrderModel SweepModel TopoModel TopoSpec PosModel PosSpec.
Import ListNotations.

(** The control points of an element that goes on from [p], and those of all elements of a path. *)
Definition control (p : point) (e : pel) : list point :=
  match e with MoveTo q => [q] | LineTo q => [p; q] | QuadTo c q => [p; c; q] | CurveTo c d q => [p; c; d; q] end.
Fixpoint controls (p : point) (l : list pel) : list (list point) :=
  match l with [] => [] | e :: l => control p e :: controls (pel_end e) l end.
(** A curve of the input, backwards. *)
Definition backwards (s : pathseg) : pathseg :=
  match s with
  | PLine p q => PLine q p
  | PQuad p c q => PQuad q c p
  | PCubic c => PCubic (GeomModel.mkCubic (c3 c) (c2 c) (c1 c) (c0 c))
  end.

Section Contour.
Context {W : Type}.
Variable a : arena.
Variable t : topo W.
Variable positions : list posn.
Variable root : segment -> f64 -> f64.
Variable sub_input : pathseg -> f64 -> f64 -> pel.

(** [l] draws the laid-out output segment of [h], towards its end [h]: the elements of its path, or the same curves backwards. *)
Definition along (h : half) (l : list pel) : Prop :=
  exists x p q rest, nth_error positions (h_idx h) = Some x /\ ps_path x = MoveTo p :: rest /\ ends_at t (other_half h) (if h_first h then q else p) /\ ends_at t h (if h_first h then p else q) /\
    option_map pel_end (last_opt rest) = Some q /\ Forall drawn rest /\ Forall drawn l /\
    if h_first h then controls q l = rev (map (@rev point) (controls p rest)) else l = rest.

(** [h] is an end of an output segment where an input curve was cut into monotone pieces: the piece is not horizontal, ends there, and not at an end of the
    input curve; exactly one other output segment ends at the point; and the element of the path that ends there is a copy of the input. *)
Definition cut (h : half) : Prop :=
  exists i s lo hi orient x p,
    nth_error (t_orig t) (h_idx h) = Some i /\ nth_error (segs a) i = Some s /\ nth_error (split_from a) i = Some (lo, hi) /\ nth_error (orientation a) i = Some orient /\
    nth_error positions (h_idx h) = Some x /\ ends_at t h p /\
    feq (py (seg_start s)) (py (seg_end s)) = false /\
    feq (py p) (py (if h_first h then seg_start s else seg_end s)) = true /\
    (if Bool.eqb (h_first h) orient then flt fzero lo = true else flt hi fone = true) /\
    cw t h = ccw t h /\
    ps_copied x = Some (if h_first h then 0 else length (ps_path x) - 2).
(** [v] is the parameter of the input curve that belongs to the height of the end [h]. *)
Definition param_at (h : half) (v : f64) : Prop :=
  exists i s lo hi orient p,
    nth_error (t_orig t) (h_idx h) = Some i /\ nth_error (segs a) i = Some s /\ nth_error (split_from a) i = Some (lo, hi) /\ nth_error (orientation a) i = Some orient /\ ends_at t h p /\
    let u := if feq (py p) (py (seg_start s)) then fzero else if feq (py p) (py (seg_end s)) then fone else root s (py p) in
    let w := if (orient : bool) then fadd lo (fmul u (fsub hi lo)) else fsub hi (fmul u (fsub hi lo)) in
    v = if flt w fzero then fzero else if flt fone w then fone else w.
(** Going from [h] on to [k] passes a cut of the input in both of them. *)
Definition rejoined (h k : half) : Prop := cut h /\ cut (other_half k).

(** The elements that are drawn for a run of output segments: those of a single segment; or, if the segments of the run are rejoined, those of the first one except the last
    one, a part of the input curve, and those of the last one except the first; all others consist of one element, which is left out. *)
Inductive run_drawn : list half -> list pel -> Prop :=
| run_one h l : along h l -> run_drawn [h] l
| run_many h g k u x y v i input t0 t1 : along h (u ++ [x]) -> Forall (fun k => exists x, along k [x]) g -> along k (y :: v) ->
    Sorted rejoined (h :: g ++ [k]) -> nth_error (t_orig t) (h_idx k) = Some i -> nth_error (input_segs a) i = Some input ->
    param_at (other_half h) t0 -> param_at k t1 ->
    run_drawn (h :: g ++ [k]) (u ++ (if flt t0 t1 then sub_input input t0 t1 else sub_input (backwards input) (fsub fone t0) (fsub fone t1)) :: v).
(** Two runs are not rejoined. *)
Definition separate (g g' : list half) : Prop := forall h k, last_opt g = Some h -> hd_error g' = Some k -> ~ rejoined h k.

(** [path] draws the closed walk [l]: it starts at a point of the walk and goes round it once, run by run. *)
Definition draws (l : list half) (path : list pel) : Prop :=
  exists n p runs ls h, path = MoveTo p :: concat ls /\ concat runs = skipn n l ++ firstn n l /\ Forall2 run_drawn runs ls /\ Sorted separate runs /\
    nth_error l n = Some h /\ ends_at t (other_half h) p /\ ~ cut (other_half h).
End Contour.
