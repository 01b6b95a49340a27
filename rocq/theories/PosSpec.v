(** Laying out the output curves: what the resulting paths and the order of work have to satisfy. *)
From Coq Require Import List Bool Sorted Permutation Reals.
From Flocq Require Import BinarySingleNaN.
From Verif Require Import F64 TreeVecModel GeomModel CurveOrderModel SegmentsModel SweepModel SweepSpec TopoModel ScanModel ScanSpec PosModel.
Import ListNotations.

(** ** Paths *)
Definition drawn (e : pel) : Prop := match e with MoveTo _ => False | _ => True end.
(** A path from [p] to [q] in one stroke, with the index of the copied part among its pieces. *)
Definition complete (p q : point) (x : posn) : Prop :=
  exists rest, ps_path x = MoveTo p :: rest /\ Forall drawn rest /\ option_map pel_end (last_opt rest) = Some q /\ (forall k, ps_copied x = Some k -> k < length rest).
(** None of its pieces begins or ends above [p] or below [q]. *)
Definition within (p q : point) (x : posn) : Prop := Forall (fun e => fle (py p) (py (pel_end e)) = true /\ fle (py (pel_end e)) (py q) = true) (ps_path x).

(** ** The queue *)
(** [BinaryHeap::pop]: takes out a greatest element, if there is one. *)
Definition heap_ok (pop : list qentry -> option (qentry * list qentry)) : Prop :=
  forall q, match pop q with
            | None => q = []
            | Some (e, r) => Permutation q (e :: r) /\ (Forall (fun e => nan (fst e) = false) q -> forall e', In e' q -> entry_cmp e' e <> Gt)
            end.

(** ** Groups of close curves *)
Section Groups.
Variable cmp : nat -> nat -> curve_order.
Variable orig : list nat.
Variable ends : list (point * point).
Variable order : scan_order.
(** Output segment [o] starts at height [h] or above it and ends below it. *)
Definition spans (o : nat) (h : f64) : Prop := exists p q, nth_error ends o = Some (p, q) /\ fle (py p) h = true /\ flt h (py q) = true.
(** The verdict of the comparison of two input segments just below [h]: the row of the table that extends below [h] first. *)
Definition verdict (h : f64) (i j : nat) : option (f64 * f64 * CurveOrderModel.order) := find (fun '(_, end_y, _) => fgt end_y h) (co_iter (cmp i j)).
(** [outs] lists the segments that span height [h] from west to east, as the scan-line orders have them. *)
Definition listed (h : f64) (outs : list nat) : Prop :=
  NoDup outs /\ (forall o, In o outs <-> o < length orig /\ spans o h) /\
  forall west o east, outs = west ++ o :: east -> west_neighbor_after order o h = Ok (final west) /\ east_neighbor_after order o h = Ok (hd_error east).
(** [x] and [x'], [x] in the west, are not seen to be in order just below [h], and that verdict holds at least until [y]. *)
Definition near (h y : f64) (x x' : nat) : Prop :=
  exists i j s e o, nth_error orig x = Some i /\ nth_error orig x' = Some j /\ verdict h i j = Some (s, e, o) /\ o <> Left /\ fle y e = true.
(** They are. *)
Definition apart (h : f64) (x x' : nat) : Prop :=
  exists i j s e, nth_error orig x = Some i /\ nth_error orig x' = Some j /\ verdict h i j = Some (s, e, Left).
(** [g] is the whole run of close neighbours around [o] at height [h], and is kept together until [y], where none of it has ended yet. *)
Definition grouped (h : f64) (o : nat) (y : f64) (g : list nat) : Prop :=
  exists west east, listed h (west ++ g ++ east) /\ In o g /\ flt h y = true /\
    (forall x p q, In x g -> nth_error ends x = Some (p, q) -> fle y (py q) = true) /\
    Sorted (near h y) g /\
    (forall z x g', final west = Some z -> g = x :: g' -> apart h z x) /\ (forall z x g', hd_error east = Some z -> g = g' ++ [x] -> apart h x z).
End Groups.

(** ** The order of work *)
(** Taking an entry from the queue, and the group that was laid out for it and until where, unless it was skipped. *)
Definition event : Type := qentry * option (f64 * list nat).
Section Runs.
Variable dbg : bool.
Variable a : arena.
Variable cmp : nat -> nat -> curve_order.
Variable sub : segment -> f64 -> f64 -> cubic.
Variables trans_after trans_before : cubic -> cubic -> f64 -> bool.
Variable est : cubic -> parab.
Variable pop : list qentry -> option (qentry * list qentry).
Variable orig : list nat.
Variable ends : list (point * point).
Variable order : scan_order.
Variable accuracy : f64.
Variable fuel : nat.
(** The loop runs from one state to another through these events. *)
Inductive run : pstate -> list event -> pstate -> Prop :=
| run_done s : pop (st_queue s) = None -> run s [] s
| run_skip s y o queue ly tr s' : pop (st_queue s) = Some ((y, o), queue) -> nth_error (st_last s) o = Some ly -> fgt ly y = true ->
    run (mkPS (st_out s) (st_last s) queue) tr s' -> run s (((y, o), None) :: tr) s'
| run_lay s y o queue ly y1 g s1 tr s' : pop (st_queue s) = Some ((y, o), queue) -> nth_error (st_last s) o = Some ly -> fgt ly y = false ->
    group cmp orig ends order fuel o y = Ok (y1, g) ->
    handle dbg a cmp sub trans_after trans_before est orig ends order accuracy fuel y o (mkPS (st_out s) (st_last s) queue) = Ok s1 ->
    run s1 tr s' -> run s (((y, o), Some (y1, g)) :: tr) s'.
End Runs.
(** Height [h] of output segment [o] was laid out together with its group. *)
Definition covered (tr : list event) (o : nat) (h : f64) : Prop :=
  exists y x y1 g, In ((y, x), Some (y1, g)) tr /\ In o g /\ fle y h = true /\ flt h y1 = true.
(** The heights taken from the queue never decrease. *)
Definition downwards (tr : list event) : Prop := StronglySorted (fun e e' => fle (fst (fst e)) (fst (fst e')) = true) tr.

(** ** Plain copies *)
(** The path of an output segment from [p] to [q] that is just its part of the input segment [s]. *)
Definition copy_of (sub : segment -> f64 -> f64 -> cubic) (s : segment) (p q : point) (x : posn) : Prop :=
  x = if feq (py p) (py q) || is_line s then mkPosn [MoveTo p; LineTo q] (Some 0)
      else mkPosn [MoveTo p; CurveTo (cb1 (sub s (py p) (py q))) (cb2 (sub s (py p) (py q))) q] (Some 0).

(** ** Curves side by side *)
(** Two paths that go on from [p] and [p'] in quadratic pieces of the same heights, the first west of the second in every point that is given. *)
Inductive beside : point -> point -> list pel -> list pel -> Prop :=
| beside_nil p p' : fle (px p) (px p') = true -> beside p p' [] []
| beside_cons p p' c c' e e' l l' : fle (px p) (px p') = true -> py c = py c' -> py e = py e' -> fle (px c) (px c') = true -> beside e e' l l' ->
    beside p p' (QuadTo c e :: l) (QuadTo c' e' :: l').
(** The point of a quadratic piece at a parameter. *)
Definition bez2 (x0 x1 x2 t : R) : R := ((1 - t) * (1 - t) * x0 + 2 * t * (1 - t) * x1 + t * t * x2)%R.
Definition quad_x (p c e : point) (t : R) : R := bez2 (B2R (px p)) (B2R (px c)) (B2R (px e)) t.
Definition quad_y (p c e : point) (t : R) : R := bez2 (B2R (py p)) (B2R (py c)) (B2R (py e)) t.
(** The quadratic pieces of a path that goes on from [p]. *)
Fixpoint quads_of (p : point) (l : list pel) : list (point * point * point) :=
  match l with
  | [] => []
  | QuadTo c e :: l => (p, c, e) :: quads_of e l
  | el :: l => quads_of (pel_end el) l
  end.

(** A path that goes upwards somewhere: one of its quadratic pieces has a point above the one it starts from. *)
Definition runs_back (x : posn) : Prop := exists pre e0 c e post (t : R), ps_path x = pre ++ e0 :: QuadTo c e :: post /\
  (0 <= t <= 1)%R /\ (quad_y (pel_end e0) c e t < B2R (py (pel_end e0)))%R.

(** ** Heights *)
(** Between the lowest and the highest height of the arena, adding [accuracy] makes a difference and adding two heights does not overflow. *)
Definition roomy (a : arena) (accuracy : f64) : Prop := exists lo hi,
  (forall i, i < arena_len a -> fle lo (start_y a i) = true /\ fle (end_y a i) hi = true) /\
  (forall y, fle lo y = true -> fle y hi = true -> flt y (fadd y accuracy) = true) /\
  (forall y z, fle lo y = true -> fle y hi = true -> fle lo z = true -> fle z hi = true -> fin (fadd y z) = true).
