(** Model of src/topology.rs: the scan-line orders ([ScanLineOrder], [HalfScanLineOrder],
    [build_scan_line_orders]), which tell the western and eastern neighbours of output segments by height.

    Panics, including failed debug assertions, are [Err].  Comparing heights in [sort_by] panics if one is not a
    number, that is (since sorting two or more elements compares each of them) if there are two or more entries and
    one has no number. *)
From Coq Require Import List Bool ZArith Arith.
From Verif Require Import F64 F64Arith TreeVecModel GeomModel SegmentsModel CurveOrderModel SweepModel RangeModel TopoModel.
Import ListNotations.

(** topology.rs:1627-1632: one entry of a table is a height and the neighbour from there on; a table for each output segment. *)
Definition sentry : Type := f64 * option nat.
Definition stable : Type := list (list sentry).

(** topology.rs:1650-1663 [HalfScanLineOrder::iter], for the entries of one segment. *)
Definition half_iter (l : list sentry) : list (f64 * f64 * option nat) :=
  map (fun '((y0, seg), y1) => (y0, y1, seg)) (combine l (skipn 1 (map fst l) ++ [finfinity])).
(** [Iterator::take_while]. *)
Fixpoint take_while {A} (p : A -> bool) (l : list A) : list A :=
  match l with [] => [] | x :: l => if p x then x :: take_while p l else [] end.
(** topology.rs:1635-1641 [neighbor_after]. *)
Definition entries_neighbor_after (l : list sentry) (y : f64) : option nat :=
  match find (fun '(_, y1, _) => fgt y1 y) (take_while (fun '(y0, _, _) => fle y0 y) (half_iter l)) with
  | Some (_, _, seg) => seg
  | None => None
  end.
Definition neighbor_after (m : stable) (o : nat) (y : f64) : res (option nat) :=
  do! l := orerr EIndex (nth_error m o) in Ok (entries_neighbor_after l y).

(** topology.rs:1665-1691 [close_neighbor_height_after]; [cmp] is the comparison of input segments, [orig] maps output segments to input segments. *)
Section Close.
Variable cmp : nat -> nat -> curve_order.
Variable orig : list nat.
Definition next_close (c : curve_order) (y y1 : f64) : option f64 :=
  option_map (fun '(order_y0, _, _) => order_y0)
    (find (fun '(order_y0, _, _) => fge order_y0 y)
      (filter (fun '(_, _, o) => order_eqb o Ish) (take_while (fun '(order_y0, _, _) => flt order_y0 y1) (co_iter c)))).
Fixpoint close_loop (seg : nat) (y : f64) (l : list (f64 * f64 * option nat)) : res (option f64) :=
  match l with
  | [] => Ok None
  | (_, y1, other) :: l =>
      if fle y1 y then close_loop seg y l else
      match other with
      | None => close_loop seg y l
      | Some other =>
          do! s := orerr EIndex (nth_error orig seg) in
          do! s' := orerr EIndex (nth_error orig other) in
          match next_close (cmp s s') y y1 with
          | Some h => Ok (Some h)
          | None => close_loop seg y l
          end
      end
  end.
Definition close_neighbor_height_after (m : stable) (seg : nat) (y : f64) : res (option f64) :=
  do! l := orerr EIndex (nth_error m seg) in close_loop seg y (half_iter l).
End Close.

(** topology.rs:1693-1713 [ScanLineOrder], 1715-1724 [west_neighbor_after], [east_neighbor_after]. *)
Record scan_order : Type := mkScan { so_west : stable; so_east : stable }.
Definition west_neighbor_after (m : scan_order) (o : nat) (y : f64) : res (option nat) := neighbor_after (so_west m) o y.
Definition east_neighbor_after (m : scan_order) (o : nat) (y : f64) : res (option nat) := neighbor_after (so_east m) o y.

Section Build.
Context {W : Type}.
Variable sort_by : forall A : Type, (A -> A -> comparison) -> list A -> list A.
Variable t : topo W.

(** topology.rs:815-817 [is_horizontal]. *)
Definition is_horizontal (o : nat) : res bool :=
  do! p := point_of t (first_half o) in
  do! q := point_of t (second_half o) in
  Ok (feq (py p) (py q)).

(** [vec.push(e)] on one table. *)
Definition push (m : stable) (o : nat) (e : sentry) : res stable :=
  do! l := orerr EIndex (nth_error m o) in orerr EIndex (upd m o (l ++ [e])).
(** topology.rs:1327-1329, 1338-1340: the debug assertion that heights increase. *)
Definition check_later (m : stable) (o : nat) (y : f64) : res unit :=
  do! l := orerr EIndex (nth_error m o) in
  match last_opt l with
  | Some (last_y, _) => if fgt y last_y then Ok tt else Err EAssert
  | None => Ok tt
  end.

(** topology.rs:1314-1319. *)
Definition west_step (o : nat) (west : stable) : res stable :=
  do! h := is_horizontal o in
  if (h : bool) then Ok west else
  do! p := point_of t (first_half o) in
  do! n := orerr EIndex (nth_error (t_west t) o) in
  match n with None => Ok west | Some w => push west o (py p, Some w) end.
(** topology.rs:1321-1332. *)
Definition east_step (o : nat) (m : stable * stable) : res (stable * stable) :=
  let (west, east) := m in
  do! p := point_of t (first_half o) in
  do! n := orerr EIndex (nth_error (t_east t) o) in
  match n with
  | None => Ok (west, east)
  | Some e =>
      do! east := push east o (py p, Some e) in
      do! _ := check_later west e (py p) in
      do! west := push west e (py p, Some o) in
      Ok (west, east)
  end.
(** topology.rs:1334-1343. *)
Definition back_step (o : nat) (east : stable) : res stable :=
  do! h := is_horizontal o in
  if (h : bool) then Ok east else
  do! p := point_of t (first_half o) in
  do! n := orerr EIndex (nth_error (t_west t) o) in
  match n with
  | None => Ok east
  | Some w => do! _ := check_later east w (py p) in push east w (py p, Some o)
  end.
(** topology.rs:1349-1356. *)
Definition after_step (c : f64 * option nat * option nat) (m : stable * stable) : res (stable * stable) :=
  let (west, east) := m in
  let '(y, w, e) := c in
  do! west := match e with Some e => push west e (y, w) | None => Ok west end in
  do! east := match w with Some w => push east w (y, e) | None => Ok east end in
  Ok (west, east).
Fixpoint rfold {A B} (f : A -> B -> res B) (l : list A) (b : B) : res B :=
  match l with [] => Ok b | x :: l => do! b := f x b in rfold f l b end.

(** [Vec::dedup] of entries. *)
Definition sentry_eqb (x y : sentry) : bool := feq (fst x) (fst y) && opt_eqb (snd x) (snd y).
Fixpoint dedup_after (x : sentry) (l : list sentry) : list sentry :=
  match l with [] => [] | y :: l => if sentry_eqb y x then dedup_after x l else y :: dedup_after y l end.
Definition dedup (l : list sentry) : list sentry := match l with [] => [] | x :: l => x :: dedup_after x l end.
(** topology.rs:1357-1364: sorting by height and removing repetitions. *)
Definition tidy (l : list sentry) : res (list sentry) :=
  if (2 <=? length l) && existsb (fun e => nan (fst e)) l then Err EAssert else Ok (dedup (sort_by sentry (fun x y => cof_cmp (fst x) (fst y)) l)).
Fixpoint rmap {A B} (f : A -> res B) (l : list A) : res (list B) :=
  match l with [] => Ok [] | x :: l => do! y := f x in do! l := rmap f l in Ok (y :: l) end.

(** topology.rs:1299-1370 [build_scan_line_orders]. *)
Definition build_scan_line_orders : res scan_order :=
  let n := length (t_wind t) in
  let empty := repeat [] n in
  do! west := rfold west_step (seq 0 (length (t_west t))) empty in
  do! (west, east) := rfold east_step (seq 0 (length (t_east t))) (west, empty) in
  do! east := rfold back_step (seq 0 (length (t_west t))) east in
  do! (west, east) := rfold after_step (t_after t) (west, east) in
  do! west := rmap tidy west in
  do! east := rmap tidy east in
  Ok (mkScan west east).
End Build.
