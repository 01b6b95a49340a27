(** Model of [CurveOrder] (src/curve/mod.rs:11-317): the table of horizontal orders of two
    curves over their common y range.  Panics are [None]. *)
From Coq Require Import List Bool ZArith.
From Verif Require Import F64 F64Arith.
Import ListNotations.

(** curve/mod.rs:717-725 [enum Order]. *)
Inductive order : Set := Right | Ish | Left.

(** [derive(PartialEq)]. *)
Definition order_eqb (a b : order) : bool :=
  match a, b with
  | Right, Right | Ish, Ish | Left, Left => true
  | _, _ => false
  end.

(** curve/mod.rs:727-736 [Order::flip]. *)
Definition order_flip (o : order) : order :=
  match o with Right => Left | Ish => Ish | Left => Right end.

(** curve/mod.rs:11-15 [CurveOrderEntry]. *)
Record entry : Set := mkEntry { e_end : f64; e_order : order }.

(** curve/mod.rs:17-28 [CurveOrderEntry::flip]. *)
Definition entry_flip (e : entry) : entry :=
  mkEntry (e_end e)
          (match e_order e with Right => Left | Ish => Ish | Left => Right end).

(** curve/mod.rs:58-61 [CurveOrder]. *)
Record curve_order : Set := mkCO { co_start : f64; co_cmps : list entry }.

(** curve/mod.rs:91-96 [CurveOrder::new]. *)
Definition co_new (start : f64) : curve_order := mkCO start [].

(** [Vec::last]. *)
Fixpoint last_opt {A} (l : list A) : option A :=
  match l with
  | [] => None
  | [x] => Some x
  | _ :: l' => last_opt l'
  end.

(** Replace the last element ([*last_mut().unwrap() = x]). *)
Fixpoint set_last {A} (l : list A) (x : A) : list A :=
  match l with
  | [] => []
  | [_] => [x]
  | y :: l' => y :: set_last l' x
  end.

(** curve/mod.rs:98-131 [CurveOrder::push].  The [debug_assert!]s are panics. *)
Definition co_push (c : curve_order) (end_ : f64) (o : order) : option curve_order :=
  match last_opt (co_cmps c) with
  | Some last =>
      if negb (fge end_ (e_end last)) then None else
      match e_order last, o with
      | Right, Right | Left, Left | Ish, Ish =>
          Some (mkCO (co_start c) (set_last (co_cmps c) (mkEntry end_ (e_order last))))
      | Right, Left | Left, Right =>
          Some (mkCO (co_start c) (co_cmps c ++ [mkEntry end_ Ish; mkEntry end_ o]))
      | _, _ =>
          if fgt end_ (e_end last)
          then Some (mkCO (co_start c) (co_cmps c ++ [mkEntry end_ o]))
          else Some c
      end
  | None => Some (mkCO (co_start c) (co_cmps c ++ [mkEntry end_ o]))
  end.

(** A sequence of pushes. *)
Fixpoint co_pushes (c : curve_order) (l : list (f64 * order)) : option curve_order :=
  match l with
  | [] => Some c
  | (e, o) :: l' => match co_push c e o with Some c' => co_pushes c' l' | None => None end
  end.

(** curve/mod.rs:63-67, 78-87, 134-139 [CurveOrder::iter]: the intervals [(start, end, order)]. *)
Fixpoint co_iter_from (start : f64) (l : list entry) : list (f64 * f64 * order) :=
  match l with
  | [] => []
  | e :: l' => (start, e_end e, e_order e) :: co_iter_from (e_end e) l'
  end.
Definition co_iter (c : curve_order) : list (f64 * f64 * order) :=
  co_iter_from (co_start c) (co_cmps c).

(** curve/mod.rs:142-147 [CurveOrder::flip]. *)
Definition co_flip (c : curve_order) : curve_order :=
  mkCO (co_start c) (map entry_flip (co_cmps c)).

(** [Iterator::skip_while] and [Iterator::find]. *)
Fixpoint skip_while {A} (p : A -> bool) (l : list A) : list A :=
  match l with
  | [] => []
  | x :: l' => if p x then skip_while p l' else l
  end.

(** curve/mod.rs:71-76 [CurveInteraction]. *)
Inductive interaction : Set := Cross (y : f64) | Touch (y : f64).

(** Outcome of [next_touch_after]: a value, the [unreachable!()] panic, or out of fuel. *)
Inductive touch_result : Set :=
| TR (o : option interaction)
| TRUnreachable
| TRFuel.

(** curve/mod.rs:155-186 [CurveOrder::next_touch_after].  The recursive call is on fuel. *)
Fixpoint next_touch_after (fuel : nat) (c : curve_order) (y : f64) : touch_result :=
  match fuel with
  | 0 => TRFuel
  | S fuel' =>
      match skip_while (fun '(_, _, o) => order_eqb o Left)
              (skip_while (fun '(_, e, _) => fle e y) (co_iter c)) with
      | [] => TR None
      | (y0, y1, o) :: iter =>
          if order_eqb o Right then TR (Some (Cross y)) else
          match iter with
          | [] => TR None
          | (_, next_y1, next_order) :: _ =>
              let cross_y := fmid y0 y1 in
              match next_order with
              | Right => TR (Some (Cross cross_y))
              | Left => if flt y y0 then TR (Some (Touch cross_y))
                        else next_touch_after fuel' c next_y1
              | Ish => TRUnreachable
              end
          end
      end
  end.
(** Enough fuel for every table: one call per interval (see [next_touch_after_total]). *)
Definition co_next_touch_after (c : curve_order) (y : f64) : touch_result :=
  next_touch_after (S (length (co_cmps c))) c y.

(** The body of the loop of [with_y_slop], curve/mod.rs:225-246, for one interval. *)
Definition slop_step (self_start last_end slop : f64) (ret : list entry)
  (i : f64 * f64 * order) : list entry :=
  let '(start, end_, o) := i in
  let new_end := if feq end_ last_end then end_ else fsub end_ slop in
  if negb (order_eqb o Ish) then
    let new_start := if feq start self_start then start else fadd start slop in
    if flt new_start new_end then
      (if fne new_start self_start then ret ++ [mkEntry new_start Ish] else ret)
      ++ [mkEntry new_end o]
    else ret
  else ret.

(** curve/mod.rs:211-259 [CurveOrder::with_y_slop]. *)
Definition co_with_y_slop (c : curve_order) (slop : f64) : option curve_order :=
  if feq slop fzero then Some c else
  match last_opt (co_cmps c) with
  | None => None (* unwrap *)
  | Some l =>
      let last_end := e_end l in
      if feq (co_start c) last_end then Some c else
      let ret := fold_left (slop_step (co_start c) last_end slop) (co_iter c) [] in
      let ret :=
        match last_opt ret with
        | Some last => if fne (e_end last) last_end then ret ++ [mkEntry last_end Ish] else ret
        | None => ret ++ [mkEntry last_end Ish]
        end in
      Some (mkCO (co_start c) ret)
  end.

(** curve/mod.rs:262-271 [CurveOrder::check_invariants]: [true] when no assertion fails. *)
Fixpoint check_entries (last : entry) (l : list entry) : bool :=
  match l with
  | [] => true
  | e :: l' =>
      fle (e_end last) (e_end e)
      && negb (order_eqb (e_order last) (e_order e))
      && (order_eqb (e_order last) Ish || order_eqb (e_order e) Ish)
      && check_entries e l'
  end.
Definition co_check (c : curve_order) : bool :=
  match co_cmps c with [] => false | e :: l => check_entries e l end.

(** curve/mod.rs:284-289 [CurveOrder::order_at]. *)
Definition co_order_at (c : curve_order) (y : f64) : option order :=
  match find (fun '(_, e, _) => fge e y) (co_iter c) with
  | Some (_, _, o) => Some o
  | None => None
  end.

(** curve/mod.rs:296-298 [CurveOrder::entry_at]. *)
Definition co_entry_at (c : curve_order) (y : f64) : option (f64 * f64 * order) :=
  find (fun '(_, e, _) => fgt e y) (co_iter c).

(** curve/mod.rs:307-316 [CurveOrder::order_after]. *)
Definition co_order_after (c : curve_order) (y : f64) : option order :=
  match last_opt (co_cmps c) with
  | None => None
  | Some l =>
      if feq y (e_end l) then Some (e_order l)
      else
        Some match find (fun '(_, _, o) => negb (order_eqb o Ish))
                     (skip_while (fun '(_, e, _) => fle e y) (co_iter c)) with
             | Some (_, _, o) => o
             | None => Ish
             end
  end.
