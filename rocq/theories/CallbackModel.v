(** The function [sweep] that reports every output event to a callback. *)
From Coq Require Import List Bool Arith.
From Verif Require Import F64 GeomModel SegmentsModel CurveOrderModel SweepModel RangeModel.
Import ListNotations.

Section Calls.
Variable a : arena.
Variable eps : f64.
Variables cmp ccmp : nat -> nat -> curve_order.
Variables min_x max_x : segment -> f64.
Variables lower upper : segment -> f64 -> f64 -> f64.
Variable at_y : segment -> f64 -> f64.
Variable pps : nat -> ((lentry -> bool) -> list lentry -> nat) * ((lentry -> bool) -> list lentry -> nat).
Variable sort_by : forall A : Type, (A -> A -> comparison) -> list A -> list A.

(** A call of the callback: the height and the event (sweep/mod.rs:28). *)
Definition call : Type := (f64 * oevent)%type.

(** sweep/mod.rs:26-30: the batches of one range. *)
Fixpoint range_calls (fuel : nat) (y : f64) (r : srange) : res (list call) :=
  match fuel with
  | 0 => Err EFuel
  | S fuel =>
      do! b := rg_events_step sort_by r in
      match b with
      | None => Ok []
      | Some (evs, r) => do! l := range_calls fuel y r in Ok (map (pair y) evs ++ l)
      end
  end.
(** sweep/mod.rs:25-31: the ranges of one line, from interval [k]; [n] bounds their number.  [buf] is the reused buffer. *)
Fixpoint line_calls (fuel : nat) (s : sweeper) (n k : nat) (buf : list lentry) : res (list lentry * list call) :=
  match n with
  | 0 => Err EFuel
  | S n =>
      do! r := next_range a eps lower upper at_y sort_by s buf k in
      match r with
      | None => Ok (buf, [])
      | Some (evs, _, buf) =>
          do! c := range_calls fuel (sw_y s) (rg_new evs) in
          do! (buf, l) := line_calls fuel s n (S k) buf in
          Ok (buf, c ++ l)
      end
  end.
(** sweep/mod.rs:23-32: the lines after line [t], whose state is [s]; [n] bounds their number. *)
Fixpoint lines_calls (fuel n t : nat) (s : sweeper) (buf : list lentry) : res (list call) :=
  match n with
  | 0 => Err EFuel
  | S n =>
      do! r := next_line a eps cmp ccmp min_x max_x lower upper (fst (pps t)) (snd (pps t)) sort_by fuel s in
      match r with
      | None => Ok []
      | Some s =>
          do! (buf, c) := line_calls fuel s (S (length (sw_changed s))) 0 buf in
          do! l := lines_calls fuel n (S t) s buf in
          Ok (c ++ l)
      end
  end.
(** sweep/mod.rs:19-33 [sweep]: all calls, in order. *)
Definition sweep_calls (fuel n : nat) : res (list call) := lines_calls fuel n 0 (sweeper_new a) [].
End Calls.
