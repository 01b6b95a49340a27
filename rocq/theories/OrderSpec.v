(** What a reader needs to understand the theorems about the order of the segments on a sweep line. *)
From Coq Require Import List Bool ZArith Arith Reals.
From Verif Require Import F64 F64Arith TreeVecModel TreeVecSpec GeomModel SegmentsModel SegmentsSpec
  CurveOrderModel CurveOrderSpec SweepModel SweepSpec.
Import ListNotations.

(** Segment [i] reaches height [z] and goes on below it. *)
Definition goes_on (a : arena) (z : f64) (i : nat) : Prop := live a z i /\ (key z < key (end_y a i))%Z.

(** Segment [i] is at the horizontal position [X i z] at height [z].  The numerical routines of the sweep see
    these positions up to the tolerance [t]: the comparison used for ordering reports every pair that is out of
    order by more than [t]; the conservative comparison, and the comparison of bounding boxes, only report that
    one segment is to the left of another if it is so by [t] at least. *)
Record sees (a : arena) (eps : f64) (cmp ccmp : nat -> nat -> curve_order) (min_x max_x : segment -> f64)
  (X : nat -> f64 -> R) (t : R) : Prop := {
  se_t : (0 <= t)%R;
  se_cmp : forall i k z, nan z = false -> i <> k -> goes_on a z i -> goes_on a z k ->
    (X k z + t < X i z)%R -> eorder (cmp i k) z = Some Right;
  se_ccmp : forall i k z, nan z = false -> i <> k -> goes_on a z i -> goes_on a z k ->
    eorder (ccmp i k) z = Some Left -> (X i z + t <= X k z)%R;
  se_box_right : forall i k z, nan z = false -> i <> k -> goes_on a z i -> goes_on a z k ->
    flt (fadd (max_x (seg_def a i)) (fmul ftwo eps)) (min_x (seg_def a k)) = true -> (X i z + t <= X k z)%R;
  se_box_left : forall i k z, nan z = false -> i <> k -> goes_on a z i -> goes_on a z k ->
    fgt (fsub (min_x (seg_def a k)) (fmul ftwo eps)) (max_x (seg_def a i)) = true -> (X i z + t <= X k z)%R }.

(** [next_line] up to the point where the crossings are handled (sweep_line.rs:346-376). *)
Definition up_to_crossings (a : arena) (eps : f64) (cmp ccmp : nat -> nat -> curve_order) (min_x max_x : segment -> f64)
  (pp : (lentry -> bool) -> list lentry -> nat) (s : sweeper) (y : f64) : res sweeper :=
  do! s := advance s y in
  let enters := upto_y y (skipn (sw_next_enter s) (enter a)) in
  let s := with_counts s (sw_next_enter s + length enters) (sw_next_exit s) in
  do! s := enter_all a eps cmp ccmp min_x max_x pp s enters in
  let exits := upto_y y (skipn (sw_next_exit s) (exit_ a)) in
  let s := with_counts s (sw_next_enter s) (sw_next_exit s + length exits) in
  exit_all a eps cmp ccmp min_x max_x s exits.

(** In the step from the state [s], crossings are not handled at a height where a segment leaves the line:
    when the crossings are about to be handled, either no entry is leaving, or no crossing is due. *)
Definition no_exit_at_crossing (a : arena) (eps : f64) (cmp ccmp : nat -> nat -> curve_order) (min_x max_x : segment -> f64)
  (pp : (lentry -> bool) -> list lentry -> nat) (s : sweeper) : Prop :=
  forall y m, next_y a s = Some y -> up_to_crossings a eps cmp ccmp min_x max_x pp s y = Ok m ->
    (forall e, In e (sw_line m) -> really_exits e = false) \/
    (forall ev, In ev (sw_int m) -> flt y (ie_y ev) = true).

(** [x] comes before [y] in the list. *)
Definition comes_before {A : Type} (l : list A) (x y : A) : Prop := exists l1 M l2, l = l1 ++ x :: M ++ y :: l2.

(** The height [z] is at or below the line of [s], and above the next line. *)
Definition until_next (a : arena) (s : sweeper) (z : f64) : Prop :=
  nan z = false /\ fle (sw_y s) z = true /\ forall y', next_y a s = Some y' -> flt z y' = true.
