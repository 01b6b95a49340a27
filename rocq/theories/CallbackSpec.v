(** What a reader needs to understand the theorem about the calls of [sweep]. *)
From Coq Require Import List Bool Arith.
From Verif Require Import F64 GeomModel SegmentsModel SegmentsSpec SweepModel SweepSpec RangeModel RangeSpec CallbackModel.
Import ListNotations.

(** The calls about segment [i]. *)
Definition about (i : nat) (l : list call) : list call := filter (fun c => ev_seg (snd c) =? i) l.

(** The events of [l] lead, one after the other, from [x0] to [x1] along one height, each going in the direction [dir]; the first is connected to the part of the
    segment above exactly if [up], the last to the part below exactly if [down], and the others to neither. *)
Inductive stretch (dir : f64 -> f64 -> bool) : f64 -> bool -> f64 -> bool -> list oevent -> Prop :=
| st_last e x0 up x1 down : feq (ev_x0 e) x0 = true -> ev_above e = up -> feq (ev_x1 e) x1 = true -> ev_below e = down -> dir (ev_x0 e) (ev_x1 e) = true ->
    stretch dir x0 up x1 down [e]
| st_more e l x0 up x1 down : feq (ev_x0 e) x0 = true -> ev_above e = up -> ev_below e = false -> dir (ev_x0 e) (ev_x1 e) = true ->
    stretch dir (ev_x1 e) false x1 down l -> stretch dir x0 up x1 down (e :: l).

Section Visits.
Variable a : arena.
Variable at_y : segment -> f64 -> f64.

(** The events about segment [i] at height [y], in the order of the calls: a point, or a stretch to the right, or a stretch to the left, reported from left to right
    nevertheless.  It is connected above if the segment starts above, and below if it ends below.  If the segment starts at this height, the stretch starts at
    its start; if it ends at this height, it ends at its end; or else all is at one point, the position of the segment at this height, or that of
    the segment that continues it. *)
Definition visit (i : nat) (y : f64) (l : list oevent) : Prop :=
  fle (start_y a i) y = true /\ fle y (end_y a i) = true /\
  let up := flt (start_y a i) y in let down := flt y (end_y a i) in
  exists x0 x1, ((stretch feq x0 up x1 down l /\ length l = 1) \/ stretch flt x0 up x1 down l \/ stretch fgt x0 up x1 down (rev l)) /\
    (((up = false -> x0 = start_x a i) /\ (down = false -> x1 = end_x a i)) \/
     (x0 = x1 /\ exists k, x0 = at_y (seg_def a k) y /\ (k = i \/ (feq (end_y a i) y = true /\ sweep_prev a k = Ok (Some i))))).

(** The visits of a segment: at increasing heights, the first at the height of its start and the last at the height of its end. *)
Definition visits (i : nat) (vs : list (f64 * list oevent)) : Prop :=
  (exists v vs', vs = v :: vs' /\ feq (fst v) (start_y a i) = true) /\
  (exists vs' v, vs = vs' ++ [v] /\ feq (fst v) (end_y a i) = true) /\
  (forall k v v', nth_error vs k = Some v -> nth_error vs (S k) = Some v' -> flt (fst v) (fst v') = true) /\
  Forall (fun v => visit i (fst v) (snd v)) vs.
End Visits.
