(** What a reader needs to understand the property theorems about the sweep. *)
From Coq Require Import List Bool ZArith Arith Permutation Sorted.
From Verif Require Import F64 F64Arith TreeVecModel TreeVecSpec GeomModel SegmentsModel SegmentsSpec
  CurveOrderModel CurveOrderSpec SweepModel.
Import ListNotations.

Section Spec.
Variable a : arena.

(** The height at which segment [i] starts and ends, and whether it is non-horizontal. *)
Definition start_y (i : nat) : f64 := py (seg_start (seg_def a i)).
Definition end_y (i : nat) : f64 := py (seg_end (seg_def a i)).
Definition slanted (i : nat) : bool := flt (start_y i) (end_y i).
(** Segment [i] takes part in the sweep. *)
Definition registered (i : nat) : Prop := In i (map snd (enter a)).

(** An arena that can be swept: finite end points, each segment going down (horizontal ones to the right), the entrance list and the
    exit list sorted and listing every registered segment resp. every registered non-horizontal
    segment once at its own height, and contour neighbours meeting.  ([reachable_sweepable] shows
    that every arena built through the public constructors, other than by failed or open Bezier
    paths, is one.) *)
Record sweepable : Prop := {
  sp_finite : forall i, i < arena_len a -> point_fin (seg_start (seg_def a i)) /\ point_fin (seg_end (seg_def a i));
  sp_down : forall i, i < arena_len a ->
      fle (start_y i) (end_y i) = true /\ is_horizontal (seg_def a i) = Some (negb (slanted i));
  sp_right : forall i, i < arena_len a -> slanted i = false ->
      fle (px (seg_start (seg_def a i))) (px (seg_end (seg_def a i))) = true;
  sp_enter_nodup : NoDup (map snd (enter a));
  sp_enter : forall y i, In (y, i) (enter a) -> i < arena_len a /\ y = start_y i;
  sp_enter_sorted : StronglySorted (fun p q => fle (fst p) (fst q) = true) (enter a);
  sp_exit_nodup : NoDup (map snd (exit_ a));
  sp_exit : forall y i, In (y, i) (exit_ a) <-> registered i /\ slanted i = true /\ y = end_y i;
  sp_exit_sorted : StronglySorted (fun p q => fle (fst p) (fst q) = true) (exit_ a);
  sp_links : forall i, registered i -> exists o, sweep_prev a i = Ok o /\
      forall p, o = Some p -> p < arena_len a /\
        (flt (start_y p) (start_y i) = true -> point_eq (seg_end (seg_def a p)) (seg_start (seg_def a i)) = true)
}.

(** What a comparison table for segments [i] and [j] has to satisfy: it is well formed, ends where the
    shorter segment ends, has heights whose midpoints do not overflow, and contains a strict
    interval of zero height only at the very beginning of the common range. *)
Definition table_for (i j : nat) (c : curve_order) : Prop :=
  table_wf c /\
  feq (table_end c) (fmin (end_y i) (end_y j)) = true /\
  (forall s e, In s (heights c) -> In e (heights c) -> fin s = true /\ fin e = true /\ fin (fadd s e) = true) /\
  (forall k s e o, interval c k s e o -> strict o -> zero_height s e -> fle e (fmax (start_y i) (start_y j)) = true).

(** A comparison routine giving such a table for any two non-horizontal segments that overlap in
    height.  Nothing is assumed about the orders it reports. *)
Definition comparer_ok (cmp : nat -> nat -> curve_order) : Prop :=
  forall i j, i < arena_len a -> j < arena_len a -> i <> j -> slanted i = true -> slanted j = true ->
    fle (start_y i) (end_y j) = true -> fle (start_y j) (end_y i) = true ->
    table_for i j (cmp i j).

(** Segment [i] meets height [y]. *)
Definition live (y : f64) (i : nat) : Prop :=
  registered i /\ slanted i = true /\ (key (start_y i) <= key y <= key (end_y i))%Z.

(** ** Observations of a sweep line *)

(** The segments a line has just below / just above its height, from left to right (for the latter,
    if the entries are listed in the order they had before the crossings at this height). *)
Definition new_segs (l : list lentry) : list nat :=
  map le_seg (filter (fun e => negb (really_exits e)) l).
Definition old_of (e : lentry) : list nat :=
  match le_old_seg e with
  | Some p => [p]
  | None => if le_enter e then [] else [le_seg e]
  end.
Definition old_segs (l : list lentry) : list nat := flat_map old_of l.
(** All segments with an entry, two for a shared slot. *)
Definition members (l : list lentry) : list nat :=
  flat_map (fun e => le_seg e :: match le_old_seg e with Some p => [p] | None => [] end) l.
End Spec.

(** A search for the end of the prefix satisfying [p]: the contract [TreeVec::partition_point] keeps on
    every list (C04), sorted or not. *)
Definition search_ok {A : Type} (pp : (A -> bool) -> list A -> nat) : Prop :=
  forall p l, boundary p l (pp p l).
(** ... and, on a tree whose shape is not changed, it does not go down when more elements satisfy the
    predicate (C49). *)
Definition search_mono {A : Type} (pp : (A -> bool) -> list A -> nat) : Prop :=
  forall p q l l', Forall2 (fun x y => p x = true -> q y = true) l l' -> pp p l <= pp q l'.

(** Order of the first interval of [c] reaching beyond [y]. *)
Definition eorder (c : curve_order) (y : f64) : option order := option_map snd (co_entry_at c y).

(** Index [i] lies in the interval. *)
Definition in_interval (i : nat) (c : cinterval) : Prop := fst (ci_segs c) <= i < snd (ci_segs c).

(** Entry [e], now at index [i], stood at index [origin i e] before the crossings at this height. *)
Definition origin (i : nat) (e : lentry) : nat := match le_old_idx e with Some k => k | None => i end.

Fixpoint origins (k : nat) (l : list lentry) : list nat :=
  match l with [] => [] | e :: l' => origin k e :: origins (S k) l' end.
(** An entry without the marks set while intervals are computed. *)
Definition unmark (e : lentry) : lentry :=
  mkLE (le_seg e) (le_exit e) (le_enter e) (le_lower e) (le_upper e) false None (le_old_seg e).

(** ** What a line reports about a segment *)
Definition enters_in (a : arena) (s : sweeper) (i : nat) : Prop :=
  if slanted a i then exists e, In e (sw_line s) /\ le_seg e = i /\ le_enter e = true
  else In i (sw_horiz s).
Definition exits_in (s : sweeper) (i : nat) : Prop :=
  exists e, In e (sw_line s) /\ (le_old_seg e = Some i \/ (le_old_seg e = None /\ le_seg e = i /\ le_exit e = true)).

(** No entry lies entirely (by more than the tolerance) to the right of a later one. *)
Definition boxes_ordered (a : arena) (eps : f64) (lower upper : segment -> f64 -> f64 -> f64) (y : f64) (l : list lentry) : Prop :=
  forall i j e f, i <= j -> nth_error l i = Some e -> nth_error l j = Some f ->
    fle (fsub (lower (seg_def a (le_seg e)) y eps) eps) (fadd (upper (seg_def a (le_seg f)) y eps) eps) = true.

(** The changed intervals of a line are in order. *)
Record intervals_ok (a : arena) (eps : f64) (lower upper : segment -> f64 -> f64 -> f64) (s : sweeper) : Prop := {
  iv_bounds : forall c, In c (sw_changed s) -> fst (ci_segs c) <= snd (ci_segs c) <= length (sw_line s);
  iv_apart : StronglySorted (fun c d => snd (ci_segs c) < fst (ci_segs d)) (sw_changed s);
  (* every segment that enters, exits or moves is in an interval *)
  iv_cover : forall k e, nth_error (sw_line s) k = Some e ->
     le_enter e = true \/ le_exit e = true \/ origin k e <> k -> exists c, In c (sw_changed s) /\ in_interval k c;
  (* segments only move inside an interval *)
  iv_perm : forall c, In c (sw_changed s) ->
     Permutation (origins (fst (ci_segs c)) (firstn (snd (ci_segs c) - fst (ci_segs c)) (skipn (fst (ci_segs c)) (sw_line s))))
                 (seq (fst (ci_segs c)) (snd (ci_segs c) - fst (ci_segs c)));
  (* in an interval every entry knows its origin, if the entries are weakly ordered *)
  iv_known : boxes_ordered a eps lower upper (sw_y s) (sw_line s) ->
     forall c k e, In c (sw_changed s) -> in_interval k c -> nth_error (sw_line s) k = Some e -> le_old_idx e <> None;
  (* horizontals are sorted, and each belongs to exactly one interval *)
  iv_hsort : StronglySorted (fun h h' => fle (px (seg_start (seg_def a h))) (px (seg_start (seg_def a h'))) = true) (sw_horiz s);
  iv_hor : forall n, n < length (sw_horiz s) ->
     exists c q, In c (sw_changed s) /\ ci_hor c = Some q /\ fst q <= n < snd q /\
       forall c' q', In c' (sw_changed s) -> ci_hor c' = Some q' -> fst q' <= n < snd q' -> c' = c;
  iv_hbound : forall c q, In c (sw_changed s) -> ci_hor c = Some q -> fst q < snd q <= length (sw_horiz s)
}.

(** ** Crossings *)
(** [l] is a shuffle of [k], whose elements stay, and [m], whose elements move; both keep their order. *)
Inductive split_by {A : Type} (stays moves : A -> Prop) : list A -> list A -> list A -> Prop :=
| sb_nil : split_by stays moves [] [] []
| sb_stay x l k m : stays x -> split_by stays moves l k m -> split_by stays moves (x :: l) (x :: k) m
| sb_move x l k m : moves x -> split_by stays moves l k m -> split_by stays moves (x :: l) k (x :: m).

(** Handling the event "[left] crosses to the other side of [right] at the present height" turned
    [s] into [s']. *)
Inductive handled (cmp : nat -> nat -> curve_order) (s : sweeper) (left right : nat) (s' : sweeper) : Prop :=
| h_reordered A el mid er B mid' km pm :
    (* [left] stands to the left of [right]: it and the segments between that have to stay to its right are
       moved directly to the right of [right]; every entry from [left] to [right] remembers its index *)
    sw_line s = A ++ el :: mid ++ er :: B ->
    has_seg left el = true -> has_seg right er = true ->
    Forall2 (fun e e' => exists k, e' = set_old_idx k e /\ nth_error (sw_line s) k = Some e) mid mid' ->
    split_by
      (fun e => really_exits e = true \/ eorder (cmp left (le_seg e)) (sw_y s) <> Some Left)
      (fun e => really_exits e = false /\ eorder (cmp left (le_seg e)) (sw_y s) = Some Left /\
                eorder (cmp (le_seg e) right) (sw_y s) <> Some Left)
      mid' km pm ->
    sw_line s' = A ++ km ++ set_old_idx (length A + S (length mid)) er :: set_old_idx (length A) el :: pm ++ B ->
    sw_need s' = sw_need s ++ range (length A) (length A + S (S (length mid))) ->
    handled cmp s left right s'
| h_in_order li ri el er :
    (* [right] already stands to the left: nothing moves *)
    nth_error (sw_line s) li = Some el -> nth_error (sw_line s) ri = Some er ->
    has_seg left el = true -> has_seg right er = true -> ri <= li ->
    sw_line s' = sw_line s -> sw_need s' = sw_need s ++ range ri (S li) ->
    handled cmp s left right s'
| h_delayed A el m1 e m2 er B ev :
    (* a segment between the two is strictly between them: the event is postponed *)
    sw_line s = A ++ el :: (m1 ++ e :: m2) ++ er :: B ->
    has_seg left el = true -> has_seg right er = true -> really_exits e = false ->
    eorder (cmp left (le_seg e)) (sw_y s) = Some Left -> eorder (cmp (le_seg e) right) (sw_y s) = Some Left ->
    sw_line s' = sw_line s -> sw_need s' = sw_need s ->
    In ev (sw_int s') -> ie_left ev = left -> ie_right ev = right -> flt (sw_y s) (ie_y ev) = true ->
    handled cmp s left right s'.

(** ** What the environment of a sweep has to provide *)
(** The arena can be swept; both comparison routines give tables that are well formed (nothing is assumed
    about the orders in them); searches find boundaries; sorting sorts. *)
Record sound_setting (a : arena) (cmp ccmp : nat -> nat -> curve_order)
  (pps : nat -> ((lentry -> bool) -> list lentry -> nat) * ((lentry -> bool) -> list lentry -> nat))
  (sort_by : forall A : Type, (A -> A -> comparison) -> list A -> list A) : Prop := {
  ss_arena : sweepable a;
  ss_cmp : comparer_ok a cmp;
  ss_ccmp : comparer_ok a ccmp;
  ss_search : forall t, search_ok (fst (pps t)) /\ search_ok (snd (pps t)) /\ search_mono (snd (pps t));
  ss_sort : forall A, sort_spec (sort_by A) }.

(** The comparisons are antisymmetric, and "strictly to the left of" is transitive at every height. *)
Definition consistent (a : arena) (cmp : nat -> nat -> curve_order) : Prop :=
  (forall i j, i <> j -> cmp j i = co_flip (cmp i j)) /\
  (forall y i j k, nan y = false -> live a y i -> live a y j -> live a y k ->
     eorder (cmp i j) y = Some Left -> eorder (cmp j k) y = Some Left -> eorder (cmp i k) y = Some Left).
