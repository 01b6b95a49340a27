(** What a reader needs to understand the property theorems about positions on a sweep line. *)
From Coq Require Import List Bool ZArith Arith Permutation Sorted.
From Verif Require Import F64 F64Arith TreeVecModel GeomModel SegmentsModel SegmentsSpec CurveOrderModel SweepModel SweepSpec RangeModel.
Import ListNotations.

(** Nondecreasing lists of floats without NaN. *)
Definition no_nan (l : list f64) : Prop := Forall (fun x => nan x = false) l.
Definition climbing (l : list f64) : Prop := StronglySorted (fun x y => fle x y = true) l.

Section Bands.
Variable a : arena.
Variable eps : f64.
Variables lower upper : segment -> f64 -> f64 -> f64.
Variable at_y : segment -> f64 -> f64.

(** The tolerance band of segment [i] at height [y]. *)
Definition band_lo (y : f64) (i : nat) : f64 := lower (seg_def a i) y eps.
Definition band_hi (y : f64) (i : nat) : f64 := upper (seg_def a i) y eps.
Definition in_band (y : f64) (i : nat) (x : f64) : Prop := fle (band_lo y i) x = true /\ fle x (band_hi y i) = true.

(** Segment [i] meets height [y] and the numerical routines give numbers for its position and its band. *)
Definition placed (y : f64) (i : nat) : Prop :=
  i < arena_len a /\ fle (start_y a i) y = true /\ fle y (end_y a i) = true /\
  nan (band_lo y i) = false /\ nan (band_hi y i) = false /\ nan (at_y (seg_def a i) y) = false.

(** No segment lies entirely to the right of a later one. *)
Definition bands_ordered (y : f64) (l : list nat) : Prop :=
  forall i j s t, i < j -> nth_error l i = Some s -> nth_error l j = Some t -> fle (band_lo y s) (band_hi y t) = true.
End Bands.

(** ** The events of a range *)
Section Events.
Variable a : arena.
Definition start_x (i : nat) : f64 := px (seg_start (seg_def a i)).
Definition end_x (i : nat) : f64 := px (seg_end (seg_def a i)).

(** The entries of interval [c] of the line. *)
Definition range_entries (s : sweeper) (c : cinterval) : list lentry :=
  firstn (snd (ci_segs c) - fst (ci_segs c)) (skipn (fst (ci_segs c)) (sw_line s)).
(** The horizontal segments of the interval. *)
Definition range_horizontals (s : sweeper) (c : cinterval) : list nat :=
  match ci_hor c with None => [] | Some q => firstn (snd q - fst q) (skipn (fst q) (sw_horiz s)) end.
(** The entry comes from above. *)
Definition from_above (e : lentry) : bool := match le_old_seg e with Some _ => true | None => negb (le_enter e) end.
(** A lone entry without horizontals is handled separately. *)
Definition lone (c : cinterval) : bool :=
  (snd (ci_segs c) - fst (ci_segs c) =? 1) && match ci_hor c with None => true | Some _ => false end.
End Events.

(** ** Walking along a range *)
(** The ends of an event are numbers. *)
Definition ev_numbers (e : oevent) : Prop := nan (ev_x0 e) = false /\ nan (ev_x1 e) = false.
(** The list is sorted by left end, then by right end. *)
Definition ev_sorted (l : list oevent) : Prop := StronglySorted (fun x z => ev_cmp x z <> Gt) l.
(** Some event begins or ends at [x]. *)
Definition stop (evs : list oevent) (x : f64) : Prop :=
  exists e, In e evs /\ (feq x (ev_x0 e) = true \/ feq x (ev_x1 e) = true).
(** The event is a single point. *)
Definition pointlike (e : oevent) : bool := feq (ev_x0 e) (ev_x1 e).
(** The part of event [e] between [u] and [v], going the same way; it is connected only at true ends of [e]. *)
Definition cut (u v : f64) (e : oevent) : oevent :=
  if flt (ev_x0 e) (ev_x1 e)
  then mkEv u (ev_above e && feq u (ev_x0 e)) v (ev_below e && feq v (ev_x1 e)) (ev_seg e) (ev_sweep e) (ev_old e)
  else mkEv v (ev_above e && feq v (ev_x0 e)) u (ev_below e && feq u (ev_x1 e)) (ev_seg e) (ev_sweep e) (ev_old e).
(** Equality of events, up to the sign of zero. *)
Definition ev_same (e f : oevent) : Prop :=
  feq (ev_x0 e) (ev_x0 f) = true /\ feq (ev_x1 e) (ev_x1 f) = true /\ ev_above e = ev_above f /\ ev_below e = ev_below f /\
  ev_seg e = ev_seg f /\ ev_sweep e = ev_sweep f /\ ev_old e = ev_old f.
(** What has to be reported at [v], the stop before it being [u]. *)
Definition batch_at (evs : list oevent) (u : option f64) (v : f64) : list oevent :=
  match u with
  | None => []
  | Some u => map (cut u v) (filter (fun e => fle (ev_lo e) u && flt u (ev_hi e)) evs)
  end ++ filter (fun e => pointlike e && feq (ev_x0 e) v) evs.

(** [l] lists positions with what is reported there; each batch is right, in some order, [u] being the position
    before the first. *)
Fixpoint batches_ok (evs : list oevent) (u : option f64) (l : list (f64 * list oevent)) : Prop :=
  match l with
  | [] => True
  | (x, b) :: l' => (exists b', Permutation b b' /\ Forall2 ev_same b' (batch_at evs u x)) /\ batches_ok evs (Some x) l'
  end.

(** Calling [x] and [events] until nothing is left: positions with what was returned there. *)
Section Walks.
Variable sort_by : forall A : Type, (A -> A -> comparison) -> list A -> list A.
Fixpoint walk_events (fuel : nat) (r : srange) : res (list (f64 * list oevent)) :=
  match fuel with
  | 0 => Err EFuel
  | S fuel =>
      match rg_x r with
      | None => Ok []
      | Some x =>
          do! b := rg_events_step sort_by r in
          match b with
          | None => Ok []
          | Some (evs, r) => do! l := walk_events fuel r in Ok ((x, evs) :: l)
          end
      end
  end.
(** What a user of [increase_x] sees at one position: the position, the horizontals that come from the left with
    their orientations, the segments connected up and down, and, after [increase_x], the horizontals that
    go on to the right. *)
Record view : Type := mkView {
  vw_x : f64;
  vw_in : list (nat * bool);
  vw_up : list nat;
  vw_down : list nat;
  vw_out : list (nat * bool) }.
Definition horizontals (r : srange) : list (nat * bool) := map (fun h => (hf_seg h, hf_first h)) (rg_active r).
Fixpoint walk_x (fuel : nat) (r : srange) : res (list view) :=
  match fuel with
  | 0 => Err EFuel
  | S fuel =>
      match rg_x r with
      | None => Ok []
      | Some x =>
          do! (up, down) := segments_at_x sort_by r in
          let r' := increase_x sort_by r in
          do! l := walk_x fuel r' in
          Ok (mkView x (horizontals r) up down (horizontals r') :: l)
      end
  end.
End Walks.
(** What has to be seen at [x]. *)
Definition rightward (e : oevent) : nat * bool := (ev_seg e, flt (ev_x0 e) (ev_x1 e)).
Record sees (evs : list oevent) (v : view) : Prop := {
  se_in : Permutation (vw_in v) (map rightward (filter (fun e => flt (ev_lo e) (vw_x v) && fle (vw_x v) (ev_hi e)) evs));
  se_out : Permutation (vw_out v) (map rightward (filter (fun e => fle (ev_lo e) (vw_x v) && flt (vw_x v) (ev_hi e)) evs));
  se_up : exists l, Permutation l (filter (fun e => ev_above e && feq (ev_x0 e) (vw_x v)) evs) /\ vw_up v = map ev_seg l /\
     StronglySorted (fun e f => exists i j, ev_old e = Some i /\ ev_old f = Some j /\ i <= j) l;
  se_down : exists l, Permutation l (filter (fun e => ev_below e && feq (ev_x1 e) (vw_x v)) evs) /\ vw_down v = map ev_seg l /\
     StronglySorted (fun e f => exists i j, ev_sweep e = Some i /\ ev_sweep f = Some j /\ i <= j) l }.

(** ** What a range has to report *)
Section Report.
Variable a : arena.
Variable eps : f64.
Variables lower upper : segment -> f64 -> f64 -> f64.
Variable at_y : segment -> f64 -> f64.

(** What the numerical routines have to provide for everything but the claims about bands: numbers. *)
Definition positions_numbers : Prop :=
  forall y i, nan y = false -> live a y i ->
    nan (band_lo a eps lower y i) = false /\ nan (band_hi a eps upper y i) = false /\ nan (at_y (seg_def a i) y) = false.
(** What they have to provide for the claims about bands: the position of a segment lies in its band, also in the band of a segment
    that ends where it starts. *)
Record positions_sound : Prop := {
  ps_band : forall y i, nan y = false -> live a y i -> in_band a eps lower upper y i (at_y (seg_def a i) y);
  ps_meet : forall y i p, live a y i -> live a y p -> sweep_prev a i = Ok (Some p) ->
     feq (start_y a i) y = true -> feq (end_y a p) y = true ->
     in_band a eps lower upper y p (at_y (seg_def a i) y) }.

(** The events of range [c] of line [s]: exactly one for each segment in the range, marked as connected above and below
    exactly if the segment begins above and ends below, with its index before and after the crossings at this
    height, and true ends where it is not connected.  (A lone entry is reported as a single point.) *)
Record range_report (s : sweeper) (c : cinterval) (evs : list oevent) : Prop := {
  rr_num : Forall ev_numbers evs;
  rr_sorted : ev_sorted evs;
  rr_segs : Permutation (map ev_seg evs) (members (range_entries s c) ++ range_horizontals s c);
  rr_above : forall e, In e evs -> ev_above e = flt (start_y a (ev_seg e)) (sw_y s);
  rr_below : forall e, In e evs -> ev_below e = flt (sw_y s) (end_y a (ev_seg e));
  rr_old : forall e, In e evs -> ev_above e = true ->
     exists k l, in_interval k c /\ nth_error (sw_line s) k = Some l /\ In (ev_seg e) (old_of l) /\ ev_old e = Some (origin k l);
  rr_new : forall e, In e evs -> ev_below e = true ->
     exists k l, in_interval k c /\ nth_error (sw_line s) k = Some l /\ ev_seg e = le_seg l /\ ev_sweep e = Some k;
  rr_start : forall e, In e evs -> lone c = false -> ev_above e = false -> ev_x0 e = start_x a (ev_seg e);
  rr_end : forall e, In e evs -> lone c = false -> ev_below e = false -> ev_x1 e = end_x a (ev_seg e);
  rr_lone : forall e f, In e evs -> In f evs -> lone c = true -> ev_x0 e = ev_x1 f }.

(** The segments just above / just below the line, in the part of the line it describes, are weakly ordered. *)
Definition old_weakly_ordered (s : sweeper) (c : cinterval) : Prop :=
  forall i j e f, in_interval i c -> in_interval j c -> nth_error (sw_line s) i = Some e -> nth_error (sw_line s) j = Some f ->
    origin i e < origin j f -> fle (band_lo a eps lower (sw_y s) (le_old e)) (band_hi a eps upper (sw_y s) (le_old f)) = true.
Definition new_weakly_ordered (s : sweeper) (c : cinterval) : Prop :=
  forall i j e f, in_interval i c -> in_interval j c -> nth_error (sw_line s) i = Some e -> nth_error (sw_line s) j = Some f ->
    i < j -> fle (band_lo a eps lower (sw_y s) (le_seg e)) (band_hi a eps upper (sw_y s) (le_seg f)) = true.
(** The reported positions follow the order. *)
Definition old_positions_ordered (evs : list oevent) : Prop :=
  forall e f i j, In e evs -> In f evs -> ev_above e = true -> ev_above f = true -> ev_old e = Some i -> ev_old f = Some j -> i < j -> fle (ev_x0 e) (ev_x0 f) = true.
Definition new_positions_ordered (evs : list oevent) : Prop :=
  forall e f i j, In e evs -> In f evs -> ev_below e = true -> ev_below f = true -> ev_sweep e = Some i -> ev_sweep f = Some j -> i < j -> fle (ev_x1 e) (ev_x1 f) = true.
(** The reported positions stay in the bands. *)
Definition old_positions_close (s : sweeper) (evs : list oevent) : Prop :=
  forall e, In e evs -> ev_above e = true -> in_band a eps lower upper (sw_y s) (ev_seg e) (ev_x0 e).
Definition new_positions_close (s : sweeper) (evs : list oevent) : Prop :=
  forall e, In e evs -> ev_below e = true -> in_band a eps lower upper (sw_y s) (ev_seg e) (ev_x1 e).
End Report.
