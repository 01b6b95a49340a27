(** Model of src/sweep/sweep_line.rs: the state of the sweep ([Sweeper]) and one step of it
    ([Sweeper::next_line]), up to and including the computation of the changed intervals.

    The sweep line [TreeVec<SegmentOrderEntry, 128>] is a [list] (justified by C01 - C05:
    [treevec_is_a_vector]); its [partition_point] is a parameter.  The two comparison caches are
    two functions of a pair of indices (justified by C14: within one run a cache gives one answer per
    pair).  Numerical routines of [Segment] are parameters.  [check_invariants] is the empty function
    of the default feature set.  Panics are [Err] with a reason. *)
From Coq Require Import List Bool ZArith Arith.
From Verif Require Import F64 F64Arith TreeVecModel GeomModel SegmentsModel CurveOrderModel.
Import ListNotations.

(** Why a step did not produce a value. *)
Inductive err : Set :=
| EIndex          (* index out of bounds *)
| EAssert         (* a debug_assert! failed *)
| EExitLookup     (* handle_exit: position(..).unwrap() *)
| EIntLookup      (* handle_intersection: position(..).unwrap() *)
| EUnreachable    (* unreachable!() in next_touch_after *)
| EOrderAt        (* order_at: no entry reaches y *)
| EEntryAt        (* entry_at: no entry beyond y *)
| EOrderAfter     (* order_after: empty table *)
| EHorizontal     (* the two unwraps of compute_horizontal_changed_intervals *)
| EOldIdx         (* next_range: old_idx.unwrap(), or the subtraction after it *)
| ESweepIdx       (* update_segments_at_x: sweep_idx.unwrap() or old_sweep_idx.unwrap() *)
| ELastX          (* SweepLineRange::events: last_x.unwrap() *)
| EOpen           (* second_half_segs: expect("should be open"), or front().unwrap() *)
| EStart          (* segs_to_path: position(..).unwrap() *)
| EFuel.          (* the model's loop bound was too small: not a panic *)

Inductive res (A : Type) : Type := Ok (a : A) | Err (e : err).
Arguments Ok {A} a. Arguments Err {A} e.
Definition rbind {A R} (r : res A) (f : A -> res R) : res R :=
  match r with Ok a => f a | Err e => Err e end.
Notation "'do!' x := o 'in' k" := (rbind o (fun x => k))
  (at level 200, x pattern, right associativity, only parsing).
Definition orerr {A} (e : err) (o : option A) : res A := match o with Some a => Ok a | None => Err e end.

(** sweep_line.rs:23-102 [SegmentOrderEntry]. *)
Record lentry : Type := mkLE {
  le_seg : nat;
  le_exit : bool;
  le_enter : bool;
  le_lower : f64;
  le_upper : f64;
  le_changed : bool;
  le_old_idx : option nat;
  le_old_seg : option nat }.

(** sweep_line.rs:132-138 [reset_state]. *)
Definition reset_state (e : lentry) : lentry :=
  mkLE (le_seg e) false false (le_lower e) (le_upper e) false None None.
(** sweep_line.rs:140-144 [set_old_idx_if_unset]. *)
Definition set_old_idx (i : nat) (e : lentry) : lentry :=
  match le_old_idx e with
  | Some _ => e
  | None => mkLE (le_seg e) (le_exit e) (le_enter e) (le_lower e) (le_upper e) (le_changed e) (Some i) (le_old_seg e)
  end.
(** sweep_line.rs:146-148 [old_seg]. *)
Definition le_old (e : lentry) : nat := match le_old_seg e with Some s => s | None => le_seg e end.
(** sweep_line.rs:154-156 [will_really_exit]. *)
Definition really_exits (e : lentry) : bool :=
  le_exit e && match le_old_seg e with None => true | Some _ => false end.
(** Field assignments. *)
Definition with_exit (e : lentry) : lentry :=
  mkLE (le_seg e) true (le_enter e) (le_lower e) (le_upper e) (le_changed e) (le_old_idx e) (le_old_seg e).
Definition with_changed (e : lentry) : lentry :=
  mkLE (le_seg e) (le_exit e) (le_enter e) (le_lower e) (le_upper e) true (le_old_idx e) (le_old_seg e).

(** sweep_line.rs:184-193 [IntersectionEvent]. *)
Record ievent : Type := mkIE { ie_y : f64; ie_left : nat; ie_right : nat }.
(** sweep_line.rs:197-205 [Ord for IntersectionEvent]. *)
Definition ie_cmp (a b : ievent) : comparison :=
  match cof_cmp (ie_y a) (ie_y b) with
  | Eq => match Nat.compare (ie_left a) (ie_left b) with
          | Eq => Nat.compare (ie_right a) (ie_right b)
          | c => c
          end
  | c => c
  end.
(** [BTreeSet::insert] on the ascending list of elements; an equal element is kept. *)
Fixpoint bt_insert (e : ievent) (l : list ievent) : list ievent :=
  match l with
  | [] => [e]
  | x :: l' => match ie_cmp e x with
               | Lt => e :: l
               | Eq => l
               | Gt => x :: bt_insert e l'
               end
  end.

(** sweep_line.rs:1075-1080 [ChangedInterval]; a Rust [Range] is a pair. *)
Record cinterval : Type := mkCI { ci_segs : nat * nat; ci_hor : option (nat * nat) }.

(** sweep_line.rs:1083-1092 [ChangedInterval::merge]. *)
Definition ci_merge (a b : cinterval) : cinterval :=
  mkCI (Nat.min (fst (ci_segs a)) (fst (ci_segs b)), Nat.max (snd (ci_segs a)) (snd (ci_segs b)))
    (match ci_hor a, ci_hor b with
     | None, None => None
     | None, Some r | Some r, None => Some r
     | Some x, Some y => Some (Nat.min (fst x) (fst y), Nat.max (snd x) (snd y))
     end).

(** sweep_line.rs:1606-1623 [merge_adjacent]: [w] is [intervals[write_idx]], the list is what is
    still to be read. *)
Fixpoint merge_from (w : cinterval) (l : list cinterval) : list cinterval :=
  match l with
  | [] => [w]
  | c :: l' => if snd (ci_segs w) <? fst (ci_segs c) then w :: merge_from c l'
               else merge_from (ci_merge w c) l'
  end.
Definition merge_adjacent (l : list cinterval) : list cinterval :=
  match l with [] => [] | c :: l' => merge_from c l' end.

(** sweep_line.rs:286-310 [Sweeper], with [EventQueue] (214-221) inlined; [eps], [segments] and the
    comparison caches are parameters. *)
Record sweeper : Type := mkSW {
  sw_y : f64;
  sw_line : list lentry;
  sw_next_enter : nat;
  sw_next_exit : nat;
  sw_int : list ievent;
  sw_horiz : list nat;
  sw_need : list nat;
  sw_changed : list cinterval }.

Definition with_line (s : sweeper) (l : list lentry) : sweeper :=
  mkSW (sw_y s) l (sw_next_enter s) (sw_next_exit s) (sw_int s) (sw_horiz s) (sw_need s) (sw_changed s).
Definition with_int (s : sweeper) (l : list ievent) : sweeper :=
  mkSW (sw_y s) (sw_line s) (sw_next_enter s) (sw_next_exit s) l (sw_horiz s) (sw_need s) (sw_changed s).
Definition with_need (s : sweeper) (l : list nat) : sweeper :=
  mkSW (sw_y s) (sw_line s) (sw_next_enter s) (sw_next_exit s) (sw_int s) (sw_horiz s) l (sw_changed s).
Definition with_horiz (s : sweeper) (l : list nat) : sweeper :=
  mkSW (sw_y s) (sw_line s) (sw_next_enter s) (sw_next_exit s) (sw_int s) l (sw_need s) (sw_changed s).
Definition with_changed_ivs (s : sweeper) (l : list cinterval) : sweeper :=
  mkSW (sw_y s) (sw_line s) (sw_next_enter s) (sw_next_exit s) (sw_int s) (sw_horiz s) (sw_need s) l.

(** TreeVec operations on a list (C01): out of bounds is a panic. *)
Definition line_get (l : list lentry) (i : nat) : res lentry := orerr EIndex (nth_error l i).
Definition line_upd (l : list lentry) (i : nat) (f : lentry -> lentry) : res (list lentry) :=
  do! e := line_get l i in orerr EIndex (upd l i (f e)).
Definition line_insert (l : list lentry) (i : nat) (e : lentry) : res (list lentry) :=
  if i <=? length l then Ok (firstn i l ++ e :: skipn i l) else Err EIndex.
Definition line_remove (l : list lentry) (i : nat) : res (lentry * list lentry) :=
  do! e := line_get l i in Ok (e, firstn i l ++ skipn (S i) l).
(** [for (k, x) in l.range_mut(a..b).enumerate() { *x = f(a + k, x) }]. *)
Definition map_range (f : nat -> lentry -> lentry) (a b : nat) (l : list lentry) : list lentry :=
  map (fun '(i, e) => if (a <=? i) && (i <? b) then f i e else e) (combine (seq 0 (length l)) l).
Definition line_map_range (f : nat -> lentry -> lentry) (a b : nat) (l : list lentry) : res (list lentry) :=
  if (a <=? b) && (b <=? length l) then Ok (map_range f a b l) else Err EIndex.

(** sweep_line.rs:1221-1225 [SegmentOrder::position]. *)
Definition has_seg (i : nat) (e : lentry) : bool :=
  (le_seg e =? i) || match le_old_seg e with Some s => s =? i | None => false end.
Fixpoint position_of (i : nat) (l : list lentry) : option nat :=
  match l with
  | [] => None
  | e :: l' => if has_seg i e then Some 0 else option_map S (position_of i l')
  end.

(** [Vec<usize>::sort] and [dedup]. *)
Fixpoint nat_insert (x : nat) (l : list nat) : list nat :=
  match l with
  | [] => [x]
  | y :: l' => if x <=? y then x :: l else y :: nat_insert x l'
  end.
Fixpoint nat_sort (l : list nat) : list nat :=
  match l with [] => [] | x :: l' => nat_insert x (nat_sort l') end.
Fixpoint dedup (l : list nat) : list nat :=
  match l with
  | x :: ((y :: _) as l') => if x =? y then dedup l' else x :: dedup l'
  | _ => l
  end.

(** [a..b] and [a..=b] as lists. *)
Definition range (a b : nat) : list nat := seq a (b - a).

(** [next_touch_after] as a result. *)
Definition touch (c : curve_order) (y : f64) : res (option interaction) :=
  match co_next_touch_after c y with
  | TR o => Ok o
  | TRUnreachable => Err EUnreachable
  | TRFuel => Err EFuel
  end.
Definition order_at (c : curve_order) (y : f64) : res order := orerr EOrderAt (co_order_at c y).
Definition entry_at (c : curve_order) (y : f64) : res (f64 * f64 * order) := orerr EEntryAt (co_entry_at c y).
Definition order_after (c : curve_order) (y : f64) : res order := orerr EOrderAfter (co_order_after c y).

Definition ftwo : f64 := f64_of_Z 2.

(** [f64::INFINITY], [f64::NEG_INFINITY]. *)
Definition fneginf : f64 := fneg finfinity.

Section Sweep.
Variable a : arena.
Variable eps : f64.
(** [comparisons] and [conservative_comparisons]. *)
Variable cmp : nat -> nat -> curve_order.
Variable ccmp : nat -> nat -> curve_order.
(** [Segment::min_x], [max_x], [lower], [upper] (geom.rs:305-382). *)
Variable min_x max_x : segment -> f64.
Variable lower upper : segment -> f64 -> f64 -> f64.
(** [TreeVec::partition_point] on the sweep line: what it answers on a line that is not partitioned
    depends on the shape of the tree, so there is one function for the time segments are inserted and
    one for the time the line is complete. *)
Variable pp : (lentry -> bool) -> list lentry -> nat.
Variable pph : (lentry -> bool) -> list lentry -> nat.
(** [slice::sort_by_key]. *)
Variable sort_by : forall A : Type, (A -> A -> comparison) -> list A -> list A.

Definition seg_at (i : nat) : res segment := orerr EIndex (nth_error (segs a) i).
Definition line_seg (l : list lentry) (i : nat) : res nat := do! e := line_get l i in Ok (le_seg e).

(** sweep_line.rs:117-130 [SegmentOrderEntry::new]. *)
Definition le_new (i : nat) (seg : segment) : lentry :=
  let x0 := min_x seg in let x1 := max_x seg in
  mkLE i false false (fsub (fmin x0 x1) eps) (fadd (fmax x0 x1) eps) false None None.

(** sweep_line.rs:228-240 [EventQueue::next_y]; [min_by_key] keeps the first minimum. *)
Definition min_opt (x y : option f64) : option f64 :=
  match x, y with
  | Some u, Some v => Some (match cof_cmp u v with Gt => v | _ => u end)
  | Some u, None => Some u
  | None, _ => y
  end.
Definition next_y (s : sweeper) : option f64 :=
  min_opt (min_opt (option_map fst (nth_error (enter a) (sw_next_enter s)))
                   (option_map fst (nth_error (exit_ a) (sw_next_exit s))))
          (option_map ie_y (hd_error (sw_int s))).

(** sweep_line.rs:242-250 [entrances_at_y] / 252-260 [exits_at_y]: the prefix up to the first
    element above [y]. *)
Fixpoint upto_y (y : f64) (l : list (f64 * nat)) : list (f64 * nat) :=
  match l with
  | [] => []
  | p :: l' => if fgt (fst p) y then [] else p :: upto_y y l'
  end.

(** sweep_line.rs:314-329 [Sweeper::new]. *)
Definition sweeper_new : sweeper :=
  let s := mkSW fzero [] 0 0 [] [] [] [] in
  mkSW (match next_y s with Some y => y | None => finfinity end) [] 0 0 [] [] [] [].

(** sweep_line.rs:390-413 [advance]. *)
Fixpoint retain_exits (l : list lentry) (need : list nat) : res (list nat) :=
  match need with
  | [] => Ok []
  | i :: need' =>
      do! e := line_get l i in
      do! r := retain_exits l need' in
      Ok (if really_exits e then i :: r else r)
  end.
Fixpoint reset_ranges (ivs : list cinterval) (l : list lentry) : res (list lentry) :=
  match ivs with
  | [] => Ok l
  | iv :: ivs' =>
      do! l' := line_map_range (fun _ => reset_state) (fst (ci_segs iv)) (snd (ci_segs iv)) l in
      reset_ranges ivs' l'
  end.
Fixpoint remove_all (idxs : list nat) (l : list lentry) : res (list lentry) :=
  match idxs with
  | [] => Ok l
  | i :: idxs' => do! (_, l') := line_remove l i in remove_all idxs' l'
  end.
Definition advance (s : sweeper) (y : f64) : res sweeper :=
  do! need := retain_exits (sw_line s) (sw_need s) in
  do! l := reset_ranges (sw_changed s) (sw_line s) in
  do! l := remove_all (rev (dedup (nat_sort need))) l in
  Ok (mkSW y l (sw_next_enter s) (sw_next_exit s) (sw_int s) [] [] []).

(** sweep_line.rs:452-466: the event found for a touch between [seg_idx] and a segment [other] to
    its right, if any. *)
Definition event_right (y : f64) (seg_idx other : nat) (t : option interaction) : option ievent :=
  match t with
  | None => None
  | Some (Cross cross_y) => Some (mkIE (fmax y cross_y) seg_idx other)
  | Some (Touch touch_y) => if fgt touch_y y then Some (mkIE touch_y other seg_idx) else None
  end.

(** The loop of [intersection_scan_right] (sweep_line.rs:432-475); [rest] is the line from [j] on,
    [hb] is [height_bound], [evs] the event queue. *)
Fixpoint scan_right_loop (y : f64) (seg_idx : nat) (seg : segment) (rest : list lentry) (hb : f64)
  (evs : list ievent) : res (list ievent) :=
  match rest with
  | [] => Ok evs
  | oe :: rest' =>
      let other_idx := le_seg oe in
      do! other := seg_at other_idx in
      if feq (py (seg_end other)) y then scan_right_loop y seg_idx seg rest' hb evs
      else if flt (fadd (max_x seg) (fmul ftwo eps)) (min_x other) then Ok evs
      else
        let hb := fmin hb (py (seg_end other)) in
        do! t := touch (cmp seg_idx other_idx) y in
        let '(evs, hb) :=
          match event_right y seg_idx other_idx t with
          | Some ev => (bt_insert ev evs, fmin hb (ie_y ev))
          | None => (evs, hb)
          end in
        match find (fun '(_, y1, _) => fgt y1 y) (co_iter (ccmp seg_idx other_idx)) with
        | Some (_, y1, o) =>
            if order_eqb o Left && fge y1 hb then Ok evs
            else scan_right_loop y seg_idx seg rest' hb evs
        | None => scan_right_loop y seg_idx seg rest' hb evs
        end
  end.

(** sweep_line.rs:415-476 [intersection_scan_right]. *)
Definition scan_right (s : sweeper) (start_idx : nat) : res sweeper :=
  do! seg_idx := line_seg (sw_line s) start_idx in
  do! seg := seg_at seg_idx in
  if feq (py (seg_end seg)) (sw_y s) then Ok s else
  do! evs := scan_right_loop (sw_y s) seg_idx seg (skipn (S start_idx) (sw_line s))
               (py (seg_end seg)) (sw_int s) in
  Ok (with_int s evs).

(** The loop of [intersection_scan_left] (sweep_line.rs:489-525): [rest] is the line before
    [start_idx], reversed. *)
Fixpoint scan_left_loop (y : f64) (seg_idx : nat) (seg : segment) (rest : list lentry) (hb : f64)
  (evs : list ievent) : res (list ievent) :=
  match rest with
  | [] => Ok evs
  | oe :: rest' =>
      let other_idx := le_seg oe in
      do! other := seg_at other_idx in
      if feq (py (seg_end other)) y then scan_left_loop y seg_idx seg rest' hb evs
      else if fgt (fsub (min_x seg) (fmul ftwo eps)) (max_x other) then Ok evs
      else
        let hb := fmin hb (py (seg_end other)) in
        do! t := touch (cmp other_idx seg_idx) y in
        let '(evs, hb) :=
          match event_right y other_idx seg_idx t with
          | Some ev => (bt_insert ev evs, fmin hb (ie_y ev))
          | None => (evs, hb)
          end in
        match find (fun '(_, y1, _) => fgt y1 y) (co_iter (ccmp other_idx seg_idx)) with
        | Some (_, y1, o) =>
            if order_eqb o Left && fge y1 hb then Ok evs
            else scan_left_loop y seg_idx seg rest' hb evs
        | None => scan_left_loop y seg_idx seg rest' hb evs
        end
  end.

(** sweep_line.rs:479-526 [intersection_scan_left]. *)
Definition scan_left (s : sweeper) (start_idx : nat) : res sweeper :=
  do! seg_idx := line_seg (sw_line s) start_idx in
  do! seg := seg_at seg_idx in
  if feq (py (seg_end seg)) (sw_y s) then Ok s else
  do! evs := scan_left_loop (sw_y s) seg_idx seg (rev (firstn start_idx (sw_line s)))
               (py (seg_end seg)) (sw_int s) in
  Ok (with_int s evs).

(** Both scans, as in [scan_for_removal] (528-533), [insert] (535-539) and
    [handle_contour_continuation]. *)
Definition scan_both (s : sweeper) (i : nat) : res sweeper :=
  do! s := scan_right s i in scan_left s i.

(** sweep_line.rs:528-533 [scan_for_removal]. *)
Definition scan_for_removal (s : sweeper) (pos : nat) : res sweeper :=
  if 0 <? pos then scan_both s (pos - 1) else Ok s.

(** sweep_line.rs:535-539 [insert]. *)
Definition insert_entry (s : sweeper) (pos : nat) (e : lentry) : res sweeper :=
  do! l := line_insert (sw_line s) pos e in scan_both (with_line s l) pos.

(** sweep_line.rs:1193-1213: the linear part of [insertion_idx]: [rest] starts at index [i]. *)
Fixpoint insertion_loop (y : f64) (seg_idx : nat) (rest : list lentry) (i idx : nat) : res nat :=
  match rest with
  | [] => Ok idx
  | e :: rest' =>
      let c := cmp (le_seg e) seg_idx in
      do! o := order_at c y in
      match o with
      | Right => Ok idx
      | Ish =>
          do! o2 := order_after c y in
          insertion_loop y seg_idx rest' (S i) (if order_eqb o2 Left then S i else idx)
      | Left => insertion_loop y seg_idx rest' (S i) (S i)
      end
  end.

(** [order_at] of every entry against [seg_idx] is defined: the closure passed to
    [partition_point] panics on none of them (the real search only probes some of them). *)
Fixpoint all_order_at (y : f64) (seg_idx : nat) (l : list lentry) : res unit :=
  match l with
  | [] => Ok tt
  | e :: l' => do! _ := order_at (cmp (le_seg e) seg_idx) y in all_order_at y seg_idx l'
  end.
Definition lower_pred (y : f64) (seg_idx : nat) (e : lentry) : bool :=
  match co_order_at (cmp (le_seg e) seg_idx) y with Some Left => true | _ => false end.

(** sweep_line.rs:1142-1215 [insertion_idx]. *)
Definition insertion_idx (y : f64) (line : list lentry) (seg_idx : nat) : res nat :=
  do! seg := seg_at seg_idx in
  let seg_x := px (seg_start seg) in
  let pos := pp (fun e => fge seg_x (le_upper e)) line in
  if length line <=? pos then Ok pos else
  do! close := (if length line <=? pos + 1 then Ok true
                else do! e := line_get line (pos + 1) in Ok (fge (le_lower e) seg_x)) in
  if (close : bool) then
    do! e := line_get line pos in
    do! o := order_after (cmp seg_idx (le_seg e)) y in
    Ok (match o with Right => pos + 1 | _ => pos end)
  else
    do! _ := all_order_at y seg_idx line in
    let search_start := pp (lower_pred y seg_idx) line in
    insertion_loop y seg_idx (skipn search_start line) search_start search_start.

(** sweep_line.rs:581-606 [add_seg_needing_position].  [bump] is the first loop, on the reversed
    list. *)
Fixpoint bump (pos : nat) (rl : list nat) : list nat :=
  match rl with
  | [] => []
  | p :: rl' => if pos <=? p then S p :: bump pos rl' else rl
  end.
(** The index just after the last element smaller than [pos]. *)
Fixpoint insert_pos (pos : nat) (l : list nat) (i : nat) : nat :=
  match l with
  | [] => 0
  | p :: l' => match insert_pos pos l' (S i) with
               | 0 => if p <? pos then S i else 0
               | r => r
               end
  end.
Fixpoint is_sorted (l : list nat) : bool :=
  match l with
  | x :: ((y :: _) as l') => (x <=? y) && is_sorted l'
  | _ => true
  end.
Definition add_need (need : list nat) (pos : nat) (insert : bool) : res (list nat) :=
  let need := if insert then rev (bump pos (rev need)) else need in
  let k := insert_pos pos need 0 in
  let need := firstn k need ++ pos :: skipn k need in
  if is_sorted need then Ok need else Err EAssert.

(** sweep_line.rs:610-622 [handle_contour_continuation]. *)
Definition handle_contour_continuation (s : sweeper) (seg_idx : nat) (seg : segment) (pos : nat) : res sweeper :=
  let x0 := min_x seg in let x1 := max_x seg in
  do! l := line_upd (sw_line s) pos (fun e =>
     mkLE seg_idx true true (fsub (fmin x0 x1) eps) (fadd (fmax x0 x1) eps) (le_changed e)
          (le_old_idx e) (Some (le_seg e))) in
  do! s := scan_both (with_line s l) pos in
  do! need := add_need (sw_need s) pos false in
  Ok (with_need s need).

(** segments.rs:225-242 [contour_prev], [contour_next], [positively_oriented] (indexing panics). *)
Definition sweep_prev (i : nat) : res (option nat) :=
  do! o := orerr EIndex (nth_error (orientation a) i) in
  orerr EIndex (nth_error (if (o : bool) then contour_prev a else contour_next a) i).

(** sweep_line.rs:541-579 [handle_enter]. *)
Definition handle_enter (s : sweeper) (seg_idx : nat) : res sweeper :=
  do! new_seg := seg_at seg_idx in
  do! h := orerr EAssert (is_horizontal new_seg) in
  if (h : bool) then Ok (with_horiz s (sw_horiz s ++ [seg_idx])) else
  do! pos := insertion_idx (sw_y s) (sw_line s) seg_idx in
  do! cp := sweep_prev seg_idx in
  do! at_pos :=
    match cp with
    | None => Ok None
    | Some p =>
        do! pseg := seg_at p in
        if flt (py (seg_start pseg)) (sw_y s) then
          if negb (point_eq (seg_end pseg) (seg_start new_seg)) then Err EAssert else
          do! here := (if pos <? length (sw_line s)
                       then do! q := line_seg (sw_line s) pos in Ok (q =? p) else Ok false) in
          if (here : bool) then Ok (Some pos) else
          do! before := (if 0 <? pos
                         then do! q := line_seg (sw_line s) (pos - 1) in Ok (q =? p) else Ok false) in
          Ok (if (before : bool) then Some (pos - 1) else None)
        else Ok None
    end in
  match at_pos with
  | Some pos => handle_contour_continuation s seg_idx new_seg pos
  | None =>
      let e := le_new seg_idx new_seg in
      let e := mkLE (le_seg e) false true (le_lower e) (le_upper e) (le_changed e) (le_old_idx e) (le_old_seg e) in
      do! s := insert_entry s pos e in
      do! need := add_need (sw_need s) pos true in
      Ok (with_need s need)
  end.

(** sweep_line.rs:626-639 [handle_exit]. *)
Definition handle_exit (s : sweeper) (seg_idx : nat) : res sweeper :=
  do! pos := orerr EExitLookup (position_of seg_idx (sw_line s)) in
  do! e := line_get (sw_line s) pos in
  if match le_old_seg e with Some o => o =? seg_idx | None => false end then Ok s else
  do! l := line_upd (sw_line s) pos with_exit in
  do! s := scan_for_removal (with_line s l) pos in
  Ok (with_need s (sw_need s ++ [pos])).

(** sweep_line.rs:649-680: which entries to push along; [inl] is the delay to the given height.
    [rest] is the list of entries strictly between the two, from index [j] on. *)
Fixpoint pushed_along (y : f64) (left right : nat) (rest : list lentry) (j : nat) : res (f64 + list nat) :=
  match rest with
  | [] => Ok (inr [])
  | e :: rest' =>
      if really_exits e then pushed_along y left right rest' (S j) else
      do! (_, y1, o1) := entry_at (cmp left (le_seg e)) y in
      if order_eqb o1 Left then
        do! (_, y2, o2) := entry_at (cmp (le_seg e) right) y in
        if order_eqb o2 Left then Ok (inl (fmin y1 y2)) else
        do! r := pushed_along y left right rest' (S j) in
        Ok (match r with inl h => inl h | inr js => inr (j :: js) end)
      else pushed_along y left right rest' (S j)
  end.

(** sweep_line.rs:690-695: remove the entries at [js] (decreasing), scanning after each removal. *)
Fixpoint remove_each (s : sweeper) (js : list nat) : res (list lentry * sweeper) :=
  match js with
  | [] => Ok ([], s)
  | j :: js' =>
      do! (e, l) := line_remove (sw_line s) j in
      do! s1 := scan_for_removal (with_line s l) j in
      do! (removed, s2) := remove_each s1 js' in
      Ok (e :: removed, s2)
  end.
(** sweep_line.rs:701-703. *)
Fixpoint insert_each (s : sweeper) (pos : nat) (es : list lentry) : res sweeper :=
  match es with
  | [] => Ok s
  | e :: es' => do! s1 := insert_entry s pos e in insert_each s1 pos es'
  end.

(** sweep_line.rs:641-719 [handle_intersection]. *)
Definition handle_intersection (s : sweeper) (left right : nat) : res sweeper :=
  do! left_idx := orerr EIntLookup (position_of left (sw_line s)) in
  do! right_idx := orerr EIntLookup (position_of right (sw_line s)) in
  if left_idx <? right_idx then
    do! r := pushed_along (sw_y s) left right
               (firstn (right_idx - S left_idx) (skipn (S left_idx) (sw_line s))) (S left_idx) in
    match r with
    | inl h => Ok (with_int s (bt_insert (mkIE h left right) (sw_int s)))
    | inr js =>
        let to_move := left_idx :: js in
        let s := with_need s (sw_need s ++ range left_idx (S right_idx)) in
        do! l := line_map_range set_old_idx left_idx (S right_idx) (sw_line s) in
        do! (removed, s) := remove_each (with_line s l) (rev to_move) in
        insert_each s (right_idx + 1 - length to_move) removed
    end
  else
    let s := with_need s (sw_need s ++ range right_idx (S left_idx)) in
    do! s := scan_right s right_idx in
    scan_left s left_idx.

(** ** Changed intervals *)

(** The key of [horizontals.sort_by_key] (sweep_line.rs:867-868).  ([segments[..]] is in bounds; the
    default is never used.) *)
Definition seg_def (i : nat) : segment := nth i (segs a) (SLine (mkPoint fzero fzero) (mkPoint fzero fzero)).
Definition horiz_cmp (i j : nat) : comparison :=
  cof_cmp (px (seg_start (seg_def i))) (px (seg_start (seg_def j))).

(** sweep_line.rs:883-896: from index [j] on, mark entries until one lies to the right of [x];
    returns [end_idx] and the new line.  [rest] is the line from [j] on. *)
Fixpoint mark_until (y x : f64) (line : list lentry) (rest : list lentry) (j end_idx : nat) : res (nat * list lentry) :=
  match rest with
  | [] => Ok (end_idx, line)
  | e :: rest' =>
      do! other := seg_at (le_seg e) in
      if fle (fsub (lower other y eps) eps) x then
        do! line := line_upd line j (set_old_idx j) in
        mark_until y x line rest' (S j) (S j)
      else Ok (end_idx, line)
  end.

(** Replace the last interval ([last_mut().unwrap()]). *)
Fixpoint upd_last (l : list cinterval) (f : cinterval -> res cinterval) : res (list cinterval) :=
  match l with
  | [] => Err EHorizontal
  | [c] => do! c' := f c in Ok [c']
  | c :: l' => do! r := upd_last l' f in Ok (c :: r)
  end.

(** sweep_line.rs:871-916: the loop over the sorted horizontals; [idx] is the position of the next one. *)
Fixpoint horizontal_loop (y : f64) (hs : list nat) (idx : nat) (last_end : f64) (s : sweeper) : res sweeper :=
  match hs with
  | [] => Ok s
  | h :: hs' =>
      do! seg := seg_at h in
      let start_idx := pph (fun e => fle (fadd (upper (seg_def (le_seg e)) y eps) eps) (px (seg_start seg))) (sw_line s) in
      do! (end_idx, line) := mark_until y (px (seg_end seg)) (sw_line s) (skipn start_idx (sw_line s)) start_idx start_idx in
      do! ivs :=
        (if fle (px (seg_start seg)) last_end then
           upd_last (sw_changed s) (fun c =>
             match ci_hor c with
             | None => Err EHorizontal
             | Some (h0, _) => Ok (mkCI (fst (ci_segs c), Nat.max (snd (ci_segs c)) end_idx) (Some (h0, S idx)))
             end)
         else Ok (sw_changed s ++ [mkCI (start_idx, end_idx) (Some (idx, S idx))])) in
      horizontal_loop y hs' (S idx) (fmax last_end (px (seg_end seg)))
        (with_changed_ivs (with_line s line) ivs)
  end.
(** sweep_line.rs:866-917 [compute_horizontal_changed_intervals]. *)
Definition compute_horizontal (s : sweeper) : res sweeper :=
  let hs := sort_by nat horiz_cmp (sw_horiz s) in
  horizontal_loop (sw_y s) hs 0 fneginf (with_horiz s hs).

(** sweep_line.rs:950-963: going left from [j]; [rest] is the reversed line before the index
    [i + 1] (its head is entry [i]). *)
Fixpoint spread_left (y x : f64) (line : list lentry) (rest : list lentry) (start_idx : nat) : res (nat * list lentry) :=
  match rest with
  | [] => Ok (start_idx, line)
  | e :: rest' =>
      let i := length rest' in
      do! other := seg_at (le_seg e) in
      if fge (fadd (upper other y eps) eps) x then
        do! line := line_upd line i (set_old_idx i) in
        spread_left y x line rest' i
      else Ok (start_idx, line)
  end.
(** sweep_line.rs:964-977: going right; [rest] starts at index [k]. *)
Fixpoint spread_right (y x : f64) (line : list lentry) (rest : list lentry) (k end_idx : nat) : res (nat * list lentry) :=
  match rest with
  | [] => Ok (end_idx, line)
  | e :: rest' =>
      do! other := seg_at (le_seg e) in
      if fle (fsub (lower other y eps) eps) x then
        do! line := line_upd line k (set_old_idx k) in
        spread_right y x line rest' (S k) k
      else Ok (end_idx, line)
  end.
(** sweep_line.rs:926-987 [compute_contour_adjacent_changed_intervals]. *)
Fixpoint contour_adjacent (need : list nat) (s : sweeper) : res sweeper :=
  match need with
  | [] => Ok s
  | j :: need' =>
      do! e := line_get (sw_line s) j in
      if match le_old_seg e with Some _ => true | None => false end || negb (le_enter e || le_exit e)
      then contour_adjacent need' s else
      do! seg := seg_at (le_seg e) in
      let x := if le_enter e then px (seg_start seg) else px (seg_end seg) in
      do! (start_idx, line) := spread_left (sw_y s) x (sw_line s) (rev (firstn j (sw_line s))) j in
      do! (end_idx, line) := spread_right (sw_y s) x line (skipn (S j) line) (S j) j in
      let s := with_line s line in
      contour_adjacent need'
        (if start_idx <? end_idx
         then with_changed_ivs s (sw_changed s ++ [mkCI (start_idx, S end_idx) None]) else s)
  end.

(** [in_changed_interval = true; set_old_idx_if_unset(j)] on one entry. *)
Definition mark (j : nat) (e : lentry) : lentry := with_changed (set_old_idx j e).

(** sweep_line.rs:1012-1041: extend to the right; [i] counts up to the length [n] of the line on
    fuel. *)
Fixpoint grow_right (fuel : nat) (y : f64) (line : list lentry) (i end_idx : nat) : res (nat * list lentry) :=
  match fuel with
  | 0 => Ok (end_idx, line)
  | S f =>
      do! seg_idx := line_seg line (end_idx - 1) in
      do! next := line_seg line i in
      do! o := order_at (ccmp seg_idx next) y in
      if order_eqb o Left then Ok (end_idx, line) else
      do! o2 := order_at (cmp seg_idx next) y in
      if negb (order_eqb o2 Left) then
        do! line := line_map_range mark end_idx (S i) line in
        grow_right f y line (S i) (S i)
      else grow_right f y line (S i) end_idx
  end.
(** sweep_line.rs:1043-1062: extend to the left; entries [i' = fuel - 1], ..., [0]. *)
Fixpoint grow_left (fuel : nat) (y : f64) (line : list lentry) (start_idx : nat) : res (nat * list lentry) :=
  match fuel with
  | 0 => Ok (start_idx, line)
  | S i =>
      do! prev := line_seg line i in
      do! seg_idx := line_seg line start_idx in
      do! o := order_at (ccmp prev seg_idx) y in
      if order_eqb o Left then Ok (start_idx, line) else
      do! o2 := order_at (cmp prev seg_idx) y in
      if negb (order_eqb o2 Left) then
        do! line := line_map_range mark i start_idx line in
        grow_left i y line i
      else grow_left i y line start_idx
  end.

(** sweep_line.rs:999-1067: one interval per marked index not yet covered. *)
Fixpoint changed_loop (need : list nat) (s : sweeper) : res sweeper :=
  match need with
  | [] => Ok s
  | idx :: need' =>
      do! e := line_get (sw_line s) idx in
      if le_changed e then changed_loop need' s else
      do! line := line_upd (sw_line s) idx (mark idx) in
      do! (end_idx, line) := grow_right (length line - S idx) (sw_y s) line (S idx) (S idx) in
      do! (start_idx, line) := grow_left idx (sw_y s) line idx in
      changed_loop need'
        (with_changed_ivs (with_line s line) (sw_changed s ++ [mkCI (start_idx, end_idx) None]))
  end.

Definition ci_cmp (x y : cinterval) : comparison := Nat.compare (fst (ci_segs x)) (fst (ci_segs y)).

(** sweep_line.rs:994-1069 [compute_changed_intervals]. *)
Definition compute_changed (s : sweeper) : res sweeper :=
  match sw_changed s with
  | _ :: _ => Err EAssert
  | [] =>
      do! s := compute_horizontal s in
      do! s := contour_adjacent (sw_need s) s in
      do! s := changed_loop (sw_need s) s in
      Ok (with_changed_ivs s (merge_adjacent (sort_by cinterval ci_cmp (sw_changed s))))
  end.

(** ** One step of the sweep *)

Fixpoint enter_all (s : sweeper) (l : list (f64 * nat)) : res sweeper :=
  match l with
  | [] => Ok s
  | (ey, i) :: l' => if negb (feq ey (sw_y s)) then Err EAssert else
                     do! s := handle_enter s i in enter_all s l'
  end.
Fixpoint exit_all (s : sweeper) (l : list (f64 * nat)) : res sweeper :=
  match l with
  | [] => Ok s
  | (ey, i) :: l' => if negb (feq ey (sw_y s)) then Err EAssert else
                     do! s := handle_exit s i in exit_all s l'
  end.
(** sweep_line.rs:262-268 [next_intersection_at_y] and the loop 377-380, on fuel. *)
Fixpoint intersect_all (fuel : nat) (s : sweeper) : res sweeper :=
  match sw_int s with
  | [] => Ok s
  | ev :: evs =>
      if feq (ie_y ev) (sw_y s) then
        match fuel with
        | 0 => Err EFuel
        | S f => do! s := handle_intersection (with_int s evs) (ie_left ev) (ie_right ev) in intersect_all f s
        end
      else Ok s
  end.

Definition with_counts (s : sweeper) (ne nx : nat) : sweeper :=
  mkSW (sw_y s) (sw_line s) ne nx (sw_int s) (sw_horiz s) (sw_need s) (sw_changed s).

(** sweep_line.rs:346-388 [next_line]: [None] when the sweep is complete. *)
Definition next_line (fuel : nat) (s : sweeper) : res (option sweeper) :=
  match next_y s with
  | None => Ok None
  | Some y =>
      do! s := advance s y in
      let enters := upto_y y (skipn (sw_next_enter s) (enter a)) in
      let s := with_counts s (sw_next_enter s + length enters) (sw_next_exit s) in
      do! s := enter_all s enters in
      let exits := upto_y y (skipn (sw_next_exit s) (exit_ a)) in
      let s := with_counts s (sw_next_enter s) (sw_next_exit s + length exits) in
      do! s := exit_all s exits in
      do! s := intersect_all fuel s in
      do! s := compute_changed s in
      Ok (Some s)
  end.

End Sweep.

(** A complete or partial sweep: the sequence of states, one per sweep line, of at most [n] calls
    of [next_line]; the flag tells whether the sweep is complete.  Step [t] uses the searches
    [fst (pps t)] and [snd (pps t)] (the shape of the tree may change from step to step). *)
Section Run.
Variable a : arena.
Variable eps : f64.
Variables cmp ccmp : nat -> nat -> curve_order.
Variable min_x max_x : segment -> f64.
Variable lower upper : segment -> f64 -> f64 -> f64.
Variable pps : nat -> ((lentry -> bool) -> list lentry -> nat) * ((lentry -> bool) -> list lentry -> nat).
Variable sort_by : forall A : Type, (A -> A -> comparison) -> list A -> list A.
Fixpoint sweep (fuel n t : nat) (s : sweeper) : res (list sweeper * bool) :=
  match n with
  | 0 => Ok ([], false)
  | S n' =>
      do! r := next_line a eps cmp ccmp min_x max_x lower upper (fst (pps t)) (snd (pps t)) sort_by fuel s in
      match r with
      | None => Ok ([], true)
      | Some s' => do! (l, b) := sweep fuel n' (S t) s' in Ok (s' :: l, b)
      end
  end.
End Run.
