(** Model of how the positions on one sweep line are assigned and enumerated:
    sweep/output_event.rs, sweep/range.rs and sweep/sweep_line.rs:1237-1600
    ([feasible_horizontal_positions], [next_range_single_seg], [next_range]). *)
From Coq Require Import List Bool ZArith Arith.
From Verif Require Import F64 F64Arith TreeVecModel GeomModel SegmentsModel CurveOrderModel SweepModel.
Import ListNotations.

(** output_event.rs:19-44 [OutputEvent]. *)
Record oevent : Type := mkEv {
  ev_x0 : f64;
  ev_above : bool;
  ev_x1 : f64;
  ev_below : bool;
  ev_seg : nat;
  ev_sweep : option nat;
  ev_old : option nat }.

(** output_event.rs:50-57 [smaller_x], [larger_x]. *)
Definition ev_lo (e : oevent) : f64 := fmin (ev_x0 e) (ev_x1 e).
Definition ev_hi (e : oevent) : f64 := fmax (ev_x0 e) (ev_x1 e).
(** output_event.rs:80-87 [connected_above_at], [connected_below_at]. *)
Definition ev_above_at (x : f64) (e : oevent) : bool := feq x (ev_x0 e) && ev_above e.
Definition ev_below_at (x : f64) (e : oevent) : bool := feq x (ev_x1 e) && ev_below e.
(** output_event.rs:90-99 [Ord for OutputEvent]. *)
Definition ev_cmp (a b : oevent) : comparison :=
  match cof_cmp (ev_lo a) (ev_lo b) with Eq => cof_cmp (ev_hi a) (ev_hi b) | c => c end.

(** range.rs:11-57 [HFrag]. *)
Record hfrag : Type := mkHF {
  hf_seg : nat;
  hf_start : f64;
  hf_end : f64;
  hf_cs : bool;
  hf_ce : bool;
  hf_first : bool;
  hf_sweep : option nat;
  hf_old : option nat }.

(** range.rs:60-89 [HFrag::from_position]. *)
Definition hf_from (e : oevent) : option hfrag :=
  if feq (ev_x0 e) (ev_x1 e) then None
  else Some (if flt (ev_x0 e) (ev_x1 e)
             then mkHF (ev_seg e) (ev_x0 e) (ev_x1 e) (ev_above e) (ev_below e) true (ev_sweep e) (ev_old e)
             else mkHF (ev_seg e) (ev_x1 e) (ev_x0 e) (ev_below e) (ev_above e) false (ev_sweep e) (ev_old e)).
(** range.rs:92-101 [connected_above_at], [connected_below_at]. *)
Definition hf_above_at (x : f64) (h : hfrag) : bool :=
  (feq x (hf_start h) && hf_first h && hf_cs h) || (feq x (hf_end h) && negb (hf_first h) && hf_ce h).
Definition hf_below_at (x : f64) (h : hfrag) : bool :=
  (feq x (hf_start h) && negb (hf_first h) && hf_cs h) || (feq x (hf_end h) && hf_first h && hf_ce h).

(** range.rs:111-117 [SweepLineRange], with the buffer [active_horizontals] (430) inlined; the line and the
    changed interval are kept apart. *)
Record srange : Type := mkRG { rg_last : option f64; rg_active : list hfrag; rg_events : list oevent }.

(** range.rs:120-138 [SweepLineRange::new]; the callers clear the buffer first. *)
Definition rg_new (evs : list oevent) : srange := mkRG None [] evs.

(** range.rs:145-155 [x]. *)
Definition rg_x (r : srange) : option f64 :=
  match rg_active r, rg_events r with
  | [], [] => None
  | [], e :: _ => Some (ev_lo e)
  | h :: _, [] => Some (hf_end h)
  | h :: _, e :: _ => Some (fmin (hf_end h) (ev_lo e))
  end.

(** range.rs:157-161 [positions_at_x]. *)
Fixpoint take_while {A} (p : A -> bool) (l : list A) : list A :=
  match l with [] => [] | x :: l' => if p x then x :: take_while p l' else [] end.
Definition rg_at (x : f64) (r : srange) : list oevent := take_while (fun e => feq (ev_lo e) x) (rg_events r).

(** range.rs:314-322 [drain_active_horizontals]: everything before the first fragment ending beyond
    [x] is dropped. *)
Fixpoint drop_while {A} (p : A -> bool) (l : list A) : list A :=
  match l with [] => [] | x :: l' => if p x then drop_while p l' else l end.
Definition drain (x : f64) (l : list hfrag) : list hfrag := drop_while (fun h => negb (fgt (hf_end h) x)) l.

(** The loops over [output_events] in [events] (265-284) and [increase_x] (299-308): the events up to [x]
    are taken. *)
Fixpoint take_upto (x : f64) (l : list oevent) : list oevent * list oevent :=
  match l with
  | [] => ([], [])
  | e :: l' => if fgt (ev_lo e) x then ([], l) else let (t, r) := take_upto x l' in (e :: t, r)
  end.
Fixpoint frags (l : list oevent) : list hfrag :=
  match l with
  | [] => []
  | e :: l' => match hf_from e with Some h => h :: frags l' | None => frags l' end
  end.
Definition hf_cmp (a b : hfrag) : comparison := cof_cmp (hf_end a) (hf_end b).

Section Sorted.
(** [slice::sort], [slice::sort_by_key]. *)
Variable sort_by : forall A : Type, (A -> A -> comparison) -> list A -> list A.

(** [usize] keys. *)
Definition key_cmp (a b : nat * nat) : comparison := Nat.compare (snd a) (snd b).
Fixpoint keyed {A} (p : A -> bool) (seg : A -> nat) (idx : A -> option nat) (l : list A) : res (list (nat * nat)) :=
  match l with
  | [] => Ok []
  | x :: l' =>
      if p x then do! i := orerr ESweepIdx (idx x) in do! r := keyed p seg idx l' in Ok ((seg x, i) :: r)
      else keyed p seg idx l'
  end.

(** range.rs:164-203 [update_segments_at_x], and [connected_up] / [connected_down] (409-421): the segments
    connected upwards and downwards at the present position.  In the code the two loops push to
    both lists at once; here each list is computed by itself. *)
Definition segments_at_x (r : srange) : res (list nat * list nat) :=
  match rg_x r with
  | None => Ok ([], [])
  | Some x =>
      do! u1 := keyed (hf_above_at x) hf_seg hf_old (rg_active r) in
      do! d1 := keyed (hf_below_at x) hf_seg hf_sweep (rg_active r) in
      do! u2 := keyed (ev_above_at x) ev_seg ev_old (rg_at x r) in
      do! d2 := keyed (ev_below_at x) ev_seg ev_sweep (rg_at x r) in
      Ok (map fst (sort_by _ key_cmp (u1 ++ u2)), map fst (sort_by _ key_cmp (d1 ++ d2)))
  end.

(** range.rs:294-312 [increase_x]. *)
Definition increase_x (r : srange) : srange :=
  match rg_x r with
  | None => mkRG (rg_last r) (sort_by _ hf_cmp (rg_active r)) (rg_events r)
  | Some x =>
      let (t, rest) := take_upto x (rg_events r) in
      mkRG (rg_last r) (sort_by _ hf_cmp (drain x (rg_active r) ++ frags t)) rest
  end.

(** range.rs:235-258: the piece of an active fragment between [x0] and [next_x]. *)
Definition hf_piece (x0 next_x : f64) (h : hfrag) : oevent :=
  let x1 := fmin next_x (hf_end h) in
  let ce := feq x1 (hf_end h) && hf_ce h in
  let cs := feq x0 (hf_start h) && hf_cs h in
  if hf_first h then mkEv x0 cs x1 ce (hf_seg h) (hf_sweep h) (hf_old h)
  else mkEv x1 ce x0 cs (hf_seg h) (hf_sweep h) (hf_old h).
(** range.rs:230-291 [events]: [None] if there is nothing left. *)
Definition rg_events_step (r : srange) : res (option (list oevent * srange)) :=
  match rg_x r with
  | None => Ok None
  | Some x =>
      do! pieces := match rg_active r with
                    | [] => Ok []
                    | _ => do! x0 := orerr ELastX (rg_last r) in Ok (map (hf_piece x0 x) (rg_active r))
                    end in
      let (t, rest) := take_upto x (rg_events r) in
      Ok (Some (pieces ++ filter (fun e => feq (ev_x0 e) (ev_x1 e)) t,
                mkRG (Some x) (sort_by _ hf_cmp (drain x (rg_active r) ++ frags t)) rest))
  end.

End Sorted.

(** ** Assigning positions *)
Section Positions.
Variable a : arena.
Variable eps : f64.
(** [Segment::lower], [upper], [at_y] (geom.rs:327-382). *)
Variables lower upper : segment -> f64 -> f64 -> f64.
Variable at_y : segment -> f64 -> f64.
Variable sort_by : forall A : Type, (A -> A -> comparison) -> list A -> list A.

Notation seg_at := (seg_at a).
(** geom.rs:327-331: the assertion at the beginning of [at_y]. *)
Definition x_at (s : segment) (y : f64) : res f64 :=
  if fle (py (seg_start s)) y && fle y (py (seg_end s)) then Ok (at_y s y) else Err EAssert.

(** sweep_line.rs:1246-1261: the loop over the entries, returning the lower ends of the bands and the extremes of
    the positions. *)
Fixpoint feas_forward (entry_seg : lentry -> nat) (y : f64) (l : list lentry) (max_so_far max min : f64) :
    res (list (lentry * f64) * f64 * f64) :=
  match l with
  | [] => Ok ([], max, min)
  | e :: l' =>
      do! seg := seg_at (entry_seg e) in
      let m := fmax max_so_far (lower seg y eps) in
      do! x := x_at seg y in
      do! (r, max, min) := feas_forward entry_seg y l' m (fmax max x) (fmin min x) in
      Ok ((e, m) :: r, max, min)
  end.
(** sweep_line.rs:1263-1270: the loop from right to left; also returns [min_so_far]. *)
Fixpoint feas_backward (entry_seg : lentry -> nat) (y : f64) (l : list (lentry * f64)) (max min : f64) :
    res (list (lentry * f64 * f64) * f64) :=
  match l with
  | [] => Ok ([], finfinity)
  | (e, lo) :: l' =>
      do! (r, m) := feas_backward entry_seg y l' max min in
      do! seg := seg_at (entry_seg e) in
      let m := fmin m (upper seg y eps) in
      Ok ((e, fmax lo min, fmin m max) :: r, m)
  end.
(** sweep_line.rs:1237-1271 [feasible_horizontal_positions]. *)
Definition feasible (entry_seg : lentry -> nat) (y : f64) (l : list lentry) : res (list (lentry * f64 * f64)) :=
  do! (r, max, min) := feas_forward entry_seg y l fneginf fneginf finfinity in
  do! (out, _) := feas_backward entry_seg y r max min in
  Ok out.

(** [preferred.max(min_x).max(max_so_far).min(max_x)]. *)
Definition clamp (preferred lo so_far hi : f64) : f64 := fmin (fmax (fmax preferred lo) so_far) hi.

(** sweep_line.rs:1379-1437 [next_range_single_seg]. *)
Definition single_seg (s : sweeper) (idx : nat) : res (list oevent) :=
  do! e := line_get (sw_line s) idx in
  do! seg := seg_at (le_seg e) in
  do! x := x_at seg (sw_y s) in
  Ok match le_old_seg e with
     | Some old => [mkEv x true x false old None (le_old_idx e); mkEv x false x true (le_seg e) (Some idx) None]
     | None => [mkEv x (negb (le_enter e)) x (negb (le_exit e)) (le_seg e) (Some idx) (le_old_idx e)]
     end.

(** sweep_line.rs:1460-1469: the unused entry (its segment index is 424242 in the code; the theorems show that it
    is always overwritten). *)
Definition dummy_entry : lentry := mkLE 0 false false fzero fzero false None None.
Definition resize (l : list lentry) (n : nat) : list lentry := firstn n l ++ repeat dummy_entry (n - length l).
(** [old_idx.unwrap() - range.segs.start]. *)
Definition old_pos (start : nat) (e : lentry) : res nat :=
  do! i := orerr EOldIdx (le_old_idx e) in if start <=? i then Ok (i - start) else Err EOldIdx.
(** sweep_line.rs:1475-1477: the entries are put in their old order. *)
Fixpoint fill_old (start : nat) (l buf : list lentry) : res (list lentry) :=
  match l with
  | [] => Ok buf
  | e :: l' => do! i := old_pos start e in do! buf := orerr EIndex (upd buf i e) in fill_old start l' buf
  end.

(** sweep_line.rs:1497-1523: positions just above the line; the placeholder for [x1] is 42.42 in the code. *)
Fixpoint place_old (y : f64) (l : list (lentry * f64 * f64)) (so_far : f64) : res (list oevent) :=
  match l with
  | [] => Ok []
  | (e, lo, hi) :: l' =>
      do! pref :=
        (if le_exit e then do! g := seg_at (le_old e) in Ok (px (seg_end g))
         else do! g := seg_at (le_seg e) in if le_enter e then Ok (px (seg_start g)) else x_at g y) in
      let x := clamp pref lo so_far hi in
      do! r := place_old y l' x in
      Ok (mkEv x (match le_old_seg e with Some _ => true | None => negb (le_enter e) end) fzero (negb (le_exit e))
               (le_old e) None (le_old_idx e) :: r)
  end.
(** sweep_line.rs:1538-1568: positions just below the line; [idx] is the index of the head of [l]. *)
Fixpoint place_new (y : f64) (start : nat) (l : list (lentry * f64 * f64)) (idx : nat) (so_far : f64) (evs : list oevent) :
    res (list oevent) :=
  match l with
  | [] => Ok evs
  | (e, lo, hi) :: l' =>
      do! i := old_pos start e in
      do! ev := orerr EIndex (nth_error evs i) in
      if negb (ev_seg ev =? le_old e) then Err EAssert else
      do! pref := (if fle lo (ev_x0 ev) && fle (ev_x0 ev) hi then Ok (ev_x0 ev)
                   else do! g := seg_at (le_seg e) in x_at g y) in
      let x1 := clamp pref lo so_far hi in
      do! evs := orerr EIndex (upd evs i
         (mkEv (ev_x0 ev) (ev_above ev) x1 (ev_below ev) (ev_seg ev) (Some (start + idx)) (ev_old ev))) in
      let evs := match le_old_seg e with
                 | Some _ => evs ++ [mkEv x1 false x1 true (le_seg e) (Some (start + idx)) None]
                 | None => evs
                 end in
      place_new y start l' (S idx) x1 evs
  end.
(** sweep_line.rs:1574-1582: true ends of segments. *)
Fixpoint snap_ends (l : list oevent) : res (list oevent) :=
  match l with
  | [] => Ok []
  | e :: l' =>
      do! g := seg_at (ev_seg e) in
      do! r := snap_ends l' in
      Ok (mkEv (if ev_above e then ev_x0 e else px (seg_start g)) (ev_above e)
               (if ev_below e then ev_x1 e else px (seg_end g)) (ev_below e) (ev_seg e) (ev_sweep e) (ev_old e) :: r)
  end.
(** sweep_line.rs:1584-1597: events of horizontal segments. *)
Fixpoint horizontal_events (hs : list nat) : res (list oevent) :=
  match hs with
  | [] => Ok []
  | h :: hs' =>
      do! g := seg_at h in
      do! r := horizontal_events hs' in
      Ok (mkEv (px (seg_start g)) false (px (seg_end g)) false h None None :: r)
  end.
(** [&v[a..b]]. *)
Definition slice {A} (l : list A) (p : nat * nat) : res (list A) :=
  if (fst p <=? snd p) && (snd p <=? length l) then Ok (firstn (snd p - fst p) (skipn (fst p) l)) else Err EIndex.

(** sweep_line.rs:1441-1604 [next_range] for changed interval [c]: the sorted output events.  [buf] is what the
    reused buffer [old_line] contains. *)
Definition range_events (s : sweeper) (buf : list lentry) (c : cinterval) : res (list oevent * list lentry) :=
  let start := fst (ci_segs c) in let end_ := snd (ci_segs c) in
  if (end_ - start =? 1) && match ci_hor c with None => true | Some _ => false end then
    do! evs := single_seg s start in Ok (evs, buf)
  else
  if end_ <? start then Err EIndex else
  do! entries := slice (sw_line s) (ci_segs c) in
  do! old_line := fill_old start entries (resize buf (end_ - start)) in
  do! pos := feasible le_old (sw_y s) old_line in
  do! evs := place_old (sw_y s) pos fneginf in
  do! pos := feasible le_seg (sw_y s) entries in
  do! evs := place_new (sw_y s) start pos 0 fneginf evs in
  do! evs := snap_ends evs in
  do! hevs := match ci_hor c with
              | None => Ok []
              | Some h => do! hs := slice (sw_horiz s) h in horizontal_events hs
              end in
  Ok (sort_by _ ev_cmp (evs ++ hevs), entries).

(** [next_range]: [next_changed_interval] is [k]. *)
Definition next_range (s : sweeper) (buf : list lentry) (k : nat) : res (option (list oevent * cinterval * list lentry)) :=
  match nth_error (sw_changed s) k with
  | None => Ok None
  | Some c => do! (evs, buf) := range_events s buf c in Ok (Some (evs, c, buf))
  end.

End Positions.
