(** Model of src/topology.rs: building a [Topology] from the output of the sweep ([from_segments],
    [process_sweep_line_range]) and [merge_coincident].

    Vectors are lists.  A [HalfOutputSegVec] (topology.rs:222-312), two vectors of the same length, is one
    list of pairs (first half, second half).  The sentinel [usize::MAX] for a missing end point is
    [None].  The type of winding numbers is a parameter; arithmetic is that of the
    parameter (overflow of [i32] is not modelled).  Panics are [Err]. *)
From Coq Require Import List Bool ZArith Arith.
From Verif Require Import F64 F64Arith TreeVecModel GeomModel SegmentsModel CurveOrderModel SweepModel RangeModel.
Import ListNotations.

(** topology.rs:29-48 [WindingNumber]: the operations of a type of winding numbers. *)
Record wops (W T : Type) : Type := mkWops {
  w_zero : W;
  w_add : W -> W -> W;
  w_single : T -> bool -> W;
  w_eqb : W -> W -> bool }.
Arguments w_zero {W T}. Arguments w_add {W T}. Arguments w_single {W T}. Arguments w_eqb {W T}.

(** topology.rs:50-111 [BinaryWindingNumber] and [i32]. *)
Definition binary_wops : wops (Z * Z) bool := {|
  w_zero := (0, 0)%Z;
  w_add := fun x y => (Z.add (fst x) (fst y), Z.add (snd x) (snd y));
  w_single := fun tag (pos : bool) => let sign := (if pos then 1%Z else (-1)%Z) in if (tag : bool) then (sign, 0%Z) else (0%Z, sign);
  w_eqb := fun x y => Z.eqb (fst x) (fst y) && Z.eqb (snd x) (snd y) |}.
Definition i32_wops : wops Z unit := {|
  w_zero := 0%Z;
  w_add := Z.add;
  w_single := fun _ (pos : bool) => (if pos then 1%Z else (-1)%Z);
  w_eqb := Z.eqb |}.

(** topology.rs:115-130 [HalfSegmentWindingNumbers]. *)
Record wpair (W : Type) : Type := mkWp { wn_ccw : W; wn_cw : W }.
Arguments mkWp {W}. Arguments wn_ccw {W}. Arguments wn_cw {W}.

(** topology.rs:158-212 [HalfOutputSegIdx], [first_half], [second_half], [other_half]. *)
Record half : Type := mkHalf { h_idx : nat; h_first : bool }.
Definition first_half (i : nat) : half := mkHalf i true.
Definition second_half (i : nat) : half := mkHalf i false.
Definition other_half (h : half) : half := mkHalf (h_idx h) (negb (h_first h)).
Definition half_eqb (h k : half) : bool := (h_idx h =? h_idx k) && Bool.eqb (h_first h) (h_first k).

(** topology.rs:294-312: indexing a [HalfOutputSegVec]. *)
Definition hv_get {A} (v : list (A * A)) (h : half) : option A :=
  option_map (fun p => if h_first h then fst p else snd p) (nth_error v (h_idx h)).
Definition hv_set {A} (v : list (A * A)) (h : half) (x : A) : option (list (A * A)) :=
  match nth_error v (h_idx h) with
  | Some p => upd v (h_idx h) (if h_first h then (x, snd p) else (fst p, x))
  | None => None
  end.

(** topology.rs:341-346 [PointNeighbors]. *)
Record nbrs : Type := mkNb { nb_cw : half; nb_ccw : half }.

(** topology.rs:355-480 [Topology], without [eps], [tag] and [segments], which do not change. *)
Record topo (W : Type) : Type := mkTopo {
  t_open : list (list nat);
  t_wind : list (wpair W);
  t_points : list point;
  t_pidx : list (option nat * option nat);
  t_nbrs : list (nbrs * nbrs);
  t_deleted : list bool;
  t_west : list (option nat);
  t_east : list (option nat);
  t_after : list (f64 * option nat * option nat);
  t_orig : list nat;
  t_pos : list bool }.
Arguments mkTopo {W}. Arguments t_open {W}. Arguments t_wind {W}. Arguments t_points {W}. Arguments t_pidx {W}.
Arguments t_nbrs {W}. Arguments t_deleted {W}. Arguments t_west {W}. Arguments t_east {W}. Arguments t_after {W}.
Arguments t_orig {W}. Arguments t_pos {W}.

Section Topo.
Context {W T : Type}.
Variable ops : wops W T.
Notation topo := (topo W).

Definition with_open (t : topo) o := mkTopo o (t_wind t) (t_points t) (t_pidx t) (t_nbrs t) (t_deleted t) (t_west t) (t_east t) (t_after t) (t_orig t) (t_pos t).
Definition with_wind (t : topo) o : topo := mkTopo (t_open t) o (t_points t) (t_pidx t) (t_nbrs t) (t_deleted t) (t_west t) (t_east t) (t_after t) (t_orig t) (t_pos t).
Definition with_points (t : topo) o := mkTopo (t_open t) (t_wind t) o (t_pidx t) (t_nbrs t) (t_deleted t) (t_west t) (t_east t) (t_after t) (t_orig t) (t_pos t).
Definition with_pidx (t : topo) o := mkTopo (t_open t) (t_wind t) (t_points t) o (t_nbrs t) (t_deleted t) (t_west t) (t_east t) (t_after t) (t_orig t) (t_pos t).
Definition with_nbrs (t : topo) o := mkTopo (t_open t) (t_wind t) (t_points t) (t_pidx t) o (t_deleted t) (t_west t) (t_east t) (t_after t) (t_orig t) (t_pos t).
Definition with_deleted (t : topo) o := mkTopo (t_open t) (t_wind t) (t_points t) (t_pidx t) (t_nbrs t) o (t_west t) (t_east t) (t_after t) (t_orig t) (t_pos t).
Definition with_west (t : topo) o := mkTopo (t_open t) (t_wind t) (t_points t) (t_pidx t) (t_nbrs t) (t_deleted t) o (t_east t) (t_after t) (t_orig t) (t_pos t).
Definition with_east (t : topo) o := mkTopo (t_open t) (t_wind t) (t_points t) (t_pidx t) (t_nbrs t) (t_deleted t) (t_west t) o (t_after t) (t_orig t) (t_pos t).
Definition with_after (t : topo) o := mkTopo (t_open t) (t_wind t) (t_points t) (t_pidx t) (t_nbrs t) (t_deleted t) (t_west t) (t_east t) o (t_orig t) (t_pos t).

(** topology.rs:491-508: the empty topology for [n] segments. *)
Definition topo_new (n : nat) : topo := mkTopo (repeat [] n) [] [] [] [] [] [] [] [] [] [].

(** [self.point_idx[h] = p]; [self.point_neighbors[h].clockwise = k]; [.counter_clockwise = k]. *)
Definition set_point (t : topo) (h : half) (p : nat) : res topo :=
  do! v := orerr EIndex (hv_set (t_pidx t) h (Some p)) in Ok (with_pidx t v).
Definition set_cw (t : topo) (h k : half) : res topo :=
  do! n := orerr EIndex (hv_get (t_nbrs t) h) in
  do! v := orerr EIndex (hv_set (t_nbrs t) h (mkNb k (nb_ccw n))) in Ok (with_nbrs t v).
Definition set_ccw (t : topo) (h k : half) : res topo :=
  do! n := orerr EIndex (hv_get (t_nbrs t) h) in
  do! v := orerr EIndex (hv_set (t_nbrs t) h (mkNb (nb_cw n) k)) in Ok (with_nbrs t v).

(** topology.rs:581-584, 606-609: the half-segments around a point are made into a ring. *)
Definition close_ring (t : topo) (first last : option half) : res topo :=
  match first, last with
  | Some f, Some l => do! t := set_cw t l f in set_ccw t f l
  | _, _ => Ok t
  end.
(** topology.rs:563-585 [add_segs_clockwise]. *)
Fixpoint add_cw_loop (segs : list half) (p : nat) (first last : option half) (t : topo) : res (option half * option half * topo) :=
  match segs with
  | [] => Ok (first, last, t)
  | seg :: segs' =>
      do! t := set_point t seg p in
      let first := match first with None => Some seg | Some f => Some f end in
      do! t := match last with
               | Some l => do! t := set_cw t l seg in set_ccw t seg l
               | None => Ok t
               end in
      add_cw_loop segs' p first (Some seg) t
  end.
Definition add_cw (first last : option half) (segs : list half) (p : nat) (t : topo) : res (option half * option half * topo) :=
  do! (first, last, t) := add_cw_loop segs p first last t in
  do! t := close_ring t first last in Ok (first, last, t).
(** topology.rs:587-610 [add_segs_counter_clockwise]. *)
Fixpoint add_ccw_loop (segs : list half) (p : nat) (first last : option half) (t : topo) : res (option half * option half * topo) :=
  match segs with
  | [] => Ok (first, last, t)
  | seg :: segs' =>
      do! t := set_point t seg p in
      let last := match last with None => Some seg | Some l => Some l end in
      do! t := match first with
               | Some f => do! t := set_ccw t f seg in set_cw t seg f
               | None => Ok t
               end in
      add_ccw_loop segs' p (Some seg) last t
  end.
Definition add_ccw (first last : option half) (segs : list half) (p : nat) (t : topo) : res (option half * option half * topo) :=
  do! (first, last, t) := add_ccw_loop segs p first last t in
  do! t := close_ring t first last in Ok (first, last, t).

(** topology.rs:612-631 [second_half_segs]. *)
Fixpoint second_halves (segs : list nat) (t : topo) : res (list half * topo) :=
  match segs with
  | [] => Ok ([], t)
  | s :: segs' =>
      do! q := orerr EIndex (nth_error (t_open t) s) in
      match q with
      | [] => Err EOpen
      | o :: q =>
          do! op := orerr EIndex (upd (t_open t) s q) in
          do! (hs, t) := second_halves segs' (with_open t op) in
          Ok (second_half o :: hs, t)
      end
  end.

(** topology.rs:645-678 [new_half_seg]. *)
Definition new_half_seg (t : topo) (s p : nat) (w : wpair W) (horizontal pos : bool) : res (nat * topo) :=
  let o := length (t_wind t) in
  do! q := orerr EIndex (nth_error (t_open t) s) in
  do! op := orerr EIndex (upd (t_open t) s (if horizontal then o :: q else q ++ [o])) in
  let no_nbrs := mkNb (first_half o) (first_half o) in
  Ok (o, mkTopo op (t_wind t ++ [w]) (t_points t) (t_pidx t ++ [(Some p, None)]) (t_nbrs t ++ [(no_nbrs, no_nbrs)])
                (t_deleted t ++ [false]) (t_west t ++ [None]) (t_east t ++ [None]) (t_after t) (t_orig t ++ [s]) (t_pos t ++ [pos])).

(** [self.scan_west[o] = w], [self.scan_east[o] = w]. *)
Definition set_west (t : topo) (o : nat) (w : option nat) : res topo :=
  do! v := orerr EIndex (upd (t_west t) o w) in Ok (with_west t v).
Definition set_east (t : topo) (o : nat) (w : option nat) : res topo :=
  do! v := orerr EIndex (upd (t_east t) o w) in Ok (with_east t v).

Section Process.
Variable a : arena.
Variable tag : list T.
(** segments.rs:240-242 [positively_oriented], and [self.tag[seg]]. *)
Definition seg_pos (s : nat) : res bool := orerr EIndex (nth_error (orientation a) s).
Definition seg_tag (s : nat) : res T := orerr EIndex (nth_error tag s).

(** topology.rs:723-737: the segments starting here and going down. *)
Fixpoint downs_loop (segs : list nat) (p : nat) (winding : W) (west last_down : option nat) (t : topo) :
    res (list half * W * option nat * option nat * topo) :=
  match segs with
  | [] => Ok ([], winding, west, last_down, t)
  | s :: segs' =>
      do! o := seg_pos s in
      do! tg := seg_tag s in
      let w := w_add ops winding (w_single ops tg o) in
      do! (h, t) := new_half_seg t s p (mkWp w winding) false o in
      do! t := set_west t h west in
      do! (hs, w, west, last_down, t) := downs_loop segs' p w (Some h) (Some h) t in
      Ok (first_half h :: hs, w, west, last_down, t)
  end.
(** topology.rs:756-769: the horizontals starting here. *)
Fixpoint houts_loop (segs : list (nat * bool)) (p : nat) (w : W) (west : option nat) (t : topo) : res (list half * topo) :=
  match segs with
  | [] => Ok ([], t)
  | (s, same) :: segs' =>
      do! po := seg_pos s in
      let o := Bool.eqb same po in
      do! tg := seg_tag s in
      let w' := w_add ops w (w_single ops tg o) in
      do! (h, t) := new_half_seg t s p (mkWp w' w) true o in
      do! t := set_west t h west in
      do! (hs, t) := houts_loop segs' p w' west t in
      Ok (first_half h :: hs, t)
  end.

Variable sort_by : forall A : Type, (A -> A -> comparison) -> list A -> list A.

(** topology.rs:699-776: the loop over the positions of a range, on fuel. *)
Fixpoint process_loop (fuel : nat) (y : f64) (r : srange) (winding : W) (west last_down : option nat) (t : topo) :
    res (option nat * topo) :=
  match fuel with
  | 0 => Err EFuel
  | S fuel =>
      match rg_x r with
      | None => Ok (last_down, t)
      | Some x =>
          let p := length (t_points t) in
          let t := with_points t (t_points t ++ [mkPoint y x]) in
          do! (hs, t) := second_halves (map hf_seg (rg_active r)) t in
          do! (first, last, t) := add_cw None None hs p t in
          do! (up, down) := segments_at_x sort_by r in
          do! (hs, t) := second_halves up t in
          do! (first, last, t) := add_cw first last hs p t in
          do! (hs, winding, west, last_down, t) := downs_loop down p winding west last_down t in
          do! (first, last, t) := add_ccw first last hs p t in
          let r := increase_x sort_by r in
          do! (hs, t) := houts_loop (map (fun h => (hf_seg h, hf_first h)) (rg_active r)) p winding west t in
          do! (first, last, t) := add_ccw first last hs p t in
          process_loop fuel y r winding west last_down t
      end
  end.

(** [self.open_segs[seg].front()]. *)
Definition open_front (t : topo) (s : nat) : res (option nat) :=
  do! q := orerr EIndex (nth_error (t_open t) s) in Ok (hd_error q).
(** [line_segment(idx)] (sweep_line.rs:1306-1308). *)
Definition line_segment (s : sweeper) (i : nat) : option nat := option_map le_seg (nth_error (sw_line s) i).

(** topology.rs:778-800: the end of [process_sweep_line_range]. *)
Definition scan_links (s : sweeper) (c : cinterval) (last_down : option nat) (t : topo) : res topo :=
  match last_down with
  | Some o =>
      match nth_error (sw_line s) (snd (ci_segs c)) with
      | Some e => if le_changed e then Ok t else do! f := open_front t (le_seg e) in set_east t o f
      | None => Ok t
      end
  | None =>
      let nbr o := match o with
                   | None => Ok None
                   | Some i => do! f := open_front t i in do! o := orerr EOpen f in Ok (Some o)
                   end in
      do! west := nbr (match fst (ci_segs c) with 0 => None | S i => line_segment s i end) in
      do! east := nbr (line_segment s (snd (ci_segs c))) in
      Ok match west, east with
         | None, None => t
         | _, _ => with_after t (t_after t ++ [(sw_y s, west, east)])
         end
  end.
(** topology.rs:680-801 [process_sweep_line_range]. *)
Definition process_range (fuel : nat) (s : sweeper) (c : cinterval) (evs : list oevent) (west : option nat) (t : topo) : res topo :=
  do! winding := match west with
                 | None => Ok (w_zero ops)
                 | Some o => do! w := orerr EIndex (nth_error (t_wind t) o) in Ok (wn_ccw w)
                 end in
  do! (last_down, t) := process_loop fuel (sw_y s) (rg_new evs) winding west None t in
  scan_links s c last_down t.

(** topology.rs:515-522: the segment to the west of a range. *)
Definition range_west (s : sweeper) (c : cinterval) (t : topo) : res (option nat) :=
  match fst (ci_segs c) with
  | 0 => Ok None
  | S i =>
      do! prev := orerr EIndex (line_segment s i) in
      do! f := open_front t prev in
      match f with None => Err EAssert | Some o => Ok (Some o) end
  end.

Variable eps : f64.
Variables lower upper : segment -> f64 -> f64 -> f64.
Variable at_y : segment -> f64 -> f64.

(** topology.rs:514-524: the ranges of one line; [n] intervals are left, [k] is the next. *)
Fixpoint process_line (fuel : nat) (s : sweeper) (n k : nat) (buf : list lentry) (t : topo) : res (list lentry * topo) :=
  match n with
  | 0 => Ok (buf, t)
  | S n =>
      do! r := next_range a eps lower upper at_y sort_by s buf k in
      match r with
      | None => Ok (buf, t)
      | Some (evs, c, buf) =>
          do! west := range_west s c t in
          do! t := process_range fuel s c evs west t in
          process_line fuel s n (S k) buf t
      end
  end.
(** topology.rs:513-525: all lines.  (The loop of the code calls [next_line] in between; the sweep does not
    depend on the topology.) *)
Fixpoint process_lines (fuel : nat) (l : list sweeper) (buf : list lentry) (t : topo) : res topo :=
  match l with
  | [] => Ok t
  | s :: l => do! (buf, t) := process_line fuel s (length (sw_changed s)) 0 buf t in process_lines fuel l buf t
  end.
End Process.

(** ** Merging coincident segments *)
(** topology.rs:803-813 [delete_half], [delete]. *)
Definition delete_half (t : topo) (h : half) : res topo :=
  do! n := orerr EIndex (hv_get (t_nbrs t) h) in
  do! t := set_ccw t (nb_cw n) (nb_ccw n) in
  set_cw t (nb_ccw n) (nb_cw n).
Definition delete (t : topo) (o : nat) : res topo :=
  do! d := orerr EIndex (upd (t_deleted t) o true) in
  let t := with_deleted t d in
  do! t := delete_half t (first_half o) in
  delete_half t (second_half o).

(** topology.rs:909-911 [point]. *)
Definition point_of (t : topo) (h : half) : res point :=
  do! p := orerr EIndex (hv_get (t_pidx t) h) in
  do! p := orerr EIndex p in
  orerr EIndex (nth_error (t_points t) p).

(** The test 854-864 that the control points of the parts of two segments between two heights are close. *)
Variable close : nat -> nat -> f64 -> f64 -> bool.
Definition opt_eqb (x y : option nat) : bool :=
  match x, y with Some i, Some j => i =? j | None, None => true | _, _ => false end.

(** topology.rs:831-877: the body of the loop of [merge_coincident]. *)
Definition merge_one (t : topo) (o : nat) : res topo :=
  do! d := orerr EIndex (nth_error (t_deleted t) o) in
  if (d : bool) then Ok t else
  do! n := orerr EIndex (hv_get (t_nbrs t) (first_half o)) in
  let cw := nb_cw n in
  do! p := orerr EIndex (hv_get (t_pidx t) (second_half o)) in
  do! q := orerr EIndex (hv_get (t_pidx t) (other_half cw)) in
  if opt_eqb p q then
    do! y0 := point_of t (first_half o) in
    do! y1 := point_of t (second_half o) in
    let y0 := py y0 in let y1 := py y1 in
    do! w := orerr EIndex (nth_error (t_west t) o) in
    do! s1 := orerr EIndex (nth_error (t_orig t) o) in
    do! s2 := orerr EIndex (nth_error (t_orig t) (h_idx cw)) in
    if fne y0 y1 && negb (opt_eqb w (Some (h_idx cw))) then Ok t else
    if fne y0 y1 && negb (close s1 s2 y0 y1) then Ok t else
    if negb (h_first cw) then Err EAssert else
    do! t := delete t o in
    do! wi := orerr EIndex (nth_error (t_wind t) o) in
    do! wn := orerr EIndex (nth_error (t_wind t) (h_idx cw)) in
    let wn := mkWp (wn_ccw wi) (wn_cw wn) in
    do! v := orerr EIndex (upd (t_wind t) (h_idx cw) wn) in
    let t := with_wind t v in
    if w_eqb ops (wn_ccw wn) (wn_cw wn) then delete t (h_idx cw) else Ok t
  else Ok t.
(** topology.rs:829-879 [merge_coincident]. *)
Fixpoint merge_loop (n o : nat) (t : topo) : res topo :=
  match n with 0 => Ok t | S n => do! t := merge_one t o in merge_loop n (S o) t end.
Definition merge_coincident (t : topo) : res topo := merge_loop (length (t_wind t)) 0 t.

(** topology.rs:882-906 [segment_indices], [winding_clockwise], [winding_counter_clockwise]. *)
Definition segment_indices (t : topo) : list nat :=
  filter (fun o => match nth_error (t_deleted t) o with Some d => negb d | None => false end) (seq 0 (length (t_wind t))).
Definition winding_cw (t : topo) (h : half) : option W :=
  option_map (fun w => if h_first h then wn_cw w else wn_ccw w) (nth_error (t_wind t) (h_idx h)).
Definition winding_ccw (t : topo) (h : half) : option W :=
  option_map (fun w => if h_first h then wn_ccw w else wn_cw w) (nth_error (t_wind t) (h_idx h)).
End Topo.

(** topology.rs:490-537 [from_segments]. *)
Definition from_segments {W T : Type} (ops : wops W T) (a : arena) (tag : list T) (eps : f64) (cmp ccmp : nat -> nat -> curve_order)
  (min_x max_x : segment -> f64) (lower upper : segment -> f64 -> f64 -> f64) (at_y : segment -> f64 -> f64)
  (pps : nat -> ((lentry -> bool) -> list lentry -> nat) * ((lentry -> bool) -> list lentry -> nat))
  (sort_by : forall A : Type, (A -> A -> comparison) -> list A -> list A)
  (close : nat -> nat -> f64 -> f64 -> bool) (fuel n : nat) : res (topo W) :=
  do! (l, done) := sweep a eps cmp ccmp min_x max_x lower upper pps sort_by fuel n 0 (sweeper_new a) in
  if negb done then Err EFuel else
  do! t := process_lines ops a tag sort_by eps lower upper at_y fuel l [] (topo_new (arena_len a)) in
  merge_coincident ops close t.
