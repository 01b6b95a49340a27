(** The segments of a range in the old and in the new order: [SweepLine::old_segment_range] and [SweepLine::segment_range]. *)
From Coq Require Import List Bool Arith.
From Verif Require Import F64 SegmentsModel SweepModel RangeModel.
Import ListNotations.

(** sweep_line.rs:1330-1342: the loop of [old_segment_range].  [k] counts the entries from the beginning of the range (as [enumerate] does), [ret] is
    the vector being filled.  [EOldIdx] is the overflow of [idx - range.start], [EIndex] an index beyond the end of [ret]. *)
Fixpoint fill_segs (start k : nat) (l : list lentry) (ret : list (option nat)) : res (list (option nat)) :=
  match l with
  | [] => Ok ret
  | e :: l' =>
      match (if le_enter e then le_old_seg e else Some (le_seg e)) with
      | None => fill_segs start (S k) l' ret
      | Some g =>
          let i := match le_old_idx e with Some i => i | None => k end in
          if start <=? i
          then do! ret := orerr EIndex (upd ret (i - start) (Some g)) in fill_segs start (S k) l' ret
          else Err EOldIdx
      end
  end.
(** sweep_line.rs:1344: [ret.into_iter().flatten()]. *)
Definition flatten (l : list (option nat)) : list nat := flat_map (fun o => match o with Some x => [x] | None => [] end) l.
(** sweep_line.rs:1325-1345 [old_segment_range], range.rs:336-339. *)
Definition old_segment_range (s : sweeper) (r : nat * nat) : res (list nat) :=
  do! l := slice (sw_line s) r in
  do! ret := fill_segs (fst r) 0 l (repeat None (snd r - fst r)) in
  Ok (flatten ret).
(** sweep_line.rs:1349-1360 [segment_range], range.rs:348-351. *)
Definition segment_range (s : sweeper) (r : nat * nat) : res (list nat) :=
  do! l := slice (sw_line s) r in
  Ok (flat_map (fun e => if le_exit e && match le_old_seg e with None => true | Some _ => false end then [] else [le_seg e]) l).
