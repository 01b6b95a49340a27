(** Specification of TreeVec: the plain vector, and operation histories.

    [vec_step] is what the same call does on Rust's [Vec]; [tree_step] runs the model of
    treevec.rs.  [None] is a panic, which ends the history. *)
From Coq Require Import List Arith Bool.
From Verif Require Import TreeVecModel.
Import ListNotations.

Inductive tv_op (T : Type) : Type :=
| OpInsert (i : nat) (x : T)          (* insert(i, x) *)
| OpRemove (i : nat)                  (* remove(i) *)
| OpGet (i : nat)                     (* get(i) *)
| OpGetMut (i : nat) (x : T)          (* if let Some(r) = get_mut(i) { *r = x } *)
| OpIndex (i : nat)                   (* v[i] *)
| OpIndexMut (i : nat) (x : T)        (* v[i] = x *)
| OpLen                               (* len() *)
| OpIsEmpty                           (* is_empty() *)
| OpIter                              (* iter().collect() *)
| OpRange (a b : bound)               (* range((a, b)).collect() *)
| OpCheck                             (* check_invariants() *)
| OpIterMut (f : nat -> T -> T)       (* for (k, r) in iter_mut().enumerate() { *r = f(k, *r) } *)
| OpRangeMut (a b : bound) (f : nat -> T -> T). (* the same loop over range_mut((a, b)) *)
Arguments OpInsert {T} i x.  Arguments OpRemove {T} i.  Arguments OpGet {T} i.
Arguments OpGetMut {T} i x.  Arguments OpIndex {T} i.  Arguments OpIndexMut {T} i x.
Arguments OpLen {T}.  Arguments OpIsEmpty {T}.  Arguments OpIter {T}.  Arguments OpRange {T} a b.
Arguments OpCheck {T}.  Arguments OpIterMut {T} f.  Arguments OpRangeMut {T} a b f.

Inductive tv_out (T : Type) : Type :=
| OutUnit | OutElem (x : T) | OutOpt (o : option T) | OutNat (n : nat) | OutBool (b : bool)
| OutList (l : list T) | OutPanic.
Arguments OutUnit {T}.  Arguments OutElem {T} x.  Arguments OutOpt {T} o.
Arguments OutNat {T} n.  Arguments OutBool {T} b.  Arguments OutList {T} l. Arguments OutPanic {T}.

(** [f k x] for the elements [x] numbered from [k] on. *)
Fixpoint mapi_from {T} (k : nat) (f : nat -> T -> T) (l : list T) : list T :=
  match l with [] => [] | x :: l' => f k x :: mapi_from (S k) f l' end.

(** The plain vector. *)
Definition vec_step {T} (l : list T) (o : tv_op T) : option (list T * tv_out T) :=
  match o with
  | OpInsert i x => if i <=? length l then Some (firstn i l ++ x :: skipn i l, OutUnit) else None
  | OpRemove i => match nth_error l i with
                  | Some x => Some (firstn i l ++ skipn (S i) l, OutElem x)
                  | None => None end
  | OpGet i => Some (l, OutOpt (nth_error l i))
  | OpGetMut i x => Some (if i <? length l then firstn i l ++ x :: skipn (S i) l else l, OutUnit)
  | OpIndex i => match nth_error l i with Some x => Some (l, OutElem x) | None => None end
  | OpIndexMut i x => if i <? length l then Some (firstn i l ++ x :: skipn (S i) l, OutUnit) else None
  | OpLen => Some (l, OutNat (length l))
  | OpIsEmpty => Some (l, OutBool (length l =? 0))
  | OpIter => Some (l, OutList l)
  | OpRange a b =>
      let start := match a with Included x => x | Excluded x => S x | Unbounded => 0 end in
      let end_ := match b with Included x => S x | Excluded x => x | Unbounded => length l end in
      if (start <=? end_) && (end_ <=? length l)
      then Some (l, OutList (firstn (end_ - start) (skipn start l))) else None
  | OpCheck => Some (l, OutUnit)
  | OpIterMut f => Some (mapi_from 0 f l, OutUnit)
  | OpRangeMut a b f =>
      let start := match a with Included x => x | Excluded x => S x | Unbounded => 0 end in
      let end_ := match b with Included x => S x | Excluded x => x | Unbounded => length l end in
      if (start <=? end_) && (end_ <=? length l)
      then Some (firstn start l ++ mapi_from 0 f (firstn (end_ - start) (skipn start l)) ++ skipn end_ l, OutUnit)
      else None
  end.

(** The model of treevec.rs.  Iterators are driven until they return [None]; the fuel is one
    more than the length, and running out of fuel would be reported as a panic. *)
Definition tree_step {T} (B : nat) (t : node T) (o : tv_op T) : option (node T * tv_out T) :=
  match o with
  | OpInsert i x => let! t' := tv_insert B t i x in Some (t', OutUnit)
  | OpRemove i => let! (x, t') := tv_remove B t i in Some (t', OutElem x)
  | OpGet i => let! r := tv_get t i in Some (t, OutOpt r)
  | OpGetMut i x => let! r := node_set t i x in
                    Some (match r with Some t' => t' | None => t end, OutUnit)
  | OpIndex i => let! x := tv_index t i in Some (t, OutElem x)
  | OpIndexMut i x => let! t' := tv_set t i x in Some (t', OutUnit)
  | OpLen => Some (t, OutNat (tv_len t))
  | OpIsEmpty => Some (t, OutBool (tv_is_empty t))
  | OpIter => let! it := tv_iter t in let! l := iter_collect (S (tv_len t)) it in Some (t, OutList l)
  | OpRange a b =>
      let (s, e) := normalize_bounds (tv_len t) a b in
      let! it := tv_range t s e in let! l := iter_collect (S (tv_len t)) it in Some (t, OutList l)
  | OpCheck => if node_check B true t then Some (t, OutUnit) else None
  | OpIterMut f => let! t' := tv_iter_mut t f in Some (t', OutUnit)
  | OpRangeMut a b f =>
      let (s, e) := normalize_bounds (tv_len t) a b in
      let! t' := tv_range_mut t s e f in Some (t', OutUnit)
  end.

(** Run a history: the outputs (ending with [OutPanic] if a call panics) and the final state. *)
Fixpoint run {S T} (step : S -> tv_op T -> option (S * tv_out T)) (s : S) (ops : list (tv_op T))
  : list (tv_out T) * option S :=
  match ops with
  | [] => ([], Some s)
  | o :: ops' =>
      match step s o with
      | None => ([OutPanic], None)
      | Some (s', r) => let (rs, f) := run step s' ops' in (r :: rs, f)
      end
  end.

(** ** Structure of the trees *)

(** The elements of a tree, in order. *)
Fixpoint elems {T} (n : node T) : list T :=
  match n with
  | Leaf data => data
  | Internal _ children => flat_map elems children
  end.

(** The number of elements of a tree. *)
Definition ln {T} (n : node T) : nat := length (elems n).

(** Balanced tree of height [h] (number of internal levels): the top node has between
    [lo] and [B] entries, every other node between [B/2] and [B]; recorded sizes are exact. *)
Fixpoint wf {T} (B lo h : nat) (n : node T) {struct h} : Prop :=
  match h, n with
  | 0, Leaf data => lo <= length data <= B
  | S h', Internal size children =>
      lo <= length children <= B /\
      size = map ln children /\
      Forall (wf B (B / 2) h') children
  | _, _ => False
  end.

(** Well-formed container. *)
Definition tv_wf {T} (B h : nat) (t : node T) : Prop :=
  wf B (match h with 0 => 0 | _ => 2 end) h t.

(** ** Boundaries of a predicate *)

(** [o] is a true/false boundary of [p] in [l]. *)
Definition boundary {A} (p : A -> bool) (l : list A) (o : nat) : Prop :=
  o <= length l /\
  (forall x, nth_error l o = Some x -> p x = false) /\
  (forall o' x, o = S o' -> nth_error l o' = Some x -> p x = true).

Definition pp_ok (pp : slice_pp) : Prop :=
  forall A (p : A -> bool) l, exists o, pp A p l = Some o /\ boundary p l o.


(** Call [next] [k + 1] times and report the result of the last call. *)
Fixpoint iter_call {T} (k : nat) (it : iter T) : option (option T) :=
  let! (o, it') := iter_next it in
  match k with
  | 0 => Some o
  | S k' => iter_call k' it'
  end.
