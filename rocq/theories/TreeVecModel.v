(** Model of src/treevec.rs: [TreeVec<T, B>], a vector implemented as a short, wide tree.

    Conventions: a Rust panic is [None]; [&mut self] methods return the new value;
    [ArrayVec<_, B>] is a [list] whose capacity [B] is checked by every operation that
    can overflow it (arrayvec: [insert]/[push]/[extend]/[collect] panic when full,
    [insert]/[remove] panic when out of bounds).  [debug_assert!]s are modelled as
    panics (debug build); the proofs show they never fire.  Simplification: [usize]
    is [nat] (no 2^64 wrap-around of sizes). *)
From Coq Require Import List Arith Bool.
Import ListNotations.

(** ** ArrayVec and slices *)

(** arrayvec 0.7 [ArrayVec::insert]: panics if full or if [i > len]. *)
Definition av_insert {A} (B : nat) (l : list A) (i : nat) (x : A) : option (list A) :=
  if (length l <? B) && (i <=? length l)
  then Some (firstn i l ++ x :: skipn i l) else None.

(** arrayvec [ArrayVec::remove]: panics if [i >= len]. *)
Definition av_remove {A} (l : list A) (i : nat) : option (A * list A) :=
  match nth_error l i with
  | Some x => Some (x, firstn i l ++ skipn (S i) l)
  | None => None
  end.

(** arrayvec [extend] / [collect]: panics on overflow. *)
Definition av_extend {A} (B : nat) (l m : list A) : option (list A) :=
  if length l + length m <=? B then Some (l ++ m) else None.

(** [l[i] = x] on a slice, panics out of bounds. *)
Definition slice_set {A} (l : list A) (i : nat) (x : A) : option (list A) :=
  if i <? length l then Some (firstn i l ++ x :: skipn (S i) l) else None.

(** [l.drain(i..)] on an ArrayVec: panics if [i > len]. *)
Definition av_split {A} (l : list A) (i : nat) : option (list A * list A) :=
  if i <=? length l then Some (firstn i l, skipn i l) else None.

Definition option_bind {A R} (o : option A) (f : A -> option R) : option R :=
  match o with Some x => f x | None => None end.
Notation "'let!' x := o 'in' k" := (option_bind o (fun x => k))
  (at level 200, x pattern, right associativity, only parsing).

(** Apply [f] to element [i] ([None] out of bounds); transparent to the guard checker so
    that the model can recurse into [children[idx]]. *)
Section WithNth.
  Context {A R : Type} (f : A -> option R).
  Fixpoint with_nth (l : list A) (i : nat) {struct l} : option R :=
    match l, i with
    | [], _ => None
    | c :: _, 0 => f c
    | _ :: l', S i' => with_nth l' i'
    end.
End WithNth.

(** ** Nodes *)

(** treevec.rs:35-53 [enum Node]. *)
Inductive node (T : Type) : Type :=
| Leaf (data : list T)
| Internal (size : list nat) (children : list (node T)).
Arguments Leaf {T} data.
Arguments Internal {T} size children.

(** treevec.rs:94-102 [child_idx]. *)
Fixpoint child_idx (sizes : list nat) (offset : nat) : option (nat * nat) :=
  match sizes with
  | [] => None
  | s :: rest =>
      if offset <? s then Some (0, offset)
      else match child_idx rest (offset - s) with
           | Some (i, o) => Some (S i, o)
           | None => None
           end
  end.

(** [iter().copied().sum()]. *)
Definition sum (l : list nat) : nat := fold_right Nat.add 0 l.

(** treevec.rs:106-111 [Node::subtree_size]: uses the recorded sizes. *)
Definition subtree_size {T} (n : node T) : nat :=
  match n with
  | Leaf data => length data
  | Internal size _ => sum size
  end.

(** treevec.rs:114-122 [Node::get]. The outer [option] is the panic of [children[idx]]. *)
Fixpoint node_get {T} (n : node T) (offset : nat) {struct n} : option (option T) :=
  match n with
  | Leaf data => Some (nth_error data offset)
  | Internal size children =>
      match child_idx size offset with
      | None => Some None
      | Some (idx, off) => with_nth (fun c => node_get c off) children idx
      end
  end.

(** treevec.rs:125-133 [Node::get_mut] followed by a write of [x] through the reference:
    [Some None] when the index is out of bounds. *)
Fixpoint node_set {T} (n : node T) (offset : nat) (x : T) {struct n} : option (option (node T)) :=
  match n with
  | Leaf data => Some (match slice_set data offset x with
                       | Some d => Some (Leaf d) | None => None end)
  | Internal size children =>
      match child_idx size offset with
      | None => Some None
      | Some (idx, off) =>
          let! r := with_nth (fun c => node_set c off x) children idx in
          match r with
          | None => Some None
          | Some c' => let! cs := slice_set children idx c' in Some (Some (Internal size cs))
          end
      end
  end.

(** treevec.rs:138-143 [Node::first]. *)
Fixpoint node_first {T} (n : node T) : option T :=
  match n with
  | Leaf data => nth_error data 0
  | Internal _ children => match children with [] => None | c :: _ => node_first c end
  end.

(** treevec.rs:151-208 [Node::insert].  The second component is [Some node] for
    [InsertResult::Split(node)] and [None] for [InsertResult::Done]. *)
Fixpoint node_insert {T} (B : nat) (n : node T) (offset : nat) (element : T) {struct n}
  : option (node T * option (node T)) :=
  match n with
  | Leaf data =>
      if length data =? B then
        let! (first_half, second_half) := av_split data (B / 2) in
        if offset <=? B / 2 then
          let! d := av_insert B first_half offset element in
          Some (Leaf d, Some (Leaf second_half))
        else
          let! d := av_insert B second_half (offset - B / 2) element in
          Some (Leaf first_half, Some (Leaf d))
      else
        let! d := av_insert B data offset element in Some (Leaf d, None)
  | Internal size children =>
      let! (idx, off) :=
        (if 0 <? offset then
           match child_idx size (offset - 1) with
           | Some (idx, o) => Some (idx, o + 1)
           | None => None
           end
         else Some (0, 0)) in
      let! (c', r) := with_nth (fun c => node_insert B c off element) children idx in
      let! children := slice_set children idx c' in
      match r with
      | None =>
          let! s := nth_error size idx in
          let! size := slice_set size idx (s + 1) in
          Some (Internal size children, None)
      | Some nd =>
          let! size := slice_set size idx (subtree_size c') in
          if length children =? B then
            let! (first_children, second_children) := av_split children (B / 2) in
            let! (first_size, second_size) := av_split size (B / 2) in
            if idx <? B / 2 then
              let! sz := av_insert B first_size (idx + 1) (subtree_size nd) in
              let! cs := av_insert B first_children (idx + 1) nd in
              Some (Internal sz cs, Some (Internal second_size second_children))
            else
              let! sz := av_insert B second_size (idx + 1 - B / 2) (subtree_size nd) in
              let! cs := av_insert B second_children (idx + 1 - B / 2) nd in
              Some (Internal first_size first_children, Some (Internal sz cs))
          else
            let! sz := av_insert B size (idx + 1) (subtree_size nd) in
            let! cs := av_insert B children (idx + 1) nd in
            Some (Internal sz cs, None)
      end
  end.

(** treevec.rs:212-257 [Node::merge_from_right]: [self] is [left].
    Result: new left, new right, and whether the outcome is [Absorbed] ([true]) or
    [Rebalanced] ([false]).  The mixed case is [unreachable!()]. *)
Definition merge_from_right {T} (B : nat) (left right : node T)
  : option (node T * node T * bool) :=
  match left, right with
  | Leaf ld, Leaf rd =>
      if length rd <? length ld then None (* debug_assert *)
      else if length ld + length rd <=? B then
        let! d := av_extend B ld rd in Some (Leaf d, Leaf [], true)
      else
        let count := (length rd - length ld) / 2 in
        if count =? 0 then None (* debug_assert *)
        else
          let! d := av_extend B ld (firstn count rd) in
          Some (Leaf d, Leaf (skipn count rd), false)
  | Internal lsz lcs, Internal rsz rcs =>
      if length lcs + length rcs <=? B then
        let! sz := av_extend B lsz rsz in
        let! cs := av_extend B lcs rcs in
        Some (Internal sz cs, Internal [] [], true)
      else
        if length rcs <? length lcs then None (* usize underflow *) else
        let count := (length rcs - length lcs) / 2 in
        if count =? 0 then None (* debug_assert *)
        else
          let! (_, rcs') := av_split rcs count in
          let! (rsz1, rsz') := av_split rsz count in
          let! cs := av_extend B lcs (firstn count rcs) in
          let! sz := av_extend B lsz rsz1 in
          Some (Internal sz cs, Internal rsz' rcs', false)
  | _, _ => None
  end.

(** [Vec::pop]. *)
Definition pop_last {A} (l : list A) : option (list A * A) :=
  match rev l with
  | [] => None
  | x :: r => Some (rev r, x)
  end.

(** treevec.rs:261-305 [Node::merge_from_left]: [self] is [right].
    Result: new left, new right, and [true] for [Absorbed]. *)
Definition merge_from_left {T} (B : nat) (left right : node T)
  : option (node T * node T * bool) :=
  match left, right with
  | Leaf ld, Leaf rd =>
      if length ld <? length rd then None (* debug_assert *)
      else if length ld + length rd <=? B then
        let! d := av_extend B ld rd in
        (* drained right, then swapped *)
        Some (Leaf [], Leaf d, true)
      else
        let! (ld', x) := pop_last ld in
        let! d := av_insert B rd 0 x in
        Some (Leaf ld', Leaf d, false)
  | Internal lsz lcs, Internal rsz rcs =>
      if length lcs + length rcs <=? B then
        let! sz := av_extend B lsz rsz in
        let! cs := av_extend B lcs rcs in
        Some (Internal [] [], Internal sz cs, true)
      else
        let! (lcs', c) := pop_last lcs in
        let! cs := av_insert B rcs 0 c in
        let! (lsz', s) := pop_last lsz in
        let! sz := av_insert B rsz 0 s in
        Some (Internal lsz' lcs', Internal sz cs, false)
  | _, _ => None
  end.

(** treevec.rs:311-395 [Node::remove].  Result: new node, removed element, and [true]
    for [RemoveResult::Undersize]. *)
Fixpoint node_remove {T} (B : nat) (n : node T) (offset : nat) {struct n}
  : option (node T * T * bool) :=
  match n with
  | Leaf data =>
      let! (x, d) := av_remove data offset in
      Some (Leaf d, x, length d <? B / 2)
  | Internal size children =>
      let! (idx, off) := child_idx size offset in
      let! s := nth_error size idx in
      let! size := (if s =? 0 then None else slice_set size idx (s - 1)) in
      let! (cur, ret, undersize) := with_nth (fun c => node_remove B c off) children idx in
      let! children := slice_set children idx cur in
      if negb undersize then Some (Internal size children, ret, false)
      else if idx + 1 <? length children then
        let! next := nth_error children (idx + 1) in
        let! (cur', next', absorbed) := merge_from_right B cur next in
        let! children := slice_set children idx cur' in
        let! children := slice_set children (idx + 1) next' in
        let! size := slice_set size idx (subtree_size cur') in
        if (absorbed : bool) then
          let! (_, children) := av_remove children (idx + 1) in
          let! (_, size) := av_remove size (idx + 1) in
          Some (Internal size children, ret, length children <? B / 2)
        else
          let! size := slice_set size (idx + 1) (subtree_size next') in
          Some (Internal size children, ret, false)
      else if idx =? 0 then None (* debug_assert!(idx > 0); prev unwrap *)
      else
        let! prev := nth_error children (idx - 1) in
        let! (prev', cur', absorbed) := merge_from_left B prev cur in
        let! children := slice_set children idx cur' in
        let! children := slice_set children (idx - 1) prev' in
        if (absorbed : bool) then
          let! size := slice_set size idx (subtree_size cur') in
          let! (_, children) := av_remove children (idx - 1) in
          let! (_, size) := av_remove size (idx - 1) in
          Some (Internal size children, ret, length children <? B / 2)
        else
          let! size := slice_set size (idx - 1) (subtree_size prev') in
          let! size := slice_set size idx (subtree_size cur') in
          Some (Internal size children, ret, false)
  end.

(** ** The container *)

(** treevec.rs:442-450, 457-459 [TreeVec::default] / [new].  A [TreeVec] is its root. *)
Definition tv_new {T} : node T := Leaf [].

(** treevec.rs:462-467 [TreeVec::is_empty]. *)
Definition tv_is_empty {T} (t : node T) : bool :=
  match t with
  | Leaf data => length data =? 0
  | Internal _ _ => false
  end.

(** treevec.rs:470-472 [TreeVec::len]. *)
Definition tv_len {T} (t : node T) : nat := subtree_size t.

(** treevec.rs:478-480 [TreeVec::get]. *)
Definition tv_get {T} (t : node T) (i : nat) : option (option T) := node_get t i.

(** treevec.rs:662-668 [Index::index]: [get(index).unwrap()]. *)
Definition tv_index {T} (t : node T) (i : nat) : option T :=
  let! r := tv_get t i in r.

(** treevec.rs:670-674 [IndexMut::index_mut] followed by a write. *)
Definition tv_set {T} (t : node T) (i : nat) (x : T) : option (node T) :=
  let! r := node_set t i x in r.

(** treevec.rs:495-514 [TreeVec::insert]. *)
Definition tv_insert {T} (B : nat) (t : node T) (i : nat) (x : T) : option (node T) :=
  let! (root, r) := node_insert B t i x in
  match r with
  | None => Some root
  | Some nd =>
      let! size := av_insert B [] 0 (subtree_size root) in
      let! size := av_insert B size 1 (subtree_size nd) in
      let! children := av_insert B [] 0 root in
      let! children := av_insert B children 1 nd in
      Some (Internal size children)
  end.

(** treevec.rs:521-531 [TreeVec::remove]. *)
Definition tv_remove {T} (B : nat) (t : node T) (i : nat) : option (T * node T) :=
  let! (root, ret, _) := node_remove B t i in
  match root with
  | Internal _ [c] => Some (ret, c)
  | _ => Some (ret, root)
  end.

(** treevec.rs:650-660 [FromIterator::from_iter]: insert the elements one by one at the end. *)
Fixpoint tv_from_iter_aux {T} (B : nat) (t : node T) (idx : nat) (l : list T) : option (node T) :=
  match l with
  | [] => Some t
  | x :: l' => let! t' := tv_insert B t idx x in tv_from_iter_aux B t' (S idx) l'
  end.
Definition tv_from_iter {T} (B : nat) (l : list T) : option (node T) :=
  tv_from_iter_aux B tv_new 0 l.

(** treevec.rs:419-439 [Node::check_invariants] (the assertions as a boolean). *)
Fixpoint node_check {T} (B : nat) (is_root : bool) (n : node T) : bool :=
  match n with
  | Leaf data => is_root || (B / 2 <=? length data)
  | Internal size children =>
      (length size =? length children)
      && (is_root || (B / 2 <=? length size))
      && (fix go (cs : list (node T)) (ss : list nat) {struct cs} : bool :=
            match cs, ss with
            | c :: cs', s :: ss' => (subtree_size c =? s) && node_check B false c && go cs' ss'
            | _, _ => true
            end) children size
  end.

(** ** Iteration *)

(** treevec.rs:690-701 [TreeIter] / 677-688 [Iter], [IterInner].  The Rust stack's last
    element is the head of [it_stack]; a slice iterator is the list of what it still yields. *)
Inductive iter (T : Type) : Type :=
| Simple (it : list T)
| Tree (stack : list (list (node T))) (leaf : list T) (remaining : nat).
Arguments Simple {T} it.
Arguments Tree {T} stack leaf remaining.

(** treevec.rs:706-721 [TreeIter::descend]. *)
Fixpoint descend {T} (n : node T) (stack : list (list (node T)))
  : option (list (list (node T)) * list T) :=
  match n with
  | Leaf data => Some (stack, data)
  | Internal _ children =>
      match children with
      | [] => None (* unwrap *)
      | c :: rest => descend c (rest :: stack)
      end
  end.

(** treevec.rs:725-744 [TreeIter::descend_to].  [leaf] is the value of [self.leaf] on entry,
    kept when the offset is past the end. *)
Fixpoint descend_to {T} (n : node T) (offset : nat) (stack : list (list (node T))) (leaf : list T)
  {struct n} : option (list (list (node T)) * list T) :=
  match n with
  | Leaf data => if offset <=? length data then Some (stack, skipn offset data) else None
  | Internal size children =>
      match child_idx size offset with
      | None => Some (stack, leaf)
      | Some (idx, off) =>
          with_nth (fun c => descend_to c off (skipn (S idx) children :: stack) leaf) children idx
      end
  end.

(** treevec.rs:754-768: the unwinding loop of [TreeIter::next]; [Some (None, _)] is the
    early return of [None] by [?]. *)
Fixpoint next_loop {T} (stack : list (list (node T)))
  : option (option T * (list (list (node T)) * list T)) :=
  match stack with
  | [] => Some (None, ([], []))
  | [] :: rest => next_loop rest
  | (c :: cs) :: rest =>
      let! (stack', leaf) := descend c (cs :: rest) in
      match leaf with
      | [] => Some (None, (stack', []))
      | x :: leaf' => Some (Some x, (stack', leaf'))
      end
  end.

(** treevec.rs:746-769 [TreeIter::next] and 776-781 [Iter::next]. *)
Definition iter_next {T} (it : iter T) : option (option T * iter T) :=
  match it with
  | Simple [] => Some (None, Simple [])
  | Simple (x :: l) => Some (Some x, Simple l)
  | Tree stack leaf 0 => Some (None, it)
  | Tree stack leaf (S r) =>
      match leaf with
      | x :: leaf' => Some (Some x, Tree stack leaf' r)
      | [] =>
          let! (o, (stack', leaf')) := next_loop stack in Some (o, Tree stack' leaf' r)
      end
  end.

(** treevec.rs:539-553 [TreeVec::iter]. *)
Definition tv_iter {T} (t : node T) : option (iter T) :=
  match t with
  | Leaf data => Some (Simple data)
  | Internal _ _ =>
      let! (stack, leaf) := descend t [] in Some (Tree stack leaf (tv_len t))
  end.

(** treevec.rs:606-624 [TreeVec::range] on normalised bounds [start..end].  The
    subtraction [end - start] panics when it underflows (overflow checks enabled). *)
Definition tv_range {T} (t : node T) (start end_ : nat) : option (iter T) :=
  match t with
  | Leaf data =>
      if (start <=? end_) && (end_ <=? length data)
      then Some (Simple (firstn (end_ - start) (skipn start data))) else None
  | Internal _ _ =>
      if tv_len t <? end_ then None
      else if end_ <? start then None
      else
        let! (stack, leaf) := descend_to t start [] [] in
        Some (Tree stack leaf (end_ - start))
  end.

(** [std::ops::Bound]; treevec.rs:591-603 [normalize_bounds]. *)
Inductive bound := Included (i : nat) | Excluded (i : nat) | Unbounded.
Definition normalize_bounds (len : nat) (a b : bound) : nat * nat :=
  (match a with Included x => x | Excluded x => x + 1 | Unbounded => 0 end,
   match b with Included x => x + 1 | Excluded x => x | Unbounded => len end).

(** A [for] loop over an iterator: call [next] until it returns [None]. [fuel] bounds the
    number of calls; running out of fuel is [None]. *)
Fixpoint iter_collect {T} (fuel : nat) (it : iter T) : option (list T) :=
  match fuel with
  | 0 => None
  | S f =>
      let! (o, it') := iter_next it in
      match o with
      | None => Some []
      | Some x => let! l := iter_collect f it' in Some (x :: l)
      end
  end.

(** ** Mutable iteration *)

(** A [&mut T] into the tree is the place it points to: the child indices from the root to the leaf, then the
    position in the leaf.  [slots] is the tree with every element replaced by its place. *)
Fixpoint slots {T} (pre : list nat) (n : node T) {struct n} : node (list nat) :=
  match n with
  | Leaf data => Leaf (map (fun i => pre ++ [i]) (seq 0 (length data)))
  | Internal size children =>
      Internal size ((fix go (i : nat) (cs : list (node T)) {struct cs} : list (node (list nat)) :=
                        match cs with
                        | [] => []
                        | c :: cs' => slots (pre ++ [i]) c :: go (S i) cs'
                        end) 0 children)
  end.

(** [*r = f( *r)] through the reference to the place [p]; [None] for a place outside the tree. *)
Fixpoint poke {T} (f : T -> T) (n : node T) (p : list nat) {struct n} : option (node T) :=
  match n, p with
  | Leaf data, [i] =>
      let! x := nth_error data i in let! data' := slice_set data i (f x) in Some (Leaf data')
  | Internal size children, i :: p' =>
      let! c' := with_nth (fun c => poke f c p') children i in
      let! children' := slice_set children i c' in
      Some (Internal size children')
  | _, _ => None
  end.

(** A [for (k, r) in it.enumerate() { *r = f(k, *r) }] loop over the references [l]. *)
Fixpoint poke_all {T} (f : nat -> T -> T) (k : nat) (l : list (list nat)) (n : node T) : option (node T) :=
  match l with
  | [] => Some n
  | p :: l' => let! n' := poke (f k) n p in poke_all f (S k) l' n'
  end.

(** treevec.rs:557-572 [TreeVec::iter_mut], 801-871 [TreeIterMut], [IterMut::next], and the loop over it.  [TreeIterMut] is
    [TreeIter] with mutable slices, so the references it yields are what the iterator yields on the tree of
    places.  (A loop that stops early is one whose [f] changes nothing from there on.) *)
Definition tv_iter_mut {T} (t : node T) (f : nat -> T -> T) : option (node T) :=
  let! it := tv_iter (slots [] t) in
  let! l := iter_collect (S (tv_len t)) it in
  poke_all f 0 l t.

(** treevec.rs:627-647 [TreeVec::range_mut] on normalised bounds, and the loop over it. *)
Definition tv_range_mut {T} (t : node T) (start end_ : nat) (f : nat -> T -> T) : option (node T) :=
  let! it := tv_range (slots [] t) start end_ in
  let! l := iter_collect (S (tv_len t)) it in
  poke_all f 0 l t.

(** ** partition_point *)

(** Rust std [slice::partition_point] (= [binary_search_by] with Less/Greater), as
    implemented up to 1.81: [while left < right]. *)
Fixpoint std_pp_old_loop {A} (fuel : nat) (p : A -> bool) (l : list A) (left right : nat) : option nat :=
  match fuel with
  | 0 => None
  | S f =>
      if left <? right then
        let mid := left + (right - left) / 2 in
        let! x := nth_error l mid in
        if p x then std_pp_old_loop f p l (mid + 1) right
        else std_pp_old_loop f p l left mid
      else Some left
  end.
Definition std_pp_old {A} (p : A -> bool) (l : list A) : option nat :=
  std_pp_old_loop (S (length l)) p l 0 (length l).

(** The same function as implemented from 1.82 on (branchless [while size > 1]). *)
Fixpoint std_pp_new_loop {A} (fuel : nat) (p : A -> bool) (l : list A) (base size : nat) : option nat :=
  match fuel with
  | 0 => None
  | S f =>
      if 1 <? size then
        let half := size / 2 in
        let mid := base + half in
        let! x := nth_error l mid in
        std_pp_new_loop f p l (if p x then mid else base) (size - half)
      else
        let! x := nth_error l base in
        Some (base + (if p x then 1 else 0))
  end.
Definition std_pp_new {A} (p : A -> bool) (l : list A) : option nat :=
  match l with
  | [] => Some 0
  | _ => std_pp_new_loop (S (length l)) p l 0 (length l)
  end.

(** A slice partition_point implementation, for every element type. *)
Definition slice_pp := forall A : Type, (A -> bool) -> list A -> option nat.

(** [pred(child.first().unwrap())] can panic: collect the panics first.  (The closure is
    pure, so evaluating it on every child instead of on the probed ones only makes the
    model panic more often; the proofs show it never does.) *)
Fixpoint map_first {T} (cs : list (node T)) : option (list T) :=
  match cs with
  | [] => Some []
  | c :: cs' => let! x := node_first c in let! l := map_first cs' in Some (x :: l)
  end.

(** treevec.rs:398-416 [Node::partition_point]. *)
Fixpoint node_pp {T} (pp : slice_pp) (p : T -> bool) (n : node T) {struct n} : option nat :=
  match n with
  | Leaf data => pp T p data
  | Internal size children =>
      let! firsts := map_first children in
      let! ci := pp T p firsts in
      if 0 <? ci then
        let! o := with_nth (fun c => node_pp pp p c) children (ci - 1) in
        if ci - 1 <=? length size then Some (o + sum (firstn (ci - 1) size)) else None
      else Some 0
  end.

(** treevec.rs:581-586 [TreeVec::partition_point]. *)
Definition tv_partition_point {T} (pp : slice_pp) (p : T -> bool) (t : node T) : option nat :=
  node_pp pp p t.
