(** Property theorems about TreeVec (src/treevec.rs): C01 - C05. *)
From Coq Require Import List Arith Bool Lia.
From Verif Require Import TreeVecModel TreeVecSpec TreeVecProofs TreeVecRefine.
Import ListNotations.

(** C01: every history of calls on a TreeVec gives the outputs (including panics) that the
    same history gives on a plain vector. *)
Theorem treevec_is_a_vector : forall (T : Type) (B : nat), 4 <= B -> forall ops : list (tv_op T),
  fst (run (tree_step B) tv_new ops) = fst (run vec_step [] ops).
Proof. exact (fun T B HB => @refines_all T B HB). Qed.
Print Assumptions treevec_is_a_vector.

(** C01, from_iter: collecting an iterator succeeds and then behaves like that vector. *)
Theorem treevec_from_iter : forall (T : Type) (B : nat), 4 <= B -> forall l : list T,
  exists t, tv_from_iter B l = Some t /\ elems t = l /\
  forall ops, fst (run (tree_step B) t ops) = fst (run vec_step l ops).
Proof. exact (fun T B HB => @from_iter_ok T B HB). Qed.
Print Assumptions treevec_from_iter.

(** C02: balance and exact size bookkeeping in every reachable state; logarithmic height. *)
Theorem treevec_balanced : forall (T : Type) (B : nat), 4 <= B -> forall ops (t : node T),
  snd (run (tree_step B) tv_new ops) = Some t ->
  exists h, tv_wf B h t /\ (h <> 0 -> 2 * (B / 2) ^ h <= length (elems t)).
Proof. exact (fun T B HB => @reachable_balanced T B HB). Qed.
Print Assumptions treevec_balanced.

(** C03: iterators and range iterators yield exactly the (sub)sequence, then [None] forever. *)
Theorem treevec_iteration : forall (T : Type) (B : nat), 4 <= B -> forall ops (t : node T) a b,
  snd (run (tree_step B) tv_new ops) = Some t ->
  (a <= b <= length (elems t) ->
     exists it, tv_range t a b = Some it /\
       forall k, iter_call k it = Some (nth_error (firstn (b - a) (skipn a (elems t))) k)) /\
  (~ (a <= b <= length (elems t)) -> tv_range t a b = None) /\
  exists it, tv_iter t = Some it /\ forall k, iter_call k it = Some (nth_error (elems t) k).
Proof. exact (fun T B HB => @reachable_range T B HB). Qed.
Print Assumptions treevec_iteration.

(** C04: partition_point, for both implementations of the std slice search. *)
Theorem treevec_partition_point_old_std : forall (T : Type) (B : nat), 4 <= B ->
  forall ops (t : node T) (p : T -> bool), snd (run (tree_step B) tv_new ops) = Some t ->
  exists o, tv_partition_point (@std_pp_old) p t = Some o /\ boundary p (elems t) o /\
    forall l1 l2, elems t = l1 ++ l2 -> Forall (fun x => p x = true) l1 ->
      Forall (fun x => p x = false) l2 -> o = length l1.
Proof. exact (fun T B HB ops t p => @reachable_pp T B HB (@std_pp_old) ops t p std_pp_old_ok). Qed.
Print Assumptions treevec_partition_point_old_std.

Theorem treevec_partition_point_new_std : forall (T : Type) (B : nat), 4 <= B ->
  forall ops (t : node T) (p : T -> bool), snd (run (tree_step B) tv_new ops) = Some t ->
  exists o, tv_partition_point (@std_pp_new) p t = Some o /\ boundary p (elems t) o /\
    forall l1 l2, elems t = l1 ++ l2 -> Forall (fun x => p x = true) l1 ->
      Forall (fun x => p x = false) l2 -> o = length l1.
Proof. exact (fun T B HB ops t p => @reachable_pp T B HB (@std_pp_new) ops t p std_pp_new_ok). Qed.
Print Assumptions treevec_partition_point_new_std.

(** C05: with [B = 3] an in-bounds history panics although the vector does not. *)
Definition b3_history : list (tv_op nat) :=
  map (fun i => OpInsert i i) (seq 0 6) ++ [OpRemove 0].
Theorem treevec_b3_refuted : exists ops : list (tv_op nat),
  ~ In OutPanic (fst (run vec_step [] ops)) /\ In OutPanic (fst (run (tree_step 3) tv_new ops)).
Proof.
  exists b3_history. vm_compute. split; [|tauto].
  intros H. repeat (destruct H as [H|H]; [discriminate|]). exact H.
Qed.
Print Assumptions treevec_b3_refuted.

(** ** Non-vacuity *)

(** A history reaching a tree of height 3 with removals that merge, and a panic at the end. *)
Definition sample_history : list (tv_op nat) :=
  map (fun i => OpInsert (i / 2) i) (seq 0 40) ++
  map (fun i => OpRemove (i / 3)) (seq 0 20) ++
  [OpIndexMut 3 100; OpRangeMut (Excluded 1) (Included 12) (fun k x => k + x); OpIterMut (fun k x => if k =? 5 then 0 else x);
   OpLen; OpIter; OpRange (Included 2) (Excluded 5); OpCheck].
Example sample_reachable :
  exists t, snd (run (tree_step 4) tv_new sample_history) = Some t /\ tv_wf 4 3 t /\ length (elems t) = 20.
Proof.
  eexists. split; [vm_compute; reflexivity|]. split; [|reflexivity].
  vm_compute. repeat match goal with |- _ /\ _ => split | |- Forall _ _ => constructor | |- _ = _ => reflexivity | |- _ => lia end.
Qed.
Example sample_panics :
  fst (run (tree_step 4) (@tv_new nat) [OpInsert 0 7; OpInsert 2 8]) = [OutUnit; OutPanic].
Proof. reflexivity. Qed.
Example sample_pp : option_bind (snd (run (tree_step 4) tv_new sample_history))
   (tv_partition_point (@std_pp_new) (fun x => Nat.odd x || (9 <? x))) = Some 15.
Proof. vm_compute. reflexivity. Qed.
