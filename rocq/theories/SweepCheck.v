(** Boolean checks for concrete comparison tables (used by examples only). *)
From Coq Require Import List Bool ZArith Arith Lia Permutation Sorted.
From Verif Require Import F64 F64Arith TreeVecModel TreeVecSpec GeomModel SegmentsModel SegmentsSpec CurveOrderModel CurveOrderSpec SweepModel SweepSpec.
Import ListNotations.

Fixpoint adj_b {A} (r : A -> A -> bool) (l : list A) : bool :=
  match l with x :: ((y :: _) as l') => r x y && adj_b r l' | _ => true end.
Lemma adj_b_ok {A} (r : A -> A -> bool) (R : A -> A -> Prop) : (forall x y, r x y = true -> R x y) -> forall l, adj_b r l = true -> adjacent R l.
Proof.
  intros HR l. induction l as [|x l IH]; intros H i u v Hu Hv; [destruct i; discriminate|].
  destruct l as [|y l]; [destruct i; [discriminate|destruct i; discriminate]|]. cbn [adj_b] in H. apply andb_true_iff in H. destruct H as [H1 H2].
  destruct i as [|i]; [injection Hu as <-; injection Hv as <-; apply HR, H1|]. eapply (IH H2 i); assumption.
Qed.
Definition alt_b (x y : order) : bool := negb (order_eqb x y) && (order_eqb x Ish || order_eqb y Ish).
Lemma alt_b_ok x y : alt_b x y = true -> x <> y /\ (x = Ish \/ y = Ish).
Proof. destruct x, y; cbn; intros H; try discriminate; split; auto; discriminate. Qed.

Definition table_b (c : curve_order) (mx e : f64) : bool :=
  match co_cmps c with [] => false | _ => true end &&
  forallb (fun h => negb (nan h)) (heights c) && adj_b fle (heights c) && adj_b alt_b (orders c) &&
  feq (table_end c) e &&
  forallb (fun s => fin s && forallb (fun e => fin (fadd s e)) (heights c)) (heights c) &&
  forallb (fun k => match nth_error (heights c) k, nth_error (heights c) (S k), nth_error (orders c) k with
                    | Some s, Some e, Some o => order_eqb o Ish || negb (feq s e) || fle e mx
                    | _, _, _ => true end) (seq 0 (length (heights c))).

Lemma table_b_ok a i j c : table_b c (fmax (start_y a i) (start_y a j)) (fmin (end_y a i) (end_y a j)) = true -> table_for a i j c.
Proof.
  unfold table_b. rewrite !andb_true_iff. intros ((((((H1 & H2) & H3) & H4) & H5) & H6) & H7). rewrite forallb_forall in H2, H6, H7.
  split; [|split; [exact H5|split]].
  - split; [destruct (co_cmps c); [discriminate|discriminate]|]. split; [|split].
    + apply Forall_forall. intros x Hx. apply H2 in Hx. destruct (nan x); [discriminate|reflexivity].
    + eapply adj_b_ok; [|exact H3]. auto.
    + eapply adj_b_ok; [apply alt_b_ok|exact H4].
  - intros s e Hs He. pose proof (H6 _ Hs) as A. apply andb_true_iff in A. destruct A as [A1 A2]. rewrite forallb_forall in A2.
    pose proof (H6 _ He) as A3. apply andb_true_iff in A3. split; [exact A1|]. split; [apply A3|apply A2, He].
  - intros k s e o (I1 & I2 & I3) ST ZH. specialize (H7 k). rewrite I1, I2, I3 in H7.
    assert (L : k < length (heights c)) by (apply nth_error_Some; congruence).
    specialize (H7 ltac:(apply in_seq; lia)). unfold zero_height in ZH. rewrite ZH in H7. destruct o; cbn in H7; [exact H7|exfalso; apply ST; reflexivity|exact H7].
Qed.

Definition comparer_b (a : arena) (cmp : nat -> nat -> curve_order) : bool :=
  forallb (fun i => forallb (fun j =>
    (i =? j) || negb (slanted a i) || negb (slanted a j) || negb (fle (start_y a i) (end_y a j)) || negb (fle (start_y a j) (end_y a i)) ||
    table_b (cmp i j) (fmax (start_y a i) (start_y a j)) (fmin (end_y a i) (end_y a j))) (seq 0 (arena_len a))) (seq 0 (arena_len a)).
Lemma comparer_b_ok a cmp : comparer_b a cmp = true -> comparer_ok a cmp.
Proof.
  intros H i j Hi Hj D Si Sj L1 L2. unfold comparer_b in H. rewrite forallb_forall in H. specialize (H i ltac:(apply in_seq; lia)).
  rewrite forallb_forall in H. specialize (H j ltac:(apply in_seq; lia)). rewrite Si, Sj, L1, L2 in H. apply Nat.eqb_neq in D. rewrite D in H.
  apply table_b_ok. exact H.
Qed.
