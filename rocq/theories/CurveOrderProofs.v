(** Proofs about curve comparison tables. *)
From Coq Require Import List Bool ZArith Lia.
From Verif Require Import F64 F64Arith CurveOrderModel CurveOrderSpec.
Import ListNotations.

(** ** Lists *)

Lemma last_opt_app {A} (l : list A) x : last_opt (l ++ [x]) = Some x.
Proof.
  induction l as [|y l IH]; [reflexivity|]. simpl. rewrite IH.
  destruct l; reflexivity.
Qed.

Lemma set_last_app {A} (l : list A) x y : set_last (l ++ [x]) y = l ++ [y].
Proof. induction l as [|z l IH]; [reflexivity|]. simpl. rewrite IH. destruct l; reflexivity. Qed.

Lemma snoc_cases {A} (l : list A) : l = [] \/ exists l' x, l = l' ++ [x].
Proof.
  destruct l as [|a l]; [left; reflexivity|right].
  destruct (@exists_last A (a :: l)) as [l' [x E]]; [discriminate|]. eauto.
Qed.

Lemma last_opt_spec {A} (l : list A) : match last_opt l with
  | None => l = []
  | Some x => exists l', l = l' ++ [x]
  end.
Proof.
  destruct (snoc_cases l) as [->|(l' & x & ->)]; [reflexivity|].
  rewrite last_opt_app. eauto.
Qed.

Lemma adjacent_nil {A} (R : A -> A -> Prop) : adjacent R [].
Proof. intros [|i] a b H; discriminate. Qed.

Lemma adjacent_one {A} (R : A -> A -> Prop) x : adjacent R [x].
Proof. intros [|[|i]] a b H H'; discriminate. Qed.

Lemma adjacent_cons {A} (R : A -> A -> Prop) x y l : adjacent R (x :: y :: l) <-> R x y /\ adjacent R (y :: l).
Proof.
  split.
  - intros H. split; [apply (H 0); reflexivity|]. intros i a b Ha Hb. apply (H (S i)); assumption.
  - intros [H1 H2] [|i] a b Ha Hb.
    + simpl in Ha, Hb. congruence.
    + apply (H2 i); assumption.
Qed.

Lemma adjacent_snoc {A} (R : A -> A -> Prop) l x y :
  adjacent R (l ++ [x; y]) <-> adjacent R (l ++ [x]) /\ R x y.
Proof.
  induction l as [|a [|b l] IH].
  - simpl. rewrite adjacent_cons. split; [intros [H _]; split; [apply adjacent_one|exact H]|].
    intros [_ H]. split; [exact H|apply adjacent_one].
  - cbn [app] in *. rewrite !adjacent_cons. pose proof (adjacent_one R x). pose proof (adjacent_one R y). tauto.
  - cbn [app] in *. rewrite (adjacent_cons R a), (adjacent_cons R a). rewrite IH. tauto.
Qed.

(** ** Converting float comparisons to comparisons of keys *)

Ltac fk1 :=
  match goal with
  | H : context [fle ?a ?b] |- _ => rewrite (fle_key a b) in H by (assumption || reflexivity)
  | H : context [flt ?a ?b] |- _ => rewrite (flt_key a b) in H by (assumption || reflexivity)
  | H : context [fge ?a ?b] |- _ => rewrite (fge_key a b) in H by (assumption || reflexivity)
  | H : context [fgt ?a ?b] |- _ => rewrite (fgt_key a b) in H by (assumption || reflexivity)
  | H : context [feq ?a ?b] |- _ => rewrite (feq_key a b) in H by (assumption || reflexivity)
  | H : context [fne ?a ?b] |- _ => rewrite (fne_key a b) in H by (assumption || reflexivity)
  | |- context [fle ?a ?b] => rewrite (fle_key a b) by (assumption || reflexivity)
  | |- context [flt ?a ?b] => rewrite (flt_key a b) by (assumption || reflexivity)
  | |- context [fge ?a ?b] => rewrite (fge_key a b) by (assumption || reflexivity)
  | |- context [fgt ?a ?b] => rewrite (fgt_key a b) by (assumption || reflexivity)
  | |- context [feq ?a ?b] => rewrite (feq_key a b) by (assumption || reflexivity)
  | |- context [fne ?a ?b] => rewrite (fne_key a b) by (assumption || reflexivity)
  end.
Ltac fk := repeat fk1.
Ltac zb := rewrite ?negb_true_iff, ?negb_false_iff, ?Z.leb_le, ?Z.leb_gt, ?Z.ltb_lt, ?Z.ltb_ge, ?Z.eqb_eq, ?Z.eqb_neq in *.

(** NaN-freeness facts that come with a true comparison. *)
Lemma fle_nonnan a b : fle a b = true -> nan a = false /\ nan b = false.
Proof. destruct a, b; try discriminate; split; reflexivity. Qed.
Lemma feq_nonnan a b : feq a b = true -> nan a = false /\ nan b = false.
Proof. destruct a, b; try discriminate; split; reflexivity. Qed.
Lemma flt_nonnan a b : flt a b = true -> nan a = false /\ nan b = false.
Proof. destruct a, b; try discriminate; split; reflexivity. Qed.
Lemma fle_trans a b c : fle a b = true -> fle b c = true -> fle a c = true.
Proof.
  intros H1 H2. destruct (fle_nonnan _ _ H1), (fle_nonnan _ _ H2).
  fk. zb. lia.
Qed.
Lemma fle_refl a : nan a = false -> fle a a = true.
Proof. intros H. fk. apply Z.leb_refl. Qed.

(** ** push *)

Lemma co_pushes_app c l1 l2 : co_pushes c (l1 ++ l2) =
  match co_pushes c l1 with Some c' => co_pushes c' l2 | None => None end.
Proof.
  revert c. induction l1 as [|[e o] l1 IH]; intros c; [reflexivity|].
  simpl. destruct (co_push c e o); [apply IH|reflexivity].
Qed.

Lemma find_app {A} (p : A -> bool) l1 l2 : find p (l1 ++ l2) =
  match find p l1 with Some x => Some x | None => find p l2 end.
Proof. induction l1 as [|x l1 IH]; [reflexivity|]. simpl. destruct (p x); [reflexivity|apply IH]. Qed.

Definition ends (c : curve_order) := map e_end (co_cmps c).

Definition entries_at (l : list entry) (y : f64) : option order :=
  match find (fun e => fge (e_end e) y) l with Some e => Some (e_order e) | None => None end.

Lemma order_at_entries c y : co_order_at c y = entries_at (co_cmps c) y.
Proof.
  unfold co_order_at, co_iter, entries_at. destruct c as [s l]. cbn [co_start co_cmps].
  revert s. induction l as [|e l IH]; intros s; [reflexivity|].
  cbn [co_iter_from find]. destruct (fge (e_end e) y); [reflexivity|apply IH].
Qed.

Lemma entries_at_app l1 l2 y : entries_at (l1 ++ l2) y =
  match entries_at l1 y with Some o => Some o | None => entries_at l2 y end.
Proof. unfold entries_at. rewrite find_app. destruct (find _ l1); reflexivity. Qed.
Lemma pushed_at_app l1 l2 y : pushed_at (l1 ++ l2) y =
  match pushed_at l1 y with Some o => Some o | None => pushed_at l2 y end.
Proof. unfold pushed_at. rewrite find_app. destruct (find _ l1) as [[? ?]|]; reflexivity. Qed.

Lemma entries_at_one e o y : entries_at [mkEntry e o] y = if fge e y then Some o else None.
Proof. unfold entries_at. simpl. destruct (fge e y); reflexivity. Qed.
Lemma pushed_at_one e o y : pushed_at [(e, o)] y = if fge e y then Some o else None.
Proof. unfold pushed_at. simpl. destruct (fge e y); reflexivity. Qed.

Record push_inv (s : f64) (l : list (f64 * order)) (c : curve_order) : Prop := {
  pi_start : co_start c = s;
  pi_empty : l = [] -> co_cmps c = [];
  pi_sorted : nondecreasing (ends c);
  pi_alt : alternating (orders c);
  pi_last : forall l' e o, l = l' ++ [(e, o)] -> exists m x, co_cmps c = m ++ [x] /\
     same_height (e_end x) e;
  pi_at : forall y, weakens (co_order_at c y) (pushed_at l y);
}.

Lemma fge_sat last e y : fge e last = true -> fge last y = true -> fge e y = true.
Proof. intros H1 H2. eapply fle_trans; eassumption. Qed.

Lemma push_inv_step s l c e o c' : push_inv s l c -> co_push c e o = Some c' ->
  push_inv s (l ++ [(e, o)]) c'.
Proof.
  intros [Hs He Hso Ha Hl Hat] Hp. unfold co_push in Hp.
  pose proof (last_opt_spec (co_cmps c)) as Hlast.
  destruct (last_opt (co_cmps c)) as [last|].
  2: { injection Hp as <-. rewrite Hlast in *.
       assert (l = []) as ->.
       { destruct (snoc_cases l) as [E|(l' & [e' o'] & E)]; [exact E|].
         destruct (Hl l' e' o' E) as (m & x & E' & _). destruct m; discriminate. }
       constructor; cbn [co_start co_cmps app]; auto.
       - discriminate.
       - apply adjacent_one.
       - apply adjacent_one.
       - intros l' e1 o1 E. assert (l' = [] /\ (e, o) = (e1, o1)) as [-> E2].
         { destruct l' as [|? [|? ?]]; inversion E; auto. }
         injection E2 as <- <-. exists [], (mkEntry e o). split; [reflexivity|].
         unfold same_height. cbn. destruct (nan e) eqn:N; [right; reflexivity|left; fk; apply Z.eqb_refl].
       - intros y. rewrite order_at_entries. cbn [co_cmps]. rewrite entries_at_one, pushed_at_one.
         destruct (fge e y); simpl; auto. }
  destruct Hlast as [m Hm].
  destruct (fge e (e_end last)) eqn:Hge; [|discriminate]. cbn [negb] in Hp.
  destruct (fle_nonnan _ _ Hge) as [N1 N2].
  assert (Hc : c = mkCO s (m ++ [last])) by (destruct c; cbn in *; congruence).
  assert (Hlast : forall l' e1 o1, l ++ [(e, o)] = l' ++ [(e1, o1)] -> e1 = e).
  { intros l' e1 o1 E. apply app_inj_tail in E as [_ E]. congruence. }
  assert (Hsame : same_height e e).
  { left. fk. apply Z.eqb_refl. }
  assert (Hfin : forall y, entries_at (m ++ [last]) y = None -> pushed_at l y = None).
  { intros y Hy. specialize (Hat y). rewrite order_at_entries, Hm, Hy in Hat.
    destruct (pushed_at l y); [contradiction|reflexivity]. }
  assert (CASE1 : forall o', e_order last = o -> o' = o -> push_inv s (l ++ [(e, o)]) (mkCO s (m ++ [mkEntry e o']))).
  { intros o' Eo ->. constructor; cbn [co_start co_cmps].
    - reflexivity.
    - intros E. destruct l; discriminate.
    - unfold nondecreasing, ends in *. rewrite Hm in Hso. cbn [co_cmps] in *.
      rewrite map_app in *. cbn [map e_end] in *.
      destruct (snoc_cases m) as [->|(m' & p & ->)]; [apply adjacent_one|].
      rewrite map_app in *. cbn [map] in *. rewrite <- app_assoc in *. cbn [app] in *.
      rewrite adjacent_snoc in *. destruct Hso as [H1 H2]. split; [exact H1|].
      eapply fle_trans; eassumption.
    - unfold orders in *. cbn [co_cmps]. rewrite Hm in Ha. rewrite map_app in *. cbn [map e_order] in *.
      rewrite Eo in Ha. exact Ha.
    - intros l' e1 o1 E. exists m. eexists. split; [reflexivity|]. rewrite (Hlast _ _ _ E). exact Hsame.
    - intros y. specialize (Hat y). rewrite order_at_entries in *. cbn [co_cmps]. rewrite Hm in Hat.
      rewrite entries_at_app in *. rewrite pushed_at_app. rewrite entries_at_one, pushed_at_one.
      destruct last as [le lo]. cbn [e_end e_order] in *. subst lo. rewrite entries_at_one in Hat.
      destruct (entries_at m y) as [q|]; [destruct (pushed_at l y); [exact Hat|contradiction]|].
      destruct (fge le y) eqn:Hy.
      + rewrite (fge_sat _ _ _ Hge Hy). destruct (pushed_at l y); [exact Hat|contradiction].
      + destruct (pushed_at l y); [contradiction|]. destruct (fge e y); simpl; auto. }
  assert (CASE2 : e_order last <> o -> e_order last <> Ish -> o <> Ish ->
     push_inv s (l ++ [(e, o)]) (mkCO s ((m ++ [last]) ++ [mkEntry e Ish; mkEntry e o]))).
  { intros Eo E1 E2. constructor; cbn [co_start co_cmps].
    - reflexivity.
    - intros E. destruct l; discriminate.
    - unfold nondecreasing, ends in *. rewrite Hm in Hso. cbn [co_cmps] in *.
      rewrite map_app. cbn [map e_end] in *. rewrite adjacent_snoc. split; [|apply fle_refl; assumption].
      rewrite map_app in *. cbn [map] in *. rewrite <- app_assoc. cbn [app]. rewrite adjacent_snoc. auto.
    - unfold orders, alternating in *. cbn [co_cmps]. rewrite Hm in Ha. rewrite map_app. cbn [map e_order].
      rewrite adjacent_snoc. split; [|split; auto].
      rewrite map_app in *. cbn [map] in *. rewrite <- app_assoc. cbn [app]. rewrite adjacent_snoc.
      split; [exact Ha|]. split; auto.
    - intros l' e1 o1 E. exists ((m ++ [last]) ++ [mkEntry e Ish]), (mkEntry e o).
      split; [rewrite <- !app_assoc; reflexivity|]. rewrite (Hlast _ _ _ E). exact Hsame.
    - intros y. specialize (Hat y). specialize (Hfin y). rewrite order_at_entries in *. cbn [co_cmps]. rewrite Hm in Hat.
      rewrite entries_at_app. rewrite pushed_at_app. rewrite pushed_at_one.
      destruct (entries_at (m ++ [last]) y) as [q|].
      + destruct (pushed_at l y); [exact Hat|contradiction].
      + rewrite Hfin by reflexivity. change [mkEntry e Ish; mkEntry e o] with ([mkEntry e Ish] ++ [mkEntry e o]).
        rewrite entries_at_app, !entries_at_one. destruct (fge e y); simpl; auto. }
  assert (CASE3 : e_order last <> o -> e_order last = Ish \/ o = Ish -> fgt e (e_end last) = true ->
     push_inv s (l ++ [(e, o)]) (mkCO s ((m ++ [last]) ++ [mkEntry e o]))).
  { intros Eo E1 E2. constructor; cbn [co_start co_cmps].
    - reflexivity.
    - intros E. destruct l; discriminate.
    - unfold nondecreasing, ends in *. rewrite Hm in Hso. cbn [co_cmps] in *.
      rewrite !map_app in *. cbn [map e_end] in *. rewrite <- app_assoc. cbn [app]. rewrite adjacent_snoc. auto.
    - unfold orders, alternating in *. cbn [co_cmps]. rewrite Hm in Ha.
      rewrite !map_app in *. cbn [map] in *. rewrite <- app_assoc. cbn [app]. rewrite adjacent_snoc. auto.
    - intros l' e1 o1 E. eexists; eexists. split; [reflexivity|]. rewrite (Hlast _ _ _ E). exact Hsame.
    - intros y. specialize (Hat y). specialize (Hfin y). rewrite order_at_entries in *. cbn [co_cmps]. rewrite Hm in Hat.
      rewrite entries_at_app. rewrite pushed_at_app. rewrite pushed_at_one.
      destruct (entries_at (m ++ [last]) y) as [q|].
      + destruct (pushed_at l y); [exact Hat|contradiction].
      + rewrite Hfin by reflexivity. rewrite !entries_at_one. destruct (fge e y); simpl; auto. }
  assert (CASE4 : fgt e (e_end last) = false ->
     push_inv s (l ++ [(e, o)]) (mkCO s (m ++ [last]))).
  { intros E2. rewrite Hc in *. cbn [co_cmps] in *.
    assert (Heq : key e = key (e_end last)).
    { fk. zb. lia. }
    constructor; cbn [co_start co_cmps]; auto.
    - intros E. destruct l; discriminate.
    - intros l' e1 o1 E. exists m, last. split; [reflexivity|]. rewrite (Hlast _ _ _ E). left.
      fk. apply Z.eqb_eq. congruence.
    - intros y. specialize (Hat y). rewrite order_at_entries in *. cbn [co_cmps] in *.
      rewrite pushed_at_app, pushed_at_one. destruct (pushed_at l y) eqn:P; [exact Hat|].
      rewrite entries_at_app in *. destruct last as [le lo]. cbn [e_end] in *. rewrite entries_at_one in *.
      destruct (entries_at m y); [contradiction|].
      destruct (nan y) eqn:Ny.
      + destruct y; try discriminate Ny. destruct e, le; simpl; trivial.
      + fk. rewrite Heq. destruct (key y <=? key le)%Z; [contradiction|exact I]. }
  rewrite Hm in Hp. rewrite set_last_app in Hp. rewrite Hs in Hp.
  destruct (e_order last) eqn:Eo; destruct o; try (injection Hp as <-); auto.
  all: try (apply CASE1; auto; congruence).
  all: try (apply CASE2; congruence).
  all: destruct (fgt e (e_end last)) eqn:G; injection Hp as <-; [apply CASE3; auto; discriminate|].
  all: rewrite Hc; auto.
Qed.

Lemma push_inv_all s l c : co_pushes (co_new s) l = Some c -> push_inv s l c.
Proof.
  revert c. induction l as [|[e o] l IH] using rev_ind; intros c H.
  - injection H as <-. constructor; cbn; auto; try apply adjacent_nil.
    + intros l' e o E. destruct l'; discriminate.
  - rewrite co_pushes_app in H. destruct (co_pushes (co_new s) l) as [c1|] eqn:E; [|discriminate].
    cbn [co_pushes] in H. destruct (co_push c1 e o) as [c2|] eqn:E2; [|discriminate].
    injection H as <-. eapply push_inv_step; eauto.
Qed.

(** The debug assertion fails exactly when the pushed ends are not nondecreasing. *)
Lemma pushes_succeed s l : (exists c, co_pushes (co_new s) l = Some c) <-> nondecreasing (map fst l).
Proof.
  induction l as [|[e o] l IH] using rev_ind.
  - split; [intros _; apply adjacent_nil|intros _; eexists; reflexivity].
  - rewrite map_app. cbn [map fst]. destruct (snoc_cases l) as [->|(l' & [e' o'] & ->)].
    + split; [intros _; apply adjacent_one|]. intros _. eexists. reflexivity.
    + rewrite map_app in *. cbn [map fst] in *. unfold nondecreasing in *. rewrite <- (app_assoc (map fst l')). 
      cbn [app]. rewrite adjacent_snoc. rewrite <- IH. clear IH. rewrite co_pushes_app.
      destruct (co_pushes (co_new s) (l' ++ [(e', o')])) as [c1|] eqn:E.
      2: { split; [intros [c H]; discriminate|intros [[c H] _]; discriminate]. }
      pose proof (pi_last _ _ _ (push_inv_all _ _ _ E) l' e' o' eq_refl) as (m & x & Hm & Hsh).
      cbn [co_pushes]. unfold co_push. rewrite Hm, last_opt_app.
      assert (Hg : fge e (e_end x) = fle e' e).
      { destruct Hsh as [Hsh|<-]; [|reflexivity]. destruct (feq_nonnan _ _ Hsh).
        destruct (nan e) eqn:Ne; [|fk; zb; rewrite Hsh; reflexivity].
        destruct e; try discriminate Ne. destruct (e_end x), e'; reflexivity. }
      rewrite Hg. destruct (fle e' e) eqn:F; cbn [negb].
      * split; [intros _; split; [eauto|reflexivity]|]. intros _.
        destruct (e_order x), o; try (eexists; reflexivity); destruct (fgt e (e_end x)); eexists; reflexivity.
      * split; [intros [c H]; discriminate|intros [_ H]; discriminate].
Qed.
