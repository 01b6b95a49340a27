(** Proofs about the exact reading of the curve code: tables of orders, signs of quadratics. *)
From Coq Require Import Reals List Bool Lra Lia Psatz.
From Verif Require Import CurveOrderModel ExactModel ExactSpec ExactProofs.
Import ListNotations.
Local Open Scope R_scope.

(** ** Tables *)
Lemma table_le P l : forall s e, table P s l e -> s <= e.
Proof. induction l as [|(m, o) l IH]; cbn; intros s e H; [lra|]. destruct H as (? & ? & H). apply IH in H. lra. Qed.
Lemma table_app P l l' : forall s e, table P s (l ++ l') e <-> exists m, table P s l m /\ table P m l' e.
Proof.
  induction l as [|(m, o) l IH]; cbn; intros s e.
  - split; [intros; exists s; auto|intros (m & <- & H); assumption].
  - split.
    + intros (A & B & C). apply IH in C as (x & C & D). exists x. auto.
    + intros (x & (A & B & C) & D). split; [assumption|]. split; [assumption|]. apply IH. exists x. auto.
Qed.
Lemma last_opt_app {A} (l : list A) x : last_opt (l ++ [x]) = Some x.
Proof. induction l as [|y [|z l] IH]; [reflexivity|reflexivity|exact IH]. Qed.
Lemma last_opt_none {A} (l : list A) : last_opt l = None -> l = [].
Proof. destruct l as [|x l] using rev_ind; [reflexivity|]. rewrite last_opt_app. discriminate. Qed.
Lemma last_opt_split {A} (l : list A) x : last_opt l = Some x -> l = removelast l ++ [x].
Proof.
  intros H. destruct l as [|y l] using rev_ind; [discriminate|]. rewrite last_opt_app in H. injection H as ->.
  rewrite removelast_last. reflexivity.
Qed.
Lemma table_last P s l e m o : table P s l e -> last_opt l = Some (m, o) -> m = e.
Proof.
  intros H E. rewrite (last_opt_split _ _ E) in H. apply table_app in H as (x & _ & H). cbn in H. apply H.
Qed.

Definition strict_excl (P : order -> R -> Prop) : Prop := forall y, ~ (P Left y /\ P Right y).
Lemma ro_push_ok P s l m e o start : strict_excl P -> table P s l m -> m <= e -> (forall y, m <= y <= e -> P o y) ->
  table P s (ro_cmps (ro_push (mkRO start l) e o)) e.
Proof.
  intros Hx Ht Hme Ho. unfold ro_push, ro_last. cbn [ro_cmps ro_start].
  destruct (last_opt l) as [(le, lo)|] eqn:E.
  2: { cbn [ro_cmps]. apply table_app. exists m. split; [assumption|]. cbn. auto. }
  pose proof (table_last _ _ _ _ _ _ Ht E) as ->.
  assert (K : lo = o -> table P s (removelast l ++ [(e, lo)]) e).
  { intros ->. pose proof Ht as Ht'. rewrite (last_opt_split _ _ E) in Ht'. apply table_app in Ht' as (x & H1 & H2). apply table_app. exists x.
    split; [assumption|]. cbn in *. destruct H2 as (H2 & H3 & _). split; [lra|]. split; [|reflexivity].
    intros y Hy. destruct (Rle_lt_dec y m); [apply H3|apply Ho]; lra. }
  assert (K' : table P s (l ++ [(e, o)]) e). { apply table_app. exists m. split; [assumption|]. cbn. auto. }
  assert (N : lo <> o -> lo <> Ish -> o <> Ish -> False).
  { intros N1 N2 N3. pose proof Ht as Ht'. rewrite (last_opt_split _ _ E) in Ht'. apply table_app in Ht' as (x & H1 & H2). cbn in H2.
    destruct H2 as (H2 & H3 & _). specialize (H3 m ltac:(lra)). specialize (Ho m ltac:(lra)).
    apply (Hx m). destruct lo, o; try contradiction; auto. }
  destruct lo, o; cbn [ro_cmps]; try (apply K; reflexivity); try (exfalso; apply N; discriminate);
    (destruct (Rlt_dec m e) as [|Hn]; [exact K'|replace e with m by lra; exact Ht]).
Qed.
Lemma ro_push_start c e o : ro_start (ro_push c e o) = ro_start c.
Proof. unfold ro_push. destruct (ro_last c) as [(le, lo)|]; [|reflexivity]. destruct lo, o; cbn; try reflexivity; destruct (Rlt_dec _ _); reflexivity. Qed.
Lemma ro_push_nonnil c e o : ro_cmps (ro_push c e o) <> [].
Proof.
  unfold ro_push, ro_last. destruct c as (st, l). cbn. destruct (last_opt l) as [(le, lo)|] eqn:E.
  2: { cbn. intros H. apply app_eq_nil in H as (_ & H). discriminate. }
  assert (l <> []) by (intros ->; discriminate).
  destruct lo, o; cbn; try (intros H'; apply app_eq_nil in H' as (_ & H'); discriminate);
    (destruct (Rlt_dec _ _); cbn; [intros H'; apply app_eq_nil in H' as (_ & H'); discriminate|assumption]).
Qed.

(** ** Pushing thresholds *)
(** [E] is how far the thresholds have come (negative infinity if [None]); the table has come to [E], cut to the interval. *)
Definition cut (y0 y1 : R) (E : option R) : R := match E with None => y0 | Some x => Rmin (Rmax x y0) y1 end.
Definition below (E : option R) (y : R) : Prop := match E with None => True | Some x => x <= y end.
Lemma push_in_ok P y0 y1 c E x o : strict_excl P -> y0 < y1 ->
  table P y0 (ro_cmps c) (cut y0 y1 E) -> (ro_cmps c = [] -> cut y0 y1 E = y0) -> below E x -> (forall y, below E y -> y <= x -> P o y) ->
  table P y0 (ro_cmps (ro_push_in y0 y1 c (Some x, o))) (cut y0 y1 (Some x)) /\
  (ro_cmps (ro_push_in y0 y1 c (Some x, o)) = [] -> cut y0 y1 (Some x) = y0).
Proof.
  intros Hx Hy Ht Hn Hb HP. destruct c as (st, l). cbn [ro_cmps] in *. unfold ro_push_in. cbn [fst snd].
  assert (Ebd : y0 <= cut y0 y1 E <= y1). { destruct E; cbn; unfold Rmin, Rmax; repeat destruct (Rle_dec _ _); lra. }
  assert (Em : forall y, cut y0 y1 E <= y -> cut y0 y1 E < y1 -> below E y).
  { intros y. destruct E; cbn; [|trivial]. unfold Rmin, Rmax; repeat destruct (Rle_dec _ _); lra. }
  destruct (rltb_spec y0 x) as [H0|H0]; cbn [andb].
  2: { replace (cut y0 y1 (Some x)) with y0 by (cbn; rewrite Rmax_right, Rmin_left by lra; reflexivity).
       split; [|reflexivity]. assert (cut y0 y1 E = y0) as E'; [|rewrite E' in Ht; assumption].
       destruct E as [z|]; cbn in *; [|reflexivity]. unfold Rmin, Rmax; repeat destruct (Rle_dec _ _); lra. }
  assert (Ecut : cut y0 y1 (Some x) = Rmin x y1) by (cbn; rewrite Rmax_left by lra; reflexivity).
  assert (Push : cut y0 y1 E < y1 -> cut y0 y1 E <= x ->
     table P y0 (ro_cmps (ro_push (mkRO st l) (Rmin x y1) o)) (cut y0 y1 (Some x)) /\
     (ro_cmps (ro_push (mkRO st l) (Rmin x y1) o) = [] -> cut y0 y1 (Some x) = y0)).
  { intros A B. rewrite Ecut. split; [|intros H; exfalso; revert H; apply ro_push_nonnil].
    apply ro_push_ok with (m := cut y0 y1 E); try assumption.
    - unfold Rmin. destruct (Rle_dec x y1); lra.
    - intros y Hyy. apply HP; [apply Em; lra|]. pose proof (Rmin_l x y1). lra. }
  unfold ro_last. cbn [ro_cmps]. destruct (last_opt l) as [(le, lo)|] eqn:El.
  - pose proof (table_last _ _ _ _ _ _ Ht El) as ->.
    destruct (rltb_spec (cut y0 y1 E) y1) as [H1|H1]; destruct (rltb_spec (cut y0 y1 E) x) as [H2|H2]; cbn [andb].
    + apply Push; lra.
    + rewrite Ecut. assert (cut y0 y1 E = Rmin x y1) as E'.
      { destruct E as [z|]; cbn in *; [|lra]. revert H1 H2. unfold Rmin, Rmax; repeat destruct (Rle_dec _ _); lra. }
      rewrite E' in Ht. split; [assumption|]. cbn [ro_cmps]. intros K; subst l; discriminate.
    + rewrite Ecut. assert (cut y0 y1 E = Rmin x y1) as E' by (unfold Rmin; destruct (Rle_dec x y1); lra).
      rewrite E' in Ht. split; [assumption|]. cbn [ro_cmps]. intros K; subst l; discriminate.
    + rewrite Ecut. assert (cut y0 y1 E = Rmin x y1) as E'.
      { destruct E as [z|]; cbn in *; [|lra]. revert H1 H2. unfold Rmin, Rmax; repeat destruct (Rle_dec _ _); lra. }
      rewrite E' in Ht. split; [assumption|]. cbn [ro_cmps]. intros K; subst l; discriminate.
  - apply last_opt_none in El as ->.
    specialize (Hn eq_refl). apply Push; lra.
Qed.
(** The last push, which reaches the end. *)
Lemma push_last_ok P y0 y1 c E o : strict_excl P -> y0 < y1 ->
  table P y0 (ro_cmps c) (cut y0 y1 E) -> (ro_cmps c = [] -> cut y0 y1 E = y0) -> (forall y, below E y -> P o y) ->
  table P y0 (ro_cmps (ro_push_in y0 y1 c (Some y1, o))) y1 /\ ro_cmps (ro_push_in y0 y1 c (Some y1, o)) <> [].
Proof.
  intros Hx Hy Ht Hn HP.
  assert (G : cut y0 y1 (Some y1) = y1) by (cbn; rewrite Rmax_left, Rmin_left by lra; reflexivity).
  assert (NN : ro_cmps c <> [] -> ro_cmps (ro_push_in y0 y1 c (Some y1, o)) <> []).
  { intros H. unfold ro_push_in. cbn [fst]. destruct (rltb _ _ && _); [apply ro_push_nonnil|assumption]. }
  assert (C : below E y1 \/ cut y0 y1 E = y1).
  { destruct E as [z|]; cbn; [|auto]. unfold Rmin, Rmax; repeat destruct (Rle_dec _ _); lra. }
  destruct C as [C|C].
  - destruct (push_in_ok P y0 y1 c E y1 o Hx Hy Ht Hn C ltac:(auto)) as (A & B). rewrite G in A, B. split; [assumption|].
    intros H. specialize (B H). lra.
  - rewrite C in Ht, Hn. assert (N : ro_cmps c <> []) by (intros H; specialize (Hn H); lra).
    split; [|apply NN, N]. unfold ro_push_in. cbn [fst snd].
    destruct (rltb_spec y0 y1); [|contradiction]. cbn [andb]. unfold ro_last. destruct (last_opt (ro_cmps c)) as [(le, lo)|] eqn:El.
    + pose proof (table_last _ _ _ _ _ _ Ht El) as ->. destruct (rltb_spec y1 y1); [lra|]. exact Ht.
    + exfalso. apply N, last_opt_none, El.
Qed.

(** ** Roots *)
Lemma roots_none b c : monic_quadratic_roots b c = (None, None) -> forall y, 0 <= y * y + b * y + c.
Proof.
  unfold monic_quadratic_roots. cbv zeta. destruct (Rle_dec _ 0) as [H|H].
  - intros _ y. pose proof (Rle_0_sqr (2 * y + b)) as K. unfold Rsqr in K. nra.
  - destruct (Rlt_dec _ _); discriminate.
Qed.
Lemma roots_some b c : (monic_quadratic_roots b c = (None, None) /\ b * b - 4 * c <= 0) \/
  exists r s, monic_quadratic_roots b c = (Some r, Some s) /\ 0 < b * b - 4 * c /\ r <= s /\ forall y, y * y + b * y + c = (y - r) * (y - s).
Proof.
  unfold monic_quadratic_roots. cbv zeta. destruct (Rle_dec (b * b - 4 * c) 0) as [H|H]; [left; auto|right].
  assert (Hd : 0 < b * b - 4 * c) by lra. set (d := sqrt (b * b - 4 * c)).
  assert (Dp : 0 < d) by (apply sqrt_lt_R0; assumption).
  assert (Dq : d * d = b * b - 4 * c) by (apply sqrt_sqrt; lra).
  set (root1 := - (1 / 2) * (b + copysign d b)).
  assert (N : root1 <> 0). { unfold root1, copysign. destruct (Rlt_dec b 0); lra. }
  assert (Eq : root1 * root1 + b * root1 + c = 0). { unfold root1, copysign. destruct (Rlt_dec b 0); nra. }
  set (root2 := c / root1). assert (Pr : root1 * root2 = c) by (unfold root2; field; assumption).
  assert (Sm : root1 + root2 = - b).
  { apply Rmult_eq_reg_l with root1; [|assumption]. rewrite Rmult_plus_distr_l, Pr. lra. }
  assert (F : forall y, y * y + b * y + c = (y - root1) * (y - root2)).
  { intros y. replace b with (- (root1 + root2)) by lra. rewrite <- Pr. ring. }
  destruct (Rlt_dec root1 root2) as [Hlt|Hge].
  - exists root1, root2. repeat split; [assumption|lra|assumption].
  - exists root2, root1. repeat split; [assumption|lra|]. intros y. rewrite F. ring.
Qed.

(** ** The signs of a quadratic *)
Lemma pushes_none y0 y1 c o : ro_push_in y0 y1 c (None, o) = c.
Proof. reflexivity. Qed.
Section Signs.
Variables (a b c lower upper y0 y1 : R) (st : R).
Hypothesis Hlu : lower < upper.
Hypothesis Hy : y0 < y1.
Notation P := (quad_is a b c lower upper).
Lemma signs_excl : strict_excl P.
Proof. intros y (A & B). cbn in *. lra. Qed.
Let start_ok : table P y0 (ro_cmps (mkRO st [])) (cut y0 y1 None) := eq_refl.
Lemma signs_step E x o out : table P y0 (ro_cmps out) (cut y0 y1 E) /\ (ro_cmps out = [] -> cut y0 y1 E = y0) ->
  below E x -> (forall y, below E y -> y <= x -> P o y) ->
  table P y0 (ro_cmps (ro_push_in y0 y1 out (Some x, o))) (cut y0 y1 (Some x)) /\
  (ro_cmps (ro_push_in y0 y1 out (Some x, o)) = [] -> cut y0 y1 (Some x) = y0).
Proof. intros (A & B) C D. apply push_in_ok with (E := E); auto using signs_excl. Qed.
Lemma signs_last E o out : table P y0 (ro_cmps out) (cut y0 y1 E) /\ (ro_cmps out = [] -> cut y0 y1 E = y0) ->
  (forall y, below E y -> P o y) ->
  table P y0 (ro_cmps (ro_push_in y0 y1 out (Some y1, o))) y1 /\ ro_cmps (ro_push_in y0 y1 out (Some y1, o)) <> [].
Proof. intros (A & B) D. apply push_last_ok with (E := E); auto using signs_excl. Qed.

Lemma push_quadratic_signs_ok :
  table P y0 (ro_cmps (push_quadratic_signs a b c lower upper y0 y1 (mkRO st []))) y1 /\
  ro_cmps (push_quadratic_signs a b c lower upper y0 y1 (mkRO st [])) <> [].
Proof.
  assert (S0 : table P y0 (ro_cmps (mkRO st [])) (cut y0 y1 None) /\ (ro_cmps (mkRO st []) = [] -> cut y0 y1 None = y0)) by (split; reflexivity).
  unfold push_quadratic_signs, quadratic_signs.
  destruct (Req_EM_T a 0) as [Ea|Na].
  - destruct (Req_EM_T b 0) as [Eb|Nb].
    + destruct (Rlt_dec c lower) as [H|H]; [|destruct (Rlt_dec upper c) as [H'|H']]; cbn [fold_left];
        apply (signs_last None); try exact S0; intros y _; unfold quad_is; rewrite Ea, Eb; lra.
    + set (root0 := - (c - lower) / b). set (root1 := - (c - upper) / b).
      assert (E0 : b * root0 + c = lower) by (unfold root0; field; assumption).
      assert (E1 : b * root1 + c = upper) by (unfold root1; field; assumption). clearbody root0 root1.
      destruct (Rlt_dec 0 b) as [H|H]; cbn [fold_left].
      * assert (root0 < root1) by nra.
        apply (signs_last (Some root1)); [apply (signs_step (Some root0)); [apply (signs_step None); [exact S0|exact I|]|cbn; lra|]|];
          cbn; rewrite Ea; intros; nra.
      * assert (root1 < root0) by nra.
        apply (signs_last (Some root0)); [apply (signs_step (Some root1)); [apply (signs_step None); [exact S0|exact I|]|cbn; lra|]|];
          cbn; rewrite Ea; intros; nra.
  - assert (Ql : forall y, a * (y * y) + b * y + c - lower = a * (y * y + (b * / a) * y + (c - lower) * / a)) by (intros; field; assumption).
    assert (Qu : forall y, a * (y * y) + b * y + c - upper = a * (y * y + (b * / a) * y + (c - upper) * / a)) by (intros; field; assumption).
    destruct (roots_some (b * / a) ((c - lower) * / a)) as [(El & Dl)|(rl & sl & El & Dl & Ol & Fl)]; rewrite El;
    destruct (roots_some (b * / a) ((c - upper) * / a)) as [(Eu & Du)|(ru & su & Eu & Du & Ou & Fu)]; rewrite Eu.
    + (* no roots at all *)
      pose proof (roots_none _ _ El) as Fl. pose proof (roots_none _ _ Eu) as Fu.
      destruct (Rlt_dec 0 a) as [Ha|Ha]; cbn [fold_left]; rewrite ?pushes_none; apply (signs_last None); try exact S0; intros y _; cbn.
      * specialize (Qu y). specialize (Fu y). pose proof (pp_mul a _ ltac:(lra) Fu). lra.
      * specialize (Ql y). specialize (Fl y). pose proof (np_mul a _ ltac:(lra) Fl). lra.
    + (* roots of the upper equation only *)
      pose proof (roots_none _ _ El) as Fl.
      assert (Ha : 0 < a). { destruct (Rlt_dec 0 a); [assumption|exfalso]. pose proof (Ql ru) as A. pose proof (Qu ru) as B. rewrite Fu in B.
        pose proof (np_mul a _ ltac:(lra) (Fl ru)). replace (a * ((ru - ru) * (ru - su))) with 0 in B by ring. lra. }
      destruct (Rlt_dec 0 a); [|contradiction]. cbn [fold_left]. rewrite ?pushes_none.
      apply (signs_last (Some su)); [apply (signs_step (Some ru)); [apply (signs_step None); [exact S0|exact I|]|exact Ou|]|]; intros y; cbn.
      * intros _ H. pose proof (Qu y) as B. rewrite Fu in B. pose proof (pp_mul a ((y - ru) * (y - su)) ltac:(lra) (nn_mul (y - ru) (y - su) ltac:(lra) ltac:(lra))). lra.
      * intros H1 H2. pose proof (Qu y) as B. rewrite Fu in B. pose proof (pn_mul a ((y - ru) * (y - su)) ltac:(lra) (pn_mul (y - ru) (y - su) ltac:(lra) ltac:(lra))).
        pose proof (Ql y) as A. pose proof (pp_mul a _ ltac:(lra) (Fl y)). lra.
      * intros H. pose proof (Qu y) as B. rewrite Fu in B. pose proof (pp_mul a ((y - ru) * (y - su)) ltac:(lra) (pp_mul (y - ru) (y - su) ltac:(lra) ltac:(lra))). lra.
    + (* roots of the lower equation only *)
      pose proof (roots_none _ _ Eu) as Fu.
      assert (Ha : a < 0). { destruct (Rlt_dec a 0); [assumption|exfalso]. pose proof (Ql rl) as A. pose proof (Qu rl) as B. rewrite Fl in A.
        pose proof (pp_mul a _ ltac:(lra) (Fu rl)). replace (a * ((rl - rl) * (rl - sl))) with 0 in A by ring. lra. }
      destruct (Rlt_dec 0 a); [lra|]. cbn [fold_left]. rewrite ?pushes_none.
      apply (signs_last (Some sl)); [apply (signs_step (Some rl)); [apply (signs_step None); [exact S0|exact I|]|exact Ol|]|]; intros y; cbn.
      * intros _ H. pose proof (Ql y) as B. rewrite Fl in B. pose proof (np_mul a ((y - rl) * (y - sl)) ltac:(lra) (nn_mul (y - rl) (y - sl) ltac:(lra) ltac:(lra))). lra.
      * intros H1 H2. pose proof (Ql y) as B. rewrite Fl in B. pose proof (nn_mul a ((y - rl) * (y - sl)) ltac:(lra) (pn_mul (y - rl) (y - sl) ltac:(lra) ltac:(lra))).
        pose proof (Qu y) as A. pose proof (np_mul a _ ltac:(lra) (Fu y)). lra.
      * intros H. pose proof (Ql y) as B. rewrite Fl in B. pose proof (np_mul a ((y - rl) * (y - sl)) ltac:(lra) (pp_mul (y - rl) (y - sl) ltac:(lra) ltac:(lra))). lra.
    + (* all roots *)
      destruct (Rlt_dec 0 a) as [Ha|Ha].
      * assert (K1 : (rl - ru) * (rl - su) < 0).
        { pose proof (Ql rl) as A. pose proof (Qu rl) as B. rewrite Fl in A. rewrite Fu in B. replace (a * ((rl - rl) * (rl - sl))) with 0 in A by ring.
          apply Rnot_le_lt. intros C. pose proof (pp_mul a _ ltac:(lra) C). lra. }
        assert (K2 : (sl - ru) * (sl - su) < 0).
        { pose proof (Ql sl) as A. pose proof (Qu sl) as B. rewrite Fl in A. rewrite Fu in B. replace (a * ((sl - rl) * (sl - sl))) with 0 in A by ring.
          apply Rnot_le_lt. intros C. pose proof (pp_mul a _ ltac:(lra) C). lra. }
        assert (ru <= rl) by (apply Rnot_lt_le; intros C; pose proof (nn_mul (rl - ru) (rl - su) ltac:(lra) ltac:(lra)); lra).
        assert (sl <= su) by (apply Rnot_lt_le; intros C; pose proof (pp_mul (sl - ru) (sl - su) ltac:(lra) ltac:(lra)); lra).
        cbn [fold_left].
        apply (signs_last (Some su)); [apply (signs_step (Some sl)); [apply (signs_step (Some rl)); [apply (signs_step (Some ru)); [apply (signs_step None); [exact S0|exact I|]|assumption|]|assumption|]|assumption|]|];
          intros y; cbn; [intros _ H1|intros H1 H2|intros H1 H2|intros H1 H2|intros H1];
          pose proof (Ql y) as A; pose proof (Qu y) as B; rewrite Fl in A; rewrite Fu in B.
        -- pose proof (pp_mul a _ ltac:(lra) (nn_mul (y - ru) (y - su) ltac:(lra) ltac:(lra))). lra.
        -- pose proof (pn_mul a _ ltac:(lra) (pn_mul (y - ru) (y - su) ltac:(lra) ltac:(lra))).
           pose proof (pp_mul a _ ltac:(lra) (nn_mul (y - rl) (y - sl) ltac:(lra) ltac:(lra))). lra.
        -- pose proof (pn_mul a _ ltac:(lra) (pn_mul (y - rl) (y - sl) ltac:(lra) ltac:(lra))). lra.
        -- pose proof (pn_mul a _ ltac:(lra) (pn_mul (y - ru) (y - su) ltac:(lra) ltac:(lra))).
           pose proof (pp_mul a _ ltac:(lra) (pp_mul (y - rl) (y - sl) ltac:(lra) ltac:(lra))). lra.
        -- pose proof (pp_mul a _ ltac:(lra) (pp_mul (y - ru) (y - su) ltac:(lra) ltac:(lra))). lra.
      * assert (Ha' : a < 0) by lra.
        assert (K1 : (ru - rl) * (ru - sl) < 0).
        { pose proof (Ql ru) as A. pose proof (Qu ru) as B. rewrite Fl in A. rewrite Fu in B. replace (a * ((ru - ru) * (ru - su))) with 0 in B by ring.
          apply Rnot_le_lt. intros C. pose proof (np_mul a _ ltac:(lra) C). lra. }
        assert (K2 : (su - rl) * (su - sl) < 0).
        { pose proof (Ql su) as A. pose proof (Qu su) as B. rewrite Fl in A. rewrite Fu in B. replace (a * ((su - ru) * (su - su))) with 0 in B by ring.
          apply Rnot_le_lt. intros C. pose proof (np_mul a _ ltac:(lra) C). lra. }
        assert (rl <= ru) by (apply Rnot_lt_le; intros C; pose proof (nn_mul (ru - rl) (ru - sl) ltac:(lra) ltac:(lra)); lra).
        assert (su <= sl) by (apply Rnot_lt_le; intros C; pose proof (pp_mul (su - rl) (su - sl) ltac:(lra) ltac:(lra)); lra).
        cbn [fold_left].
        apply (signs_last (Some sl)); [apply (signs_step (Some su)); [apply (signs_step (Some ru)); [apply (signs_step (Some rl)); [apply (signs_step None); [exact S0|exact I|]|assumption|]|assumption|]|assumption|]|];
          intros y; cbn; [intros _ H1|intros H1 H2|intros H1 H2|intros H1 H2|intros H1];
          pose proof (Ql y) as A; pose proof (Qu y) as B; rewrite Fl in A; rewrite Fu in B.
        -- pose proof (np_mul a _ ltac:(lra) (nn_mul (y - rl) (y - sl) ltac:(lra) ltac:(lra))). lra.
        -- pose proof (nn_mul a _ ltac:(lra) (pn_mul (y - rl) (y - sl) ltac:(lra) ltac:(lra))).
           pose proof (np_mul a _ ltac:(lra) (nn_mul (y - ru) (y - su) ltac:(lra) ltac:(lra))). lra.
        -- pose proof (nn_mul a _ ltac:(lra) (pn_mul (y - ru) (y - su) ltac:(lra) ltac:(lra))). lra.
        -- pose proof (nn_mul a _ ltac:(lra) (pn_mul (y - rl) (y - sl) ltac:(lra) ltac:(lra))).
           pose proof (np_mul a _ ltac:(lra) (pp_mul (y - ru) (y - su) ltac:(lra) ltac:(lra))). lra.
        -- pose proof (np_mul a _ ltac:(lra) (pp_mul (y - rl) (y - sl) ltac:(lra) ltac:(lra))). lra.
Qed.
End Signs.
