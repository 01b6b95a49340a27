(** Proofs about the segment arena, continued: links, chains, event lists. *)
From Coq Require Import List Bool ZArith Lia Permutation Sorted Arith.
From Verif Require Import F64 F64Arith TreeVecModel CurveOrderSpec CurveOrderProofs GeomModel SegmentsModel SegmentsSpec SegmentsProofs SegmentsProofs2.
Import ListNotations.

Lemma nth_error_seq o n j : j < n -> nth_error (seq o n) j = Some (o + j).
Proof.
  revert o j. induction n; intros o [|j] H; cbn; try lia.
  - f_equal. lia.
  - rewrite IHn by lia. f_equal. lia.
Qed.

Lemma links_at f pre c post j o : j < length (edges c) ->
  nth_error (links f o (pre ++ c :: post)) (length (all_edges pre) + j) =
  Some (f (ckind c) (o + length (all_edges pre)) (length (edges c)) j).
Proof.
  intros H. rewrite links_app. rewrite nth_error_app2 by (rewrite links_length; lia).
  rewrite links_length. replace (length (all_edges pre) + j - length (all_edges pre)) with j by lia.
  cbn [links]. rewrite nth_error_app1 by (rewrite map_length, seq_length; assumption).
  rewrite nth_error_map', nth_error_seq by assumption. reflexivity.
Qed.

Lemma edges_at pre c post j : j < length (edges c) ->
  nth_error (all_edges (pre ++ c :: post)) (length (all_edges pre) + j) = nth_error (edges c) j.
Proof.
  intros H. rewrite all_edges_app, nth_error_app2 by lia.
  replace (length (all_edges pre) + j - length (all_edges pre)) with j by lia.
  cbn. rewrite nth_error_app1 by assumption. reflexivity.
Qed.

Lemma locate cs i : i < length (all_edges cs) -> exists pre c post j,
  cs = pre ++ c :: post /\ j < length (edges c) /\ i = length (all_edges pre) + j.
Proof.
  revert i. induction cs as [|c cs IH]; intros i H; cbn in H; [lia|].
  rewrite app_length in H. fold (all_edges cs) in H.
  destruct (Nat.lt_ge_cases i (length (edges c))) as [L|L].
  - exists [], c, cs, i. repeat split; assumption.
  - destruct (IH (i - length (edges c))) as (pre & d & post & j & -> & Hj & Hi); [lia|].
    exists (c :: pre), d, post, j. repeat split; [assumption|]. cbn. rewrite app_length. fold (all_edges pre). lia.
Qed.

Lemma links_some_lt f cs i x : nth_error (links f 0 cs) i = Some x -> i < length (all_edges cs).
Proof. intros H. rewrite <- (links_length f cs 0). apply nth_error_Some. congruence. Qed.

Definition no_dangling (cs : list contour) : Prop := forall c, In c cs -> ckind c = KDangling -> edges c = [].

Lemma links_inverse cs : no_dangling cs -> forall i j,
  nth_error (links next_of 0 cs) i = Some (Some j) <-> nth_error (links prev_of 0 cs) j = Some (Some i).
Proof.
  intros ND i j. split; intros H.
  - pose proof (links_some_lt _ _ _ _ H) as L. destruct (locate cs i L) as (pre & c & post & k & -> & Hk & ->).
    rewrite links_at in H by assumption. inversion H as [N]; clear H. try rewrite Nat.add_0_l in N.
    unfold next_of in N. destruct (S k =? length (edges c)) eqn:E.
    + apply Nat.eqb_eq in E. destruct (ckind c) eqn:K; [discriminate| |].
      * inversion N; subst. rewrite <- (Nat.add_0_r (length (all_edges pre))) at 1.
        rewrite links_at by lia. cbn. rewrite K. f_equal. f_equal. lia.
      * rewrite (ND c) in Hk; [cbn in Hk; lia|apply in_elt|assumption].
    + apply Nat.eqb_neq in E. inversion N; subst.
      rewrite links_at by lia. cbn. f_equal.
  - pose proof (links_some_lt _ _ _ _ H) as L. destruct (locate cs j L) as (pre & c & post & k & -> & Hk & ->).
    rewrite links_at in H by assumption. inversion H as [N]; clear H. try rewrite Nat.add_0_l in N.
    destruct k as [|k]; cbn in N.
    + destruct (ckind c) eqn:K; [discriminate| |].
      * inversion N; subst.
        replace (length (all_edges pre) + length (edges c) - 1) with (length (all_edges pre) + (length (edges c) - 1)) by lia.
        rewrite links_at by lia. unfold next_of.
        replace (S (length (edges c) - 1) =? length (edges c)) with true by (symmetry; apply Nat.eqb_eq; lia).
        rewrite K. f_equal. f_equal. lia.
      * rewrite (ND c) in Hk; [cbn in Hk; lia|apply in_elt|assumption].
    + inversion N; subst. rewrite links_at by lia. unfold next_of.
      replace (S k =? length (edges c)) with false by (symmetry; apply Nat.eqb_neq; lia). reflexivity.
Qed.

(** ** Chains *)

(** Consecutive edges meet; a closed contour also meets itself. *)
Definition contour_chain (c : contour) : Prop :=
  (forall j e f, nth_error (edges c) j = Some e -> nth_error (edges c) (S j) = Some f ->
     same_point (e_to e) (e_from f)) /\
  (ckind c = KClosed -> forall e f, nth_error (edges c) (length (edges c) - 1) = Some e -> nth_error (edges c) 0 = Some f ->
     same_point (e_to e) (e_from f)).

Lemma links_meet cs : no_dangling cs -> (forall c, In c cs -> contour_chain c) -> forall i j,
  nth_error (links next_of 0 cs) i = Some (Some j) ->
  exists e f, nth_error (all_edges cs) i = Some e /\ nth_error (all_edges cs) j = Some f /\ same_point (e_to e) (e_from f).
Proof.
  intros ND CH i j H.
  pose proof (links_some_lt _ _ _ _ H) as L. destruct (locate cs i L) as (pre & c & post & k & -> & Hk & ->).
  rewrite links_at in H by assumption. inversion H as [N]; clear H. try rewrite Nat.add_0_l in N.
  destruct (CH c (in_elt c pre post)) as [C1 C2].
  rewrite edges_at by assumption.
  destruct (nth_error (edges c) k) as [e|] eqn:Ee; [|apply nth_error_None in Ee; lia].
  unfold next_of in N. destruct (S k =? length (edges c)) eqn:E.
  - apply Nat.eqb_eq in E. destruct (ckind c) eqn:K; [discriminate| |].
    + inversion N; subst. assert (0 < length (edges c)) by lia.
      pose proof (edges_at pre c post 0 H) as E0. rewrite Nat.add_0_r in E0. rewrite E0.
      destruct (nth_error (edges c) 0) as [f|] eqn:Ef; [|apply nth_error_None in Ef; lia].
      exists e, f. split; [reflexivity|]. split; [reflexivity|]. apply C2; try assumption; try reflexivity.
      replace (length (edges c) - 1) with k by lia. assumption.
    + rewrite (ND c) in Hk; [cbn in Hk; lia|apply in_elt|assumption].
  - apply Nat.eqb_neq in E. inversion N; subst. rewrite edges_at by lia.
    destruct (nth_error (edges c) (S k)) as [f|] eqn:Ef; [|apply nth_error_None in Ef; lia].
    exists e, f. split; [reflexivity|]. split; [reflexivity|]. eapply C1; eassumption.
Qed.

Lemma nth_error_map_seq {A} (f : nat -> A) n j : nth_error (map f (seq 0 n)) j = if j <? n then Some (f j) else None.
Proof.
  destruct (Nat.ltb_spec j n).
  - rewrite nth_error_map', nth_error_seq by assumption. reflexivity.
  - apply nth_error_None. rewrite map_length, seq_length. assumption.
Qed.

Lemma open_chain r ps : contour_chain (mkContour KOpen r (open_edges ps)).
Proof.
  split; [|discriminate]. cbn [edges]. unfold open_edges. intros j e f. rewrite !nth_error_map_seq.
  destruct (j <? length ps - 1); [|discriminate]. destruct (S j <? length ps - 1); [|discriminate].
  intros A B; inversion A; inversion B; subst. left. reflexivity.
Qed.

Lemma closed_chain r ps : contour_chain (mkContour KClosed r (closed_edges ps)).
Proof.
  unfold closed_edges. destruct (length ps <=? 1) eqn:L.
  - split; cbn [edges]; [intros [|j] ? ?; discriminate|intros _ e f H; discriminate].
  - apply Nat.leb_gt in L. split; cbn [edges].
    + intros j e f. rewrite !nth_error_map_seq. destruct (Nat.ltb_spec j (length ps)); [|discriminate].
      destruct (Nat.ltb_spec (S j) (length ps)); [|discriminate].
      intros A B; inversion A; inversion B; subst. left. cbn. rewrite (Nat.mod_small (S j)) by lia. reflexivity.
    + intros _ e f. rewrite map_length, seq_length, !nth_error_map_seq.
      destruct (Nat.ltb_spec (length ps - 1) (length ps)); [|discriminate]. destruct (Nat.ltb_spec 0 (length ps)); [|discriminate].
      intros A B; inversion A; inversion B; subst. left. cbn [line_edge e_to e_from].
      replace (S (length ps - 1)) with (length ps) by lia. rewrite Nat.mod_same by lia. reflexivity.
Qed.

(** *** Bezier subpaths *)

Notation peq p q := (point_eq p q = true).

Lemma peq_key p q : peq p q -> point_nonnan p /\ point_nonnan q /\ key (py p) = key (py q) /\ key (px p) = key (px q).
Proof.
  intros H. destruct (point_eq_nonnan _ _ H) as [A B]. split; [assumption|]. split; [assumption|].
  unfold point_eq in H. destruct A, B. revert H. fk. intros H. zb. lia.
Qed.
Lemma key_peq p q : point_nonnan p -> point_nonnan q -> key (py p) = key (py q) -> key (px p) = key (px q) -> peq p q.
Proof. intros [? ?] [? ?] A B. unfold point_eq. fk. rewrite A, B, !Z.eqb_refl. reflexivity. Qed.
Lemma peq_trans p q r : peq p q -> peq q r -> peq p r.
Proof.
  intros A B. apply peq_key in A, B. destruct A as (A1 & A2 & A3 & A4), B as (B1 & B2 & B3 & B4).
  apply key_peq; auto; congruence.
Qed.
Lemma peq_sym p q : peq p q -> peq q p.
Proof. intros A. apply peq_key in A. destruct A as (A1 & A2 & A3 & A4). apply key_peq; auto. Qed.
Lemma peq_refl p : point_nonnan p -> peq p p.
Proof. intros; apply key_peq; auto. Qed.

(** [es] leads from [p] to [q]. *)
Fixpoint leads (p : point) (es : list edge) (q : point) : Prop :=
  match es with
  | [] => peq p q
  | e :: es' => peq p (e_from e) /\ leads (e_to e) es' q
  end.

Lemma leads_eq p p' es q : peq p p' -> leads p' es q -> leads p es q.
Proof. destruct es as [|e es]; cbn; intros A; [apply peq_trans, A|]. intros [B C]. split; [eapply peq_trans; eassumption|assumption]. Qed.

Lemma leads_end es : forall p q q', leads p es q -> peq q q' -> leads p es q'.
Proof.
  induction es as [|e es IH]; cbn; intros p q q' A B; [eapply peq_trans; eassumption|].
  destruct A. split; [assumption|]. eapply IH; eassumption.
Qed.

Lemma leads_app es1 : forall p q es2 r, leads p es1 q -> leads q es2 r -> leads p (es1 ++ es2) r.
Proof.
  induction es1 as [|e es1 IH]; cbn; intros p q es2 r A B.
  - eapply leads_eq; eassumption.
  - destruct A. split; [assumption|]. eapply IH; eassumption.
Qed.

Lemma leads_step es : forall p q j e f, leads p es q -> nth_error es j = Some e -> nth_error es (S j) = Some f ->
  peq (e_to e) (e_from f).
Proof.
  induction es as [|x es IH]; intros p q j e f L A B; [destruct j; discriminate|].
  destruct L as [_ L]. destruct j as [|j]; cbn in A, B.
  - inversion A; subst. destruct es as [|y es]; [discriminate|]. inversion B; subst. apply L.
  - eapply IH; eassumption.
Qed.

Definition ps_start (s : pathseg) : point := match s with PLine p _ => p | PQuad p _ _ => p | PCubic c => c0 c end.
Definition ps_end (s : pathseg) : point := match s with PLine _ p => p | PQuad _ _ p => p | PCubic c => c3 c end.

Fixpoint pchain (p : point) (ss : list pathseg) : Prop :=
  match ss with [] => True | s :: ss' => ps_start s = p /\ pchain (ps_end s) ss' end.

Lemma ksegs_chain l : (forall p, ~ In (MoveTo p) l) -> forall start last, pchain last (ksegs start last l).
Proof.
  induction l as [|e l IH]; intros NM start last; cbn [ksegs]; [exact I|].
  assert (NM' : forall p, ~ In (MoveTo p) l) by (intros p H; apply (NM p); now right).
  destruct e; cbn [pchain ps_start ps_end].
  - exfalso. apply (NM p). now left.
  - split; [reflexivity|]. apply IH, NM'.
  - split; [reflexivity|]. apply IH, NM'.
  - split; [reflexivity|]. apply IH, NM'.
  - destruct (negb (point_eq last start)); [|apply IH, NM']. cbn. split; [reflexivity|]. apply IH, NM'.
Qed.

(** MoveTo only at the head of a subpath. *)
Lemma take_subpath_started l : forall p, ~ In (MoveTo p) (fst (take_subpath true l)).
Proof.
  induction l as [|e l IH]; intros p; cbn; [easy|].
  destruct e; cbn; [easy|..]; destruct (take_subpath true l); cbn in *; intros [H|H]; try discriminate; eapply IH; exact H.
Qed.

Lemma take_subpath_head l : exists e sub, take_subpath false l = (match l with [] => [] | _ => e :: sub end, snd (take_subpath false l)) /\
  (forall p, ~ In (MoveTo p) sub).
Proof.
  destruct l as [|e l].
  - exists ClosePath, []. cbn. split; [reflexivity|easy].
  - exists e, (fst (take_subpath true l)). split; [|apply take_subpath_started].
    cbn. rewrite andb_false_r. destruct (take_subpath true l); reflexivity.
Qed.

Lemma take_subpath_app b l : fst (take_subpath b l) ++ snd (take_subpath b l) = l.
Proof.
  revert b. induction l as [|e l IH]; intros b; cbn; [reflexivity|].
  destruct (is_moveto e && b); [reflexivity|]. specialize (IH true). destruct (take_subpath true l); cbn in *. congruence.
Qed.

Lemma take_subpath_rest b l : (b = true \/ l = [] \/ True) -> 
  match snd (take_subpath b l) with [] => True | e :: _ => is_moveto e = true end.
Proof.
  intros _. revert b. induction l as [|e l IH]; intros b; cbn; [exact I|].
  destruct (is_moveto e && b) eqn:E; [cbn; apply andb_true_iff in E; apply E|].
  specialize (IH true). destruct (take_subpath true l); cbn in *. exact IH.
Qed.

Lemma subpaths_fuel_spec fuel : forall l, length l <= fuel ->
  concat (subpaths_fuel fuel l) = l /\
  (forall sub, In sub (subpaths_fuel fuel l) -> exists e rest, sub = e :: rest /\ forall p, ~ In (MoveTo p) rest).
Proof.
  induction fuel as [|fuel IH]; intros l H.
  - destruct l; [|cbn in H; lia]. cbn. split; [reflexivity|easy].
  - destruct l as [|e l]; [cbn; split; [reflexivity|easy]|].
    cbn [subpaths_fuel]. destruct (take_subpath_head (e :: l)) as (e' & sub & T & NM).
    rewrite T. pose proof (take_subpath_app false (e :: l)) as A. rewrite T in A. cbn [fst snd] in A.
    assert (LR : length (snd (take_subpath false (e :: l))) <= fuel).
    { pose proof (f_equal (@length _) A) as AL. cbn [app length] in AL. rewrite app_length in AL. cbn [length] in H. lia. }
    destruct (IH _ LR) as [C D]. split.
    + cbn [concat]. rewrite C. exact A.
    + intros s [<-|Hs]; [eauto|]. apply D, Hs.
Qed.

(** Every subpath but the first starts with a MoveTo. *)
Lemma subpaths_fuel_heads fuel : forall l, length l <= fuel ->
  forall i sub, nth_error (subpaths_fuel fuel l) (S i) = Some sub -> exists p rest, sub = MoveTo p :: rest.
Proof.
  induction fuel as [|fuel IH]; intros l H i sub; [destruct l; discriminate|].
  destruct l as [|e l]; [discriminate|]. cbn [subpaths_fuel].
  destruct (take_subpath_head (e :: l)) as (e' & sub' & T & NM). pose proof (take_subpath_rest false (e :: l) (or_intror (or_intror I))) as R.
  pose proof (take_subpath_app false (e :: l)) as A. rewrite T in A, R. cbn [fst snd] in A, R. rewrite T.
  assert (LR : length (snd (take_subpath false (e :: l))) <= fuel).
  { pose proof (f_equal (@length _) A) as AL. cbn [app length] in AL. rewrite app_length in AL. cbn [length] in H. lia. }
  cbn [nth_error]. destruct (snd (take_subpath false (e :: l))) as [|m rest] eqn:SR.
  - destruct fuel; destruct i; discriminate.
  - destruct i as [|i]; [|apply IH; assumption].
    destruct fuel as [|fuel]; [cbn in LR; lia|]. cbn [subpaths_fuel nth_error].
    destruct (take_subpath_head (m :: rest)) as (e2 & sub2 & T2 & _). rewrite T2. cbn [nth_error]. intros X; inversion X; subst.
    pose proof (take_subpath_app false (m :: rest)) as A2. rewrite T2 in A2. cbn in A2. inversion A2; subst.
    destruct m; try discriminate. eauto.
Qed.

Section Chain.
Variable eval : cubic -> f64 -> point.
Variable monic : f64 -> f64 -> f64 * f64.
Variable quad_ctrl : point -> point -> point -> point * point.

(** The curve of a segment evaluates to its end points at 0 and 1. *)
Definition ends_exact (s : pathseg) : Prop :=
  match s with
  | PLine p q => point_nonnan p /\ point_nonnan q
  | _ => let c := to_cubic quad_ctrl s in
         peq (eval c fzero) (ps_start s) /\ peq (eval c fone) (ps_end s) /\
         forall t, In t (cuts monic c) -> point_nonnan (eval c t)
  end.

Lemma curve_edges_leads inp c ts : forall t, (forall x, In x (t :: ts) -> point_nonnan (eval c x)) ->
  leads (eval c t) (curve_edges eval inp c (t :: ts)) (eval c (last (t :: ts) t)).
Proof.
  induction ts as [|t1 ts IH]; intros t H.
  - cbn. apply peq_refl, H. now left.
  - change (curve_edges eval inp c (t :: t1 :: ts)) with
      ((if point_eq (eval c t) (eval c t1) then [] else [mkEdge (eval c t) (eval c t1) (t, t1) inp]) ++ curve_edges eval inp c (t1 :: ts)).
    replace (last (t :: t1 :: ts) t) with (last (t1 :: ts) t1).
    2:{ change (last (t :: t1 :: ts) t) with (last (t1 :: ts) t). clear. revert t t1. induction ts; intros; [reflexivity|].
        cbn [last] in *. destruct ts; [reflexivity|]. apply (IHts t t1). }
    eapply leads_app; [|apply IH; intros; apply H; now right].
    destruct (point_eq (eval c t) (eval c t1)) eqn:E; cbn; [assumption|].
    split; [apply peq_refl, H; now left|apply peq_refl, H; right; now left].
Qed.

Lemma pathseg_edges_lead s : ends_exact s -> leads (ps_start s) (pathseg_edges eval monic quad_ctrl s) (ps_end s).
Proof.
  assert (G : forall inp c p q, peq (eval c fzero) p -> peq (eval c fone) q ->
    (forall t, In t (cuts monic c) -> point_nonnan (eval c t)) -> leads p (curve_edges eval inp c (cuts monic c)) q).
  { intros inp c p q A B N. unfold cuts in *.
    pose proof (curve_edges_leads inp c (filter (fun r => flt fzero r && flt r fone) (roots monic c) ++ [fone]) fzero N) as L.
    cbn [app] in *. replace (last _ _) with fone in L.
    - eapply leads_eq; [apply peq_sym, A|]. eapply leads_end; eassumption.
    - rewrite app_comm_cons, last_last. reflexivity. }
  destruct s as [p q|p q r|c]; cbn [pathseg_edges ends_exact ps_start ps_end].
  - intros [A B]. destruct (point_eq p q) eqn:E; cbn; [assumption|]. split; apply peq_refl; assumption.
  - intros (A & B & N). apply G; assumption.
  - intros (A & B & N). apply G; assumption.
Qed.

Lemma path_edges_lead ss : forall p, Forall ends_exact ss -> pchain p ss -> ss <> [] ->
  exists q, leads p (flat_map (pathseg_edges eval monic quad_ctrl) ss) q.
Proof.
  induction ss as [|s ss IH]; intros p F C N; [congruence|].
  inversion F; subst. destruct C as [C1 C2]. cbn [flat_map].
  pose proof (pathseg_edges_lead s H1) as L. rewrite C1 in L.
  destruct ss as [|s' ss].
  - cbn. rewrite app_nil_r. eauto.
  - destruct (IH (ps_end s) H2 C2) as [q Q]; [discriminate|]. exists q. eapply leads_app; eassumption.
Qed.

Lemma kurbo_chain sub ss : (exists e rest, sub = e :: rest /\ forall p, ~ In (MoveTo p) rest) ->
  kurbo_segments sub = Some ss -> exists p, pchain p ss.
Proof.
  intros (e & rest & -> & NM) K. cbn in K. destruct e; inversion K; subst; clear K; cbn [ksegs].
  - exists p. apply ksegs_chain, NM.
  - exists p. cbn. split; [reflexivity|]. apply ksegs_chain, NM.
  - exists p2. cbn. split; [reflexivity|]. apply ksegs_chain, NM.
  - exists p3. cbn. split; [reflexivity|]. apply ksegs_chain, NM.
Qed.

(** Every curve in the path evaluates to its end points. *)
Definition path_exact (p : list pathel) : Prop :=
  forall sub ss, In sub (subpaths p) -> kurbo_segments sub = Some ss -> Forall ends_exact ss.
Definition op_exact (op : seg_op) : Prop :=
  match op with OpBez _ p => path_exact p | _ => True end.

Lemma bez_chain reg p sub : path_exact p -> In sub (subpaths p) ->
  contour_chain (bez_contour reg (subpath_edges eval monic quad_ctrl sub)).
Proof.
  intros X Sb. unfold subpath_edges. destruct (kurbo_segments sub) as [ss|] eqn:K.
  - specialize (X _ _ Sb K). destruct (kurbo_chain sub ss) as [q Q]; [|exact K|].
    { destruct (subpaths_fuel_spec (length p) p (le_n _)) as [_ D]. apply D, Sb. }
    assert (A : forall j e f, nth_error (flat_map (pathseg_edges eval monic quad_ctrl) ss) j = Some e ->
       nth_error (flat_map (pathseg_edges eval monic quad_ctrl) ss) (S j) = Some f -> same_point (e_to e) (e_from f)).
    { intros j e f E1 E2. destruct ss as [|s ss']; [destruct j; discriminate|]. destruct (path_edges_lead (s :: ss') q X Q) as [r L]; [discriminate|].
      right. eapply leads_step; eassumption. }
    split; cbn [bez_contour edges ckind]; [exact A|].
    destruct (closes (flat_map (pathseg_edges eval monic quad_ctrl) ss)) eqn:C; [|discriminate].
    intros _ e f E1 E2. right. unfold closes in C. remember (flat_map (pathseg_edges eval monic quad_ctrl) ss) as es.
    destruct es as [|x es]; [discriminate|]. cbn in E2. inversion E2; subst x. rewrite (nth_error_last (f :: es) f) in E1 by discriminate.
    inversion E1; subst e. apply peq_sym, C.
  - split; cbn; [intros [|j]; discriminate|intros _ e f; discriminate].
Qed.

Lemma upto_first_bad_incl {A} (f : A -> bool) l x : In x (upto_first_bad f l) -> In x l.
Proof. induction l as [|y l IH]; cbn; [easy|]. destruct (f y); cbn; intuition. Qed.

Lemma op_chain op c : op_exact op -> In c (fst (op_contours eval monic quad_ctrl op)) -> contour_chain c.
Proof.
  destruct op as [ps|pss|b p]; cbn [op_exact op_contours fst].
  - intros _ [<-|[]]. apply open_chain.
  - intros _ H. apply in_map_iff in H. destruct H as (ps & <- & _). apply closed_chain.
  - intros X H. destruct (b && negb _); cbn [fst] in H; apply in_map_iff in H; destruct H as (es & <- & H).
    + apply upto_first_bad_incl in H. apply in_map_iff in H. destruct H as (sub & <- & S). eapply bez_chain; eassumption.
    + apply in_map_iff in H. destruct H as (sub & <- & S). eapply bez_chain; eassumption.
Qed.

Lemma history_chain ops c : (forall op, In op ops -> op_exact op) -> In c (history_contours eval monic quad_ctrl ops) -> contour_chain c.
Proof.
  intros X H. apply in_flat_map in H. destruct H as (op & H1 & H2). eapply op_chain; [apply X, H1|exact H2].
Qed.

Definition must_close (op : seg_op) : Prop := match op with OpBez b _ => b = true | _ => True end.

Lemma history_no_dangling ops : (forall op, In op ops -> must_close op) ->
  (forall op, In op ops -> snd (op_contours eval monic quad_ctrl op) = true) ->
  no_dangling (history_contours eval monic quad_ctrl ops).
Proof.
  intros M OK c Hc Kc. apply in_flat_map in Hc. destruct Hc as (op & H1 & H2).
  specialize (M _ H1). specialize (OK _ H1). destruct op as [ps|pss|b p]; cbn [op_contours fst snd must_close] in *.
  - destruct H2 as [<-|[]]. discriminate.
  - apply in_map_iff in H2. destruct H2 as (x & <- & _). discriminate.
  - subst b. cbn [andb] in *. destruct (forallb closes _) eqn:F; cbn [negb fst snd] in *; [|discriminate].
    apply in_map_iff in H2. destruct H2 as (es & <- & S). rewrite forallb_forall in F. specialize (F _ S).
    unfold bez_contour in *. cbn [ckind edges] in *. rewrite F in Kc. discriminate.
Qed.
End Chain.
