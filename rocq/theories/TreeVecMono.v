(** Two searches in trees of one shape: [partition_point] is monotone in the predicate. *)
From Coq Require Import List Arith Bool Lia ZifyBool.
From Verif Require Import TreeVecModel TreeVecSpec TreeVecProofs TreeVecMut TreeVecRefine.
Import ListNotations.

Lemma some_eq {A} (x y : A) : Some x = Some y -> x = y.
Proof. congruence. Qed.

(** ** Slices *)
Definition imp2 {A A'} (p : A -> bool) (q : A' -> bool) (x : A) (y : A') : Prop := p x = true -> q y = true.

(** Result at most that of a search with a weaker predicate. *)
Definition pp_mono (pp : slice_pp) : Prop := forall A (p q : A -> bool) l l' o o',
  Forall2 (imp2 p q) l l' -> pp A p l = Some o -> pp A q l' = Some o' -> o <= o'.

Lemma forall2_nth {A A'} (R : A -> A' -> Prop) l l' : Forall2 R l l' -> forall n x y, nth_error l n = Some x -> nth_error l' n = Some y -> R x y.
Proof.
  induction 1; intros [|n] u v Hu Hv; cbn in *; try discriminate; [congruence|eauto].
Qed.
Lemma forall2_len {A A'} (R : A -> A' -> Prop) l l' : Forall2 R l l' -> length l = length l'.
Proof. induction 1; cbn; lia. Qed.

Lemma old_loop_range {A} (p : A -> bool) l fuel : forall left right o,
  left <= right -> std_pp_old_loop fuel p l left right = Some o -> left <= o <= right.
Proof.
  induction fuel as [|f IH]; intros left right o H E; cbn [std_pp_old_loop] in E; [discriminate|].
  destruct (left <? right) eqn:L; [|injection E as <-; lia].
  set (mid := left + (right - left) / 2) in *. assert (left <= mid < right) by (unfold mid; lia).
  destruct (nth_error l mid) as [x|]; [|discriminate]. cbn [option_bind] in E. destruct (p x); apply IH in E; lia.
Qed.
Lemma old_loop_mono {A} (p q : A -> bool) l l' fuel : Forall2 (imp2 p q) l l' -> forall left right o o', left <= right ->
  std_pp_old_loop fuel p l left right = Some o -> std_pp_old_loop fuel q l' left right = Some o' -> o <= o'.
Proof.
  intros F. induction fuel as [|f IH]; intros left right o o' H E E'; cbn [std_pp_old_loop] in E, E'; [discriminate|].
  destruct (left <? right) eqn:L; [|injection E as <-; injection E' as <-; lia].
  set (mid := left + (right - left) / 2) in *. assert (left <= mid < right) by (unfold mid; lia).
  destruct (nth_error l mid) as [x|] eqn:X; [|discriminate]. destruct (nth_error l' mid) as [y|] eqn:Y; [|discriminate]. cbn [option_bind] in E, E'.
  pose proof (forall2_nth _ _ _ F _ _ _ X Y) as I. unfold imp2 in I. destruct (p x), (q y).
  - eapply IH; [|exact E|exact E']; lia.
  - specialize (I eq_refl). discriminate.
  - apply old_loop_range in E; [|lia]. apply old_loop_range in E'; lia.
  - eapply IH; [|exact E|exact E']; lia.
Qed.
Lemma std_pp_old_mono : pp_mono (@std_pp_old).
Proof.
  intros A p q l l' o o' F E E'. unfold std_pp_old in *. rewrite <- (forall2_len _ _ _ F) in E'.
  eapply old_loop_mono; [exact F| |exact E|exact E']. lia.
Qed.

Lemma new_loop_range {A} (p : A -> bool) l fuel : forall base size o,
  1 <= size -> std_pp_new_loop fuel p l base size = Some o -> base <= o <= base + size.
Proof.
  induction fuel as [|f IH]; intros base size o H E; cbn [std_pp_new_loop] in E; [discriminate|].
  destruct (1 <? size) eqn:L.
  - set (half := size / 2) in *. assert (1 <= half < size) by (unfold half; lia).
    destruct (nth_error l (base + half)) as [x|]; [|discriminate]. cbn [option_bind] in E. destruct (p x); apply IH in E; lia.
  - destruct (nth_error l base) as [x|]; [|discriminate]. cbn [option_bind] in E. injection E as <-. destruct (p x); lia.
Qed.
(** The end is only reached if the last element satisfies the predicate. *)
Lemma new_loop_last {A} (p : A -> bool) l fuel : forall base size x,
  1 <= size -> std_pp_new_loop fuel p l base size = Some (base + size) -> nth_error l (base + size - 1) = Some x -> p x = true.
Proof.
  induction fuel as [|f IH]; intros base size x H E Hx; cbn [std_pp_new_loop] in E; [discriminate|].
  destruct (1 <? size) eqn:L.
  - set (half := size / 2) in *. assert (1 <= half < size) by (unfold half; lia).
    destruct (nth_error l (base + half)) as [y|]; [|discriminate]. cbn [option_bind] in E. destruct (p y).
    + replace (base + size) with (base + half + (size - half)) in E, Hx by lia. eapply IH; [|exact E|exact Hx]. lia.
    + apply new_loop_range in E; lia.
  - assert (size = 1) by lia. subst size. replace (base + 1 - 1) with base in Hx by lia. rewrite Hx in E. cbn [option_bind] in E. injection E as E. destruct (p x); [reflexivity|lia].
Qed.
Lemma new_loop_mono {A} (p q : A -> bool) l l' fuel : Forall2 (imp2 p q) l l' -> forall base size o o', 1 <= size ->
  std_pp_new_loop fuel p l base size = Some o -> std_pp_new_loop fuel q l' base size = Some o' -> o <= o'.
Proof.
  intros F. induction fuel as [|f IH]; intros base size o o' H E E'; cbn [std_pp_new_loop] in E, E'; [discriminate|].
  destruct (1 <? size) eqn:L.
  - set (half := size / 2) in *. assert (HH : 1 <= half < size /\ (size - half = half \/ size - half = half + 1)) by (unfold half; lia).
    destruct (nth_error l (base + half)) as [x|] eqn:X; [|discriminate]. destruct (nth_error l' (base + half)) as [y|] eqn:Y; [|discriminate]. cbn [option_bind] in E, E'.
    pose proof (forall2_nth _ _ _ F _ _ _ X Y) as I. unfold imp2 in I. destruct (p x) eqn:P, (q y).
    + eapply IH; [|exact E|exact E']; lia.
    + specialize (I eq_refl). discriminate.
    + apply new_loop_range in E'; [|lia]. pose proof E as E2. apply new_loop_range in E; [|lia].
      destruct (Nat.eq_dec o (base + half + 1)) as [->|]; [|lia]. exfalso.
      assert (HS : size - half = half + 1) by lia. rewrite HS in E2. rewrite <- Nat.add_assoc in E2.
      apply (new_loop_last p l f base (half + 1) x) in E2; [congruence|lia|]. rewrite <- X. f_equal. lia.
    + eapply IH; [|exact E|exact E']; lia.
  - destruct (nth_error l base) as [x|] eqn:X; [|discriminate]. destruct (nth_error l' base) as [y|] eqn:Y; [|discriminate]. cbn [option_bind] in E, E'.
    injection E as <-. injection E' as <-. pose proof (forall2_nth _ _ _ F _ _ _ X Y) as I. unfold imp2 in I. destruct (p x), (q y); try lia; specialize (I eq_refl); discriminate.
Qed.
Lemma std_pp_new_mono : pp_mono (@std_pp_new).
Proof.
  intros A p q l l' o o' F E E'. unfold std_pp_new in *. pose proof (forall2_len _ _ _ F) as L. destruct l as [|x l], l' as [|y l']; try discriminate.
  - injection E as <-. lia.
  - rewrite <- L in E'. eapply new_loop_mono; [exact F| |exact E|exact E']. cbn. lia.
Qed.

(** ** Trees of the same shape *)
Fixpoint same {T} (R : T -> T -> Prop) (h : nat) (t t' : node T) {struct h} : Prop :=
  match h, t, t' with
  | 0, Leaf d, Leaf d' => Forall2 R d d'
  | S h', Internal s c, Internal s' c' => s = s' /\ Forall2 (same R h') c c'
  | _, _, _ => False
  end.

Section T.
Context {T : Type}.
Variable B : nat.
Hypothesis HB : 4 <= B.
Notation any := (fun _ _ : T => True).

Lemma forall2_any {A} (l l' : list A) : length l = length l' -> Forall2 (fun _ _ => True) l l'.
Proof. revert l'; induction l; destruct l'; cbn; intros; try discriminate; constructor; auto. Qed.
Lemma forall2_refl {A} (R : A -> A -> Prop) l : (forall x, In x l -> R x x) -> Forall2 R l l.
Proof. induction l; intros H; constructor; [apply H; left; reflexivity|apply IHl; intros; apply H; right; assumption]. Qed.

Lemma same_refl h : forall t lo, wf B lo h t -> same any h t t.
Proof.
  induction h as [|h IH]; intros [d|s c] lo W; cbn [wf] in W; try tauto; cbn [same].
  - apply forall2_any. reflexivity.
  - split; [reflexivity|]. apply forall2_refl. intros x Hx. destruct W as (_ & _ & W). rewrite Forall_forall in W. eapply IH, W, Hx.
Qed.
Lemma same_len h : forall t t' lo lo', wf B lo h t -> wf B lo' h t' -> same any h t t' -> ln t = ln t'.
Proof.
  induction h as [|h IH]; intros [d|s c] [d'|s' c'] lo lo' W W'; cbn [wf] in W, W'; try tauto; cbn [same]; try tauto.
  - intros H. apply forall2_len in H. exact H.
  - intros [E F]. destruct W as (_ & -> & W), W' as (_ & -> & W'). unfold ln. cbn [elems]. rewrite !flat_map_length.
    f_equal. exact E.
Qed.
Lemma same_split R h : forall t t' lo lo', wf B lo h t -> wf B lo' h t' -> same any h t t' -> Forall2 R (elems t) (elems t') -> same R h t t'.
Proof.
  induction h as [|h IH]; intros [d|s c] [d'|s' c'] lo lo' W W'; cbn [wf] in W, W'; try tauto; cbn [same]; try tauto.
  intros [E F] H. split; [exact E|]. destruct W as (_ & _ & W), W' as (_ & _ & W'). cbn [elems] in H. clear E s s'.
    revert W W' H. induction F as [|x y l l' S F IHF]; intros W W' H; [constructor|].
    inversion W; subst. inversion W'; subst. cbn [flat_map] in H.
    assert (L : length (elems x) = length (elems y)) by (eapply same_len; eassumption).
    assert (HH : Forall2 R (elems x) (elems y) /\ Forall2 R (flat_map elems l) (flat_map elems l')).
    { clear -H L. revert L H. generalize (elems x) (elems y). intros u. induction u as [|a u IHu]; intros [|b v] L H; cbn in *; try discriminate; [split; [constructor|exact H]|].
      inversion H; subst. destruct (IHu v ltac:(lia) H5). split; [constructor; assumption|assumption]. }
    destruct HH. constructor; [eapply IH; eassumption|apply IHF; assumption].
Qed.
Lemma same_eq h : forall t t' lo lo', wf B lo h t -> wf B lo' h t' -> same (@eq T) h t t' -> t = t'.
Proof.
  induction h as [|h IH]; intros [d|s c] [d'|s' c'] lo lo' W W'; cbn [wf] in W, W'; try tauto; cbn [same]; try tauto.
  - intros F. f_equal. clear -F. induction F; congruence.
  - intros [-> F]. f_equal. destruct W as (_ & _ & W), W' as (_ & _ & W'). clear s'.
    revert W W'. induction F as [|x y l l' S F IHF]; intros W W'; [reflexivity|]. inversion W; subst. inversion W'; subst.
    f_equal; [eapply IH; eassumption|apply IHF; assumption].
Qed.

(** [fill h t l]: the tree of the shape of [t] with elements [l]. *)
Fixpoint fill (h : nat) (t : node T) (l : list T) {struct h} : node T :=
  match h, t with
  | S h', Internal s c =>
      Internal s ((fix go (c : list (node T)) (l : list T) : list (node T) :=
         match c with [] => [] | x :: c' => fill h' x (firstn (ln x) l) :: go c' (skipn (ln x) l) end) c l)
  | _, _ => Leaf l
  end.
Lemma fill_ok h : forall t lo l, wf B lo h t -> length l = ln t ->
  wf B lo h (fill h t l) /\ same any h t (fill h t l) /\ elems (fill h t l) = l.
Proof.
  induction h as [|h IH]; intros [d|s c] lo l W L; cbn [wf] in W; try tauto.
  - cbn in *. unfold ln in L. cbn in L. split; [lia|]. split; [apply forall2_any; congruence|reflexivity].
  - cbn [fill same elems]. destruct W as (Wl & -> & W). unfold ln in L. cbn [elems] in L.
    set (go := fix go (c : list (node T)) (l : list T) : list (node T) :=
         match c with [] => [] | x :: c' => fill h x (firstn (ln x) l) :: go c' (skipn (ln x) l) end).
    assert (G : length (go c l) = length c /\ map ln (go c l) = map ln c /\ Forall (wf B (B/2) h) (go c l) /\
       Forall2 (same any h) c (go c l) /\ flat_map elems (go c l) = l).
    { clear Wl. revert l L W. induction c as [|x c IHc]; intros l L W.
      - destruct l; [|discriminate]. cbn. repeat split; constructor.
      - inversion W as [|? ? W1 W2]; subst. cbn [flat_map] in L. rewrite app_length in L. fold (ln x) in L.
        destruct (IH x (B/2) (firstn (ln x) l) W1) as (A1 & A2 & A3); [rewrite firstn_length; lia|].
        destruct (IHc (skipn (ln x) l)) as (G1 & G2 & G3 & G4 & G5); [rewrite skipn_length; lia|exact W2|].
        cbn [go map length flat_map]. fold go. split; [lia|]. split.
        { f_equal; [symmetry; eapply same_len; eassumption|exact G2]. }
        split; [constructor; assumption|]. split; [constructor; assumption|]. rewrite A3, G5. apply firstn_skipn. }
    destruct G as (G1 & G2 & G3 & G4 & G5). split; [|split; [split; [reflexivity|exact G4]|exact G5]].
    split; [lia|]. split; [symmetry; exact G2|exact G3].
Qed.

(** Searching. *)
Lemma with_nth_spec' {A R} (f : A -> option R) l i : with_nth f l i = match nth_error l i with Some c => f c | None => None end.
Proof. apply with_nth_spec. Qed.

Lemma sum_firstn_mono l : forall i j, i <= j -> sum (firstn i l) <= sum (firstn j l).
Proof.
  unfold sum. induction l as [|x l IH]; intros [|i] [|j] H; cbn; try lia. specialize (IH i j ltac:(lia)). lia.
Qed.
Lemma sum_firstn_S l : forall i x, nth_error l i = Some x -> sum (firstn (S i) l) = sum (firstn i l) + x.
Proof.
  unfold sum. induction l as [|y l IH]; intros [|i] x H; cbn in H; try discriminate.
  - injection H as ->. cbn. lia.
  - change (y + fold_right Nat.add 0 (firstn (S i) l) = y + fold_right Nat.add 0 (firstn i l) + x). rewrite (IH _ _ H). lia.
Qed.

Lemma node_pp_mono pp (p q : T -> bool) : pp_ok pp -> pp_mono pp -> forall h t t' lo lo' o o',
  wf B lo h t -> wf B lo' h t' -> same (imp2 p q) h t t' -> node_pp pp p t = Some o -> node_pp pp q t' = Some o' -> o <= o'.
Proof.
  intros OK MO. induction h as [|h IH]; intros [d|s c] [d'|s' c'] lo lo' o o' W W'; cbn [wf] in W, W'; try tauto; cbn [same]; try tauto.
  - cbn [node_pp]. apply MO.
  - intros [<- F] E E'. destruct W as (Wl & Ws & W), W' as (Wl' & Ws' & W'). cbn [node_pp] in E, E'.
    destruct (map_first_ok B HB c) as (fs & Hfs & Lfs & Ifs); [eapply Forall_impl; [|exact W]; intros z Hz; exists h; exact Hz|].
    destruct (map_first_ok B HB c') as (fs' & Hfs' & Lfs' & Ifs'); [eapply Forall_impl; [|exact W']; intros z Hz; exists h; exact Hz|].
    rewrite Hfs in E. rewrite Hfs' in E'. cbn [option_bind] in E, E'.
    assert (H1 : forall x y lo lo', wf B lo h x -> wf B lo' h y -> same (imp2 p q) h x y -> forall u v, nth_error (elems x) 0 = Some u -> nth_error (elems y) 0 = Some v -> imp2 p q u v).
    { clear -HB. induction h as [|h IH]; intros [d|s c] [d'|s' c'] lo lo' W W'; cbn [wf] in W, W'; try tauto; cbn [same]; try tauto.
      - intros F u v. cbn [elems]. apply (forall2_nth _ _ _ F).
      - intros [_ F] u v Hu Hv. destruct W as (_ & _ & W), W' as (_ & _ & W').
        destruct F as [|x y l l' S F]; [discriminate|]. inversion W; subst. inversion W'; subst. cbn [elems flat_map] in Hu, Hv.
        assert (NE : forall z : node T, wf B (B / 2) h z -> 0 < length (elems z)).
        { intros z Hz. destruct (map_first_ok B HB [z]) as (fs & _ & _ & If); [constructor; [exists h; exact Hz|constructor]|].
          destruct (If 0 z eq_refl) as (w & _ & Hw). apply nth_error_Some. congruence. }
        rewrite nth_error_app1 in Hu by (apply NE; assumption). rewrite nth_error_app1 in Hv by (apply NE; assumption). eapply (IH x y); eassumption. }
    assert (FF : Forall2 (imp2 p q) fs fs').
    { pose proof (forall2_len _ _ _ F) as LF. clear -F Ifs Ifs' Lfs Lfs' LF W W' H1.
      assert (N : forall n u v, nth_error fs n = Some u -> nth_error fs' n = Some v -> imp2 p q u v).
      { intros n u v Hu Hv.
        destruct (nth_error c n) as [x|] eqn:X; [|apply nth_error_None in X; assert (n < length fs) by (apply nth_error_Some; congruence); lia].
        destruct (nth_error c' n) as [y|] eqn:Y; [|apply nth_error_None in Y; assert (n < length fs') by (apply nth_error_Some; congruence); lia].
        destruct (Ifs _ _ X) as (u' & U1 & U2). destruct (Ifs' _ _ Y) as (v' & V1 & V2).
        rewrite Hu in U1. injection U1 as <-. rewrite Hv in V1. injection V1 as <-.
        rewrite Forall_forall in W, W'. apply (H1 x y (B/2) (B/2)); [eapply W, nth_error_In, X|eapply W', nth_error_In, Y|eapply forall2_nth; eassumption|assumption|assumption]. }
      assert (LL : length fs = length fs') by lia. clear -N LL. revert fs' N LL. induction fs as [|u fs IH]; intros [|v fs'] N LL; try discriminate; constructor.
      - apply (N 0); reflexivity.
      - apply IH; [|cbn in LL; lia]. intros n. apply (N (S n)). }
    destruct (pp T p fs) as [ci|] eqn:C; [|discriminate]. destruct (pp T q fs') as [ci'|] eqn:C'; [|discriminate]. cbn [option_bind] in E, E'.
    pose proof (MO _ _ _ _ _ _ _ FF C C') as LE.
    destruct (0 <? ci) eqn:P0; [|injection E as <-; lia]. destruct (0 <? ci') eqn:P1; [|lia].
    rewrite with_nth_spec' in E, E'.
    destruct (nth_error c (ci - 1)) as [x|] eqn:X; [|discriminate]. destruct (nth_error c' (ci' - 1)) as [y|] eqn:Y; [|discriminate].
    destruct (node_pp pp p x) as [ox|] eqn:Ox; [|discriminate]. destruct (node_pp pp q y) as [oy|] eqn:Oy; [|discriminate]. cbn [option_bind] in E, E'.
    destruct (ci - 1 <=? length s); [|discriminate]. destruct (ci' - 1 <=? length s); [|discriminate]. injection E as <-. injection E' as <-.
    rewrite Forall_forall in W, W'.
    pose proof (W _ (nth_error_In _ _ X)) as WX.
    destruct (Nat.eq_dec ci ci') as [<-|NE].
    + assert (ox <= oy); [|lia]. eapply IH; [exact WX|eapply W', nth_error_In, Y|eapply forall2_nth; eassumption|eassumption|eassumption].
    + destruct (node_pp_ok B HB pp p OK h x _ WX) as (o2 & E2 & Bd & _). rewrite Ox in E2. injection E2 as <-.
      assert (SX : nth_error s (ci - 1) = Some (ln x)) by (rewrite Ws, nth_error_map, X; reflexivity).
      pose proof (sum_firstn_S _ _ _ SX). pose proof (sum_firstn_mono s (S (ci - 1)) (ci' - 1) ltac:(lia)). unfold ln in *. lia.
Qed.

(** Writing through a reference keeps the shape. *)
Lemma node_set_same h : forall t lo off x t', wf B lo h t -> node_set t off x = Some (Some t') -> same any h t t'.
Proof.
  induction h as [|h IH]; intros [d|s c] lo off x t' W E; cbn [wf] in W; try tauto; cbn [node_set] in E.
  - destruct (slice_set d off x) as [d'|] eqn:S; [|discriminate]. injection E as <-. cbn. apply forall2_any.
    unfold slice_set in S. destruct (off <? length d) eqn:L; [|discriminate]. apply some_eq in S. subst d'. rewrite app_length, firstn_length. change (length d = Nat.min off (length d) + S (length (skipn (S off) d))). rewrite skipn_length. lia.
  - destruct (child_idx s off) as [[idx off']|] eqn:CI; [|discriminate]. rewrite with_nth_spec' in E. destruct (nth_error c idx) as [y|] eqn:Y; [|discriminate].
    destruct (node_set y off' x) as [[y'|]|] eqn:SY; [|discriminate|discriminate]. cbn [option_bind] in E.
    destruct (slice_set c idx y') as [cs|] eqn:SC; [|discriminate]. cbn [option_bind] in E. injection E as <-. cbn [same]. split; [reflexivity|].
    destruct W as (_ & _ & W). rewrite Forall_forall in W.
    assert (Sy : same any h y y') by (eapply IH; [eapply W, nth_error_In, Y|exact SY]).
    unfold slice_set in SC. destruct (idx <? length c) eqn:L; [|discriminate]. apply some_eq in SC. subst cs.
    destruct (nth_error_split _ _ Y) as (l1 & l2 & -> & <-). rewrite firstn_app, firstn_all, Nat.sub_diag. cbn [firstn]. rewrite app_nil_r.
    replace (S (length l1)) with (length (l1 ++ [y])) by (rewrite app_length; cbn; lia). replace (l1 ++ y :: l2) with ((l1 ++ [y]) ++ l2) by (rewrite <- app_assoc; reflexivity).
    rewrite skipn_app, skipn_all, Nat.sub_diag. cbn [skipn app]. rewrite <- app_assoc. cbn [app].
    assert (RF : forall l, incl l (l1 ++ y :: l2) -> Forall2 (same any h) l l).
    { intros l I. apply forall2_refl. intros z Hz. eapply same_refl, W, I, Hz. }
    apply Forall2_app; [apply RF; intros z Hz; apply in_or_app; auto|]. constructor; [exact Sy|]. apply RF. intros z Hz. apply in_or_app. right. right. exact Hz.
Qed.
Lemma same_trans h : forall t1 t2 t3, same any h t1 t2 -> same any h t2 t3 -> same any h t1 t3.
Proof.
  induction h as [|h IH]; intros [d|s c] [d'|s' c'] [d''|s'' c'']; cbn [same]; try tauto.
  - intros H1 H2. apply forall2_len in H1, H2. apply forall2_any. congruence.
  - intros [-> F1] [-> F2]. split; [reflexivity|]. clear s''. revert c'' F2. induction F1 as [|x y l l' S F IHF]; intros c'' F2; inversion F2; subst; constructor; eauto.
Qed.
End T.

(** ** The theorem *)
(** Writes through [get_mut] / [IndexMut] / [iter_mut] / [range_mut]. *)
Definition is_write {T} (o : tv_op T) : Prop :=
  match o with OpGetMut _ _ | OpIndexMut _ _ | OpIterMut _ | OpRangeMut _ _ _ => True | _ => False end.

(** A list scan, for lists the tree does not hold. *)
Fixpoint scan_pp {T} (p : T -> bool) (l : list T) : nat := match l with [] => 0 | x :: l' => if p x then S (scan_pp p l') else 0 end.
Lemma scan_pp_boundary {T} (p : T -> bool) l : boundary p l (scan_pp p l).
Proof.
  induction l as [|x l (H1 & H2 & H3)]; cbn [scan_pp].
  - split; [cbn; lia|]. split; [discriminate|]. intros; lia.
  - destruct (p x) eqn:P.
    + split; [cbn; lia|]. split; [exact H2|]. intros o' y E Hy. destruct o' as [|o']; cbn in Hy; [congruence|]. eapply H3; [|exact Hy]. lia.
    + split; [cbn; lia|]. split; [intros y E; cbn in E; congruence|]. intros; lia.
Qed.
Lemma scan_pp_mono {T} (p q : T -> bool) l l' : Forall2 (imp2 p q) l l' -> scan_pp p l <= scan_pp q l'.
Proof. induction 1 as [|x y l l' H F IH]; cbn; [lia|]. unfold imp2 in H. destruct (p x); [rewrite H by reflexivity; lia|lia]. Qed.

Section M.
Context {T : Type}.
Variable B : nat.
Hypothesis HB : 4 <= B.

Lemma writes_same ops : Forall is_write ops -> forall h (t t' : node T), tv_wf B h t -> snd (run (tree_step B) t ops) = Some t' ->
  tv_wf B h t' /\ same (fun _ _ => True) h t t'.
Proof.
  induction 1 as [|o ops W WS IH]; intros h t t' Hw E.
  - cbn in E. injection E as <-. split; [exact Hw|]. eapply (same_refl B); exact Hw.
  - cbn [run] in E. destruct (tree_step B t o) as [[t1 r]|] eqn:ST; [|discriminate].
    destruct (run (tree_step B) t1 ops) as [rs f] eqn:RN. cbn [snd] in E.
    assert (H1 : tv_wf B h t1 /\ same (fun _ _ => True) h t t1).
    { destruct o as [| | |i x| |i x| | | | | |fm|a b fm]; cbn in W; try tauto; cbn [tree_step] in ST.
      - pose proof (node_set_ok B HB h t _ i x Hw) as [S1 S2]. destruct (Nat.lt_ge_cases i (length (elems t))) as [L|L].
        + destruct (S1 L) as (n' & Es & Wn & _). rewrite Es in ST. cbn in ST. injection ST as <- _. split; [exact Wn|].
          eapply (node_set_same B HB); [exact Hw|exact Es].
        + rewrite (S2 L) in ST. cbn in ST. injection ST as <- _. split; [exact Hw|]. eapply (same_refl B); exact Hw.
      - unfold tv_set in ST. pose proof (node_set_ok B HB h t _ i x Hw) as [S1 S2]. destruct (Nat.lt_ge_cases i (length (elems t))) as [L|L].
        + destruct (S1 L) as (n' & Es & Wn & _). rewrite Es in ST. cbn in ST. injection ST as <- _. split; [exact Wn|].
          eapply (node_set_same B HB); [exact Hw|exact Es].
        + rewrite (S2 L) in ST. discriminate.
      - destruct (tv_iter_mut_ok B HB (same (fun _ _ => True) h) h fm (fun n n' i x Wn => node_set_same B HB h n _ i x n' Wn) (fun n Wn => same_refl B h n _ Wn)
          (fun a b c => same_trans h a b c) t Hw) as (t2 & E2 & W2 & S2 & _). rewrite E2 in ST. cbn in ST. injection ST as <- _. auto.
      - unfold normalize_bounds in ST.
        destruct (tv_range_mut_ok B HB (same (fun _ _ => True) h) h fm (fun n n' i x Wn => node_set_same B HB h n _ i x n' Wn) (fun n Wn => same_refl B h n _ Wn)
          (fun a b c => same_trans h a b c) t
          (match a with Included x => x | Excluded x => x + 1 | Unbounded => 0 end)
          (match b with Included x => x + 1 | Excluded x => x | Unbounded => tv_len t end) Hw) as [R1 R2].
        destruct (tv_range_mut t _ _ fm) as [t2|] in ST, R1, R2; [|discriminate]. cbn in ST. injection ST as <- _.
        match type of R1 with ?a <= ?b -> ?b <= ?l -> _ => destruct (Nat.le_gt_cases a b) as [La|La]; [destruct (Nat.le_gt_cases b l) as [Lb|Lb]|] end.
        + destruct (R1 La Lb) as (t3 & E3 & W3 & S3 & _). injection E3 as <-. auto.
        + specialize (R2 ltac:(lia)). discriminate.
        + specialize (R2 ltac:(lia)). discriminate. }
    destruct H1 as [W1 S1]. specialize (IH h t1 t' W1). rewrite RN in IH. destruct (IH E) as [W2 S2]. split; [exact W2|]. eapply same_trans; eassumption.
Qed.

(** Between structural changes, the searches in a tree are one function of the predicate and the elements,
    and this function finds a boundary and is monotone. *)
Lemma search_function (pp : slice_pp) ops (t : node T) : pp_ok pp -> pp_mono pp ->
  snd (run (tree_step B) tv_new ops) = Some t ->
  exists f : (T -> bool) -> list T -> nat,
    (forall p l, boundary p l (f p l)) /\
    (forall p q l l', Forall2 (fun x y => p x = true -> q y = true) l l' -> f p l <= f q l') /\
    (forall ws t' p, Forall is_write ws -> snd (run (tree_step B) t ws) = Some t' ->
       tv_partition_point pp p t' = Some (f p (elems t'))).
Proof.
  intros OK MO R. destruct (reachable_ok B HB ops t R) as [_ [h Hw]].
  exists (fun p l => if length l =? ln t then match node_pp pp p (fill h t l) with Some o => o | None => 0 end else scan_pp p l).
  split; [|split].
  - intros p l. destruct (length l =? ln t) eqn:L; [|apply scan_pp_boundary]. apply Nat.eqb_eq in L.
    destruct (fill_ok B HB h t _ l Hw L) as (W & _ & E). destruct (node_pp_ok B HB pp p OK h _ _ W) as (o & -> & Bd). rewrite E in Bd. exact Bd.
  - intros p q l l' F. rewrite <- (forall2_len _ _ _ F). destruct (length l =? ln t) eqn:L; [|apply scan_pp_mono; exact F]. apply Nat.eqb_eq in L.
    assert (L' : length l' = ln t) by (rewrite <- (forall2_len _ _ _ F); exact L).
    destruct (fill_ok B HB h t _ l Hw L) as (W & S & E). destruct (fill_ok B HB h t _ l' Hw L') as (W' & S' & E').
    destruct (node_pp_ok B HB pp p OK h _ _ W) as (o & Eo & _). destruct (node_pp_ok B HB pp q OK h _ _ W') as (o' & Eo' & _). rewrite Eo, Eo'.
    eapply (node_pp_mono B HB pp p q OK MO h); [exact W|exact W'| |exact Eo|exact Eo'].
    apply (same_split B) with (lo := match h with 0 => 0 | _ => 2 end) (lo' := match h with 0 => 0 | _ => 2 end); [exact W|exact W'| |rewrite E, E'; exact F].
    clear -S S'. revert S S'. generalize (fill h t l) (fill h t l'). revert t. induction h as [|h IH]; intros [d|s c] [d'|s' c'] [d''|s'' c'']; cbn [same]; try tauto.
    + intros H1 H2. apply forall2_len in H1, H2. apply forall2_any. congruence.
    + intros [<- F1] [<- F2]. split; [reflexivity|]. revert c'' F2. induction F1; intros c'' F2; inversion F2; subst; constructor; eauto.
  - intros ws t' p HW E. destruct (writes_same ws HW h t t' Hw E) as [W S].
    assert (L : length (elems t') = ln t) by (symmetry; eapply (same_len B); [exact Hw|exact W|exact S]).
    rewrite (proj2 (Nat.eqb_eq _ _) L). destruct (fill_ok B HB h t _ (elems t') Hw L) as (W2 & S2 & E2).
    assert (EQ : fill h t (elems t') = t').
    { eapply (same_eq B); [exact W2|exact W|]. apply (same_split B) with (lo := match h with 0 => 0 | _ => 2 end) (lo' := match h with 0 => 0 | _ => 2 end); [exact W2|exact W| |].
      - clear -S S2. revert S S2. generalize (fill h t (elems t')). revert t t'. induction h as [|h IH]; intros [d|s c] [d'|s' c'] [d''|s'' c'']; cbn [same]; try tauto.
        + intros H1 H2. apply forall2_len in H1, H2. apply forall2_any. congruence.
        + intros [<- F1] [<- F2]. split; [reflexivity|]. revert c'' F2. induction F1; intros c'' F2; inversion F2; subst; constructor; eauto.
      - rewrite E2. apply forall2_refl. reflexivity. }
    rewrite EQ. unfold tv_partition_point. destruct (node_pp_ok B HB pp p OK h t' _ W) as (o & -> & _). reflexivity.
Qed.
End M.
