(** Property theorems about orders, curve comparison tables and the comparison cache: C06 - C14. *)
From Coq Require Import List Bool ZArith Lia.
From Verif Require Import F64 F64Arith CurveOrderModel CurveOrderSpec CurveOrderProofs
  CurveOrderProofs2 CurveOrderProofs3 CacheModel.
Import ListNotations.

(** ** C06 *)

(** A total preorder given as a three-way comparison. *)
Definition total_preorder {A} (ok : A -> Prop) (cmp : A -> A -> comparison) : Prop :=
  (forall x, ok x -> cmp x x = Eq) /\
  (forall x y, ok x -> ok y -> cmp y x = CompOpp (cmp x y)) /\
  (forall x y z, ok x -> ok y -> ok z -> cmp x y <> Gt -> cmp y z <> Gt -> cmp x z <> Gt).

Theorem ordered_float_total : total_preorder (fun x => nan x = false) cof_cmp.
Proof.
  split; [|split].
  - intros x Hx. rewrite cof_cmp_key by assumption. apply Z.compare_refl.
  - intros x y Hx Hy. rewrite !cof_cmp_key by assumption. apply Z.compare_antisym.
  - intros x y z Hx Hy Hz. rewrite !cof_cmp_key by assumption. rewrite <- !Z.le_ngt || idtac.
    change (key x <= key y -> key y <= key z -> key x <= key z)%Z. lia.
Qed.
Print Assumptions ordered_float_total.

Theorem point_order_total : total_preorder point_nonnan point_cmp.
Proof.
  split; [|split].
  - intros x Hx. rewrite point_cmp_key by assumption. rewrite !Z.compare_refl. reflexivity.
  - intros x y Hx Hy. rewrite !point_cmp_key by assumption.
    rewrite (Z.compare_antisym (key (py x))), (Z.compare_antisym (key (px x))).
    destruct (key (py x) ?= key (py y))%Z, (key (px x) ?= key (px y))%Z; reflexivity.
  - intros x y z Hx Hy Hz. rewrite !point_cmp_key by assumption.
    destruct (Z.compare_spec (key (py x)) (key (py y))), (Z.compare_spec (key (py y)) (key (py z))),
      (Z.compare_spec (key (py x)) (key (py z))); try congruence; try lia.
    intros A B. destruct (Z.compare_spec (key (px x)) (key (px y))), (Z.compare_spec (key (px y)) (key (px z))),
      (Z.compare_spec (key (px x)) (key (px z))); try congruence; lia.
Qed.
Print Assumptions point_order_total.

(** The order is the one of the real coordinates: y first, then x; equality is IEEE equality
    (so [-0.0] equals [0.0]). *)
Theorem point_order_lexicographic : forall p q, point_nonnan p -> point_nonnan q ->
  (point_cmp p q = Lt <-> flt (py p) (py q) = true \/ (feq (py p) (py q) = true /\ flt (px p) (px q) = true)) /\
  (point_cmp p q = Eq <-> feq (py p) (py q) = true /\ feq (px p) (px q) = true) /\
  (point_cmp p q = Eq <-> point_eq p q = true).
Proof.
  intros p q Hp Hq. rewrite point_cmp_key by assumption. unfold point_eq. destruct Hp, Hq.
  rewrite andb_true_iff. fk. rewrite !Z.ltb_lt, !Z.eqb_eq.
  destruct (Z.compare_spec (key (py p)) (key (py q))), (Z.compare_spec (key (px p)) (key (px q)));
    repeat split; intros; try discriminate; try lia; intuition lia.
Qed.
Print Assumptions point_order_lexicographic.

(** [min]/[max] return one of the arguments and bound both. *)
Theorem min_max_agree : forall x y, nan x = false -> nan y = false ->
  (fmin x y = x \/ fmin x y = y) /\ (fmax x y = x \/ fmax x y = y) /\
  cof_cmp (fmin x y) x <> Gt /\ cof_cmp (fmin x y) y <> Gt /\
  cof_cmp x (fmax x y) <> Gt /\ cof_cmp y (fmax x y) <> Gt.
Proof.
  intros x y Hx Hy. destruct (fmin_nonnan x y Hx Hy) as [N1 K1], (fmax_nonnan x y Hx Hy) as [N2 K2].
  rewrite !cof_cmp_key by assumption. rewrite K1, K2. repeat split; try (change (?a <= ?b)%Z; lia).
  - unfold fmin. rewrite Hx, Hy. destruct (fle x y); auto.
  - unfold fmax. rewrite Hx, Hy. destruct (fle y x); auto.
  - change (Z.min (key x) (key y) <= key x)%Z. lia.
  - change (Z.min (key x) (key y) <= key y)%Z. lia.
  - change (key x <= Z.max (key x) (key y))%Z. lia.
  - change (key y <= Z.max (key x) (key y))%Z. lia.
Qed.
Print Assumptions min_max_agree.

Example negative_zero_equal : cof_cmp (fneg fzero) fzero = Eq /\ fneg fzero <> fzero.
Proof. split; [reflexivity|discriminate]. Qed.

(** ** C07 *)

(** Pushing succeeds exactly when the ends never decrease, and the table it builds is sorted,
    alternating, starts and ends where it should, and only ever weakens what was pushed. *)
Theorem push_sequence_invariants : forall s l,
  ((exists c, co_pushes (co_new s) l = Some c) <-> nondecreasing (map fst l)) /\
  forall c, co_pushes (co_new s) l = Some c ->
    co_start c = s /\ nondecreasing (map e_end (co_cmps c)) /\ alternating (orders c) /\
    (forall l' e o, l = l' ++ [(e, o)] -> co_cmps c <> [] /\ same_height (table_end c) e) /\
    forall y, weakens (co_order_at c y) (pushed_at l y).
Proof.
  intros s l. split; [apply pushes_succeed|]. intros c H. destruct (push_inv_all s l c H) as [H1 H2 H3 H4 H5 H6].
  split; [exact H1|]. split; [exact H3|]. split; [exact H4|]. split; [|exact H6].
  intros l' e o E. destruct (H5 l' e o E) as (m & x & Hm & Hx). split; [destruct (co_cmps c), m; discriminate|].
  erewrite table_end_last; [exact Hx|]. rewrite Hm. apply last_opt_app.
Qed.
Print Assumptions push_sequence_invariants.

(** Consequently a table built by pushing from a start at or below the first end is well formed. *)
Theorem pushed_table_wf : forall s l c, l <> [] -> co_pushes (co_new s) l = Some c ->
  nondecreasing (s :: map fst l) -> table_wf c.
Proof.
  intros s l c Hl H Hs. destruct (push_inv_all s l c H) as [H1 H2 H3 H4 H5 H6].
  assert (NN : forall h, In h (s :: map fst l) -> nan h = false).
  { assert (HG : forall (l : list f64), 2 <= length l -> nondecreasing l -> forall h, In h l -> nan h = false).
    { clear. intros l. induction l as [|a l IH]; intros Hlen Hs h Hin; [destruct Hin|].
      destruct l as [|b l]; [simpl in Hlen; lia|]. apply adjacent_cons in Hs as [Hab Hs]. destruct (fle_nonnan _ _ Hab).
      destruct Hin as [<-|Hin]; [assumption|]. destruct l as [|c l].
      - destruct Hin as [<-|[]]. assumption.
      - apply IH; simpl; auto; lia. }
    intros h Hh. eapply HG; [|exact Hs|exact Hh]. destruct l; [contradiction|simpl; lia]. }
  (* the first recorded end is some pushed end, hence >= s *)
  assert (HP : forall l c, co_pushes (co_new s) l = Some c -> forall e, In e (co_cmps c) -> In (e_end e) (map fst l)).
  { clear. intros l. induction l as [|[e o] l IH] using rev_ind; intros c H x Hx.
    - injection H as <-. destruct Hx.
    - rewrite co_pushes_app in H. destruct (co_pushes (co_new s) l) as [c1|] eqn:E; [|discriminate].
      specialize (IH c1 eq_refl). rewrite map_app, in_app_iff. cbn [map fst In]. cbn [co_pushes] in H.
      destruct (co_push c1 e o) as [c2|] eqn:E2; [|discriminate]. injection H as <-.
      unfold co_push in E2. pose proof (last_opt_spec (co_cmps c1)) as HL. destruct (last_opt (co_cmps c1)) as [la|].
      + destruct HL as [m Hm]. rewrite Hm in *. rewrite set_last_app in E2. destruct (negb _); [discriminate|].
        assert (IN : forall t, In x ((m ++ [la]) ++ t) -> (forall z, In z t -> e_end z = e) -> In (e_end x) (map fst l) \/ e = e_end x \/ False).
        { intros t Ht Hz. apply in_app_iff in Ht as [Ht|Ht]; [left; apply IH; exact Ht|].
          right; left. symmetry. apply Hz, Ht. }
        assert (IN2 : forall o', In x (m ++ [mkEntry e o']) -> In (e_end x) (map fst l) \/ e = e_end x \/ False).
        { intros o' Ht. apply in_app_iff in Ht as [Ht|[<-|[]]]; [left; apply IH, in_app_iff; auto|right; left; reflexivity]. }
        destruct (e_order la), o; try (injection E2 as <-; eapply IN2; exact Hx);
          try (injection E2 as <-; eapply IN; [exact Hx|]; intros z [<-|[<-|[]]]; reflexivity).
        all: destruct (fgt e (e_end la)); injection E2 as <-; [eapply IN; [exact Hx|]; intros z [<-|[]]; reflexivity|].
        all: left; apply IH; rewrite <- Hm; exact Hx.
      + injection E2 as <-. rewrite HL in Hx. destruct Hx as [<-|[]]. right; left; reflexivity. }
  assert (HGE : forall e, In e (map fst l) -> (key s <= key e)%Z).
  { clear - Hs NN. revert s Hs NN. induction l as [|[a o] l IH]; intros s Hs NN e He; [destruct He|].
    cbn [map fst] in *. apply adjacent_cons in Hs as [H1 H2].
    assert (nan s = false) by (apply NN; left; reflexivity). assert (nan a = false) by (apply NN; right; left; reflexivity).
    fk. zb. destruct He as [<-|He]; [exact H1|]. specialize (IH a H2 ltac:(intros; apply NN; right; assumption) e He). lia. }
  assert (Hne : co_cmps c <> []).
  { destruct (snoc_cases l) as [?|(l' & [e o] & E)]; [contradiction|]. destruct (H5 l' e o E) as (m & x & Hm & _). rewrite Hm. destruct m; discriminate. }
  split; [exact Hne|]. split; [|split; [|exact H4]].
  - unfold heights. rewrite H1. constructor; [apply NN; left; reflexivity|]. apply Forall_forall. intros h Hh.
    apply in_map_iff in Hh as (e & <- & He). apply NN. right. eapply HP; eauto.
  - unfold heights. rewrite H1. destruct (co_cmps c) as [|e r] eqn:Ec; [contradiction|]. cbn [map].
    unfold ends in H3. rewrite Ec in H3. apply adjacent_cons. split; [|exact H3].
    assert (In (e_end e) (map fst l)) as Hin by (eapply HP; [exact H|rewrite Ec; left; reflexivity]).
    assert (nan s = false) by (apply NN; left; reflexivity). assert (nan (e_end e) = false) by (apply NN; right; assumption).
    pose proof (HGE _ Hin). fk. zb. lia.
Qed.
Print Assumptions pushed_table_wf.

(** Integer literals, and tables shown with integer heights (for the examples). *)
Definition n (z : Z) : f64 := f64_of_Z z.
Definition fview (x : f64) : Z := (key x / 2 ^ 1074)%Z.
Definition view (c : curve_order) : Z * list (Z * order) :=
  (fview (co_start c), map (fun e => (fview (e_end e), e_order e)) (co_cmps c)).
Definition tview (r : touch_result) : option (option (bool * Z)) :=
  match r with
  | TR None => Some None
  | TR (Some (Touch h)) => Some (Some (false, fview h))
  | TR (Some (Cross h)) => Some (Some (true, fview h))
  | _ => None
  end.
Example push_sample :
  option_map view (co_pushes (co_new (n 0)) [(n 1, Left); (n 2, Left); (n 2, Ish); (n 3, Right); (n 4, Ish); (n 5, Left)]) =
  Some (0, [(2, Left); (3, Ish); (3, Right); (4, Ish); (5, Left)])%Z.
Proof. vm_compute. reflexivity. Qed.

(** ** C08 *)

Theorem flip_involution : forall c,
  co_flip (co_flip c) = c /\ heights (co_flip c) = heights c /\
  forall y, co_order_at (co_flip c) y = option_map order_flip (co_order_at c y) /\
            co_order_after (co_flip c) y = option_map order_flip (co_order_after c y) /\
            co_entry_at (co_flip c) y = option_map (fun '(s, e, o) => (s, e, order_flip o)) (co_entry_at c y).
Proof.
  intros c. split; [apply flip_flip|]. split; [apply flip_heights|]. intros y.
  split; [apply flip_order_at|]. split; [apply flip_order_after|]. apply flip_entry_at.
Qed.
Print Assumptions flip_involution.

Theorem flip_wf : forall c, table_wf c -> table_wf (co_flip c).
Proof.
  intros c (H1 & H2 & H3 & H4). unfold table_wf. rewrite flip_heights, flip_orders.
  split; [destruct c as [s [|]]; [contradiction|discriminate]|]. split; [exact H2|]. split; [exact H3|].
  intros i a b Ha Hb. rewrite nth_error_map in Ha, Hb.
  destruct (nth_error (orders c) i) as [a'|] eqn:Ea; [|discriminate].
  destruct (nth_error (orders c) (S i)) as [b'|] eqn:Eb; [|discriminate].
  injection Ha as <-. injection Hb as <-. destruct (H4 _ _ _ Ea Eb) as [Hd Hi].
  split; [destruct a', b'; cbn; congruence|]. destruct Hi as [->| ->]; cbn; auto.
Qed.
Print Assumptions flip_wf.

(** ** C09 *)

(** Slop keeps the range and the invariants; strictly above the start the order can only be
    weakened, and it stays strict exactly on the interval shrunk by [slop] at each end that is
    not an end of the table. *)
Theorem with_y_slop_weakens : forall c slop, table_wf c -> fin slop = true -> fle fzero slop = true ->
  exists r, co_with_y_slop c slop = Some r /\ table_wf r /\ co_start r = co_start c /\
  feq (table_end r) (table_end c) = true /\
  (forall y, flt (co_start c) y = true ->
    (forall o, strict o ->
       (co_order_at r y = Some o <->
        exists i s e, interval c i s e o /\
          (if feq s (co_start c) then True else flt (fadd s slop) y = true) /\
          (if feq e (table_end c) then fle y e = true else fle y (fsub e slop) = true))) /\
    weakens (co_order_at r y) (co_order_at c y)).
Proof. exact with_y_slop_spec. Qed.
Print Assumptions with_y_slop_weakens.

(** Exactly at the start of the table the claim fails: a table beginning with a zero-height
    close interval has a close order there that slop turns into a strict one. *)
Theorem with_y_slop_weakens_at_start_refuted : exists c slop r, table_wf c /\
  fin slop = true /\ fle fzero slop = true /\ co_with_y_slop c slop = Some r /\
  co_order_at c (co_start c) = Some Ish /\ co_order_at r (co_start c) = Some Left.
Proof.
  exists (mkCO (n 0) [mkEntry (n 0) Ish; mkEntry (n 4) Left]), (n 1), (mkCO (n 0) [mkEntry (n 4) Left]).
  split; [|split; [reflexivity|split; [reflexivity|split; [reflexivity|split; reflexivity]]]].
  split; [discriminate|]. split; [repeat constructor|]. split.
  - unfold nondecreasing. repeat (apply adjacent_cons; split; [reflexivity|]). apply adjacent_one.
  - apply adjacent_cons. split; [split; [discriminate|auto]|apply adjacent_one].
Qed.
Print Assumptions with_y_slop_weakens_at_start_refuted.

Definition sample_table : curve_order :=
  mkCO (n 0) [mkEntry (n 10) Left; mkEntry (n 12) Ish; mkEntry (n 20) Right; mkEntry (n 22) Ish; mkEntry (n 23) Left].
Example sample_table_wf : table_wf sample_table.
Proof.
  split; [discriminate|]. split; [repeat constructor|]. split.
  - unfold nondecreasing. repeat (apply adjacent_cons; split; [reflexivity|]). apply adjacent_one.
  - repeat (apply adjacent_cons; split; [split; [discriminate|auto]|]). apply adjacent_one.
Qed.
Example sample_slop : option_map view (co_with_y_slop sample_table (n 1)) =
  Some (0, [(9, Left); (13, Ish); (19, Right); (23, Ish)])%Z.
Proof. vm_compute. reflexivity. Qed.

(** ** C10 *)

(** [next_touch_after] always returns (neither the [unreachable!()] nor the fuel is reached).
    - [None]: no Right interval of positive height ends after [y];
    - [Touch h]: [h] is the middle of a close interval that starts after [y] and is followed by a
      Left one, and no Right interval of positive height ends after [y] before that;
    - [Cross h]: a Right interval ends after [y], the first of positive height, and [h] is [y]
      inside it, or the middle of the close interval before it (which ends after [y]), or its
      start if that close interval has zero height. *)
Theorem next_touch_after_spec : forall c y, table_wf c -> nan y = false ->
  touch_post c y (co_next_touch_after c y).
Proof. exact co_next_touch_post. Qed.
Print Assumptions next_touch_after_spec.

(** Heights of touches lie strictly after [y], inside the close interval. *)
Theorem touch_height : forall c y h, table_wf c -> nan y = false ->
  (forall s e, In s (heights c) -> In e (heights c) -> fin s = true /\ fin e = true /\ fin (fadd s e) = true) ->
  co_next_touch_after c y = TR (Some (Touch h)) ->
  flt y h = true /\ exists i y0 y1, interval c i y0 y1 Ish /\ fle y0 h = true /\ fle h y1 = true.
Proof.
  intros c y h Hwf Ny Hfin H. pose proof (co_next_touch_post c y Hwf Ny) as P. rewrite H in P.
  destruct P as (i & y0 & y1 & y2 & Hi & _ & -> & Hlt & _).
  assert (In y0 (heights c) /\ In y1 (heights c)) as [I0 I1].
  { destruct Hi as (A & B & _). split; eapply nth_error_In; eauto. }
  destruct (Hfin _ _ I0 I1) as (F0 & F1 & Fs).
  pose proof (wf_interval_le _ _ _ _ _ Hwf Hi) as Hle.
  destruct (fmid_between _ _ F0 F1 Hle Fs) as (Fm & M1 & M2). apply fin_nonnan in F0, F1, Fm.
  split; [fk; zb; lia|]. exists i, y0, y1. split; [exact Hi|]. fk. zb. lia.
Qed.
Print Assumptions touch_height.

(** Completeness of one step: the answer is determined by the first non-Left interval ending
    after [y]; in particular a close interval that starts after [y] and is followed by Left is
    always reported. *)
Theorem next_touch_complete : forall c y i y0 y1 y2, table_wf c -> nan y = false ->
  interval c i y0 y1 Ish -> interval c (S i) y1 y2 Left -> flt y y0 = true -> flt y y1 = true ->
  (forall j s e o, j < i -> interval c j s e o -> fle e y = true \/ o = Left) ->
  co_next_touch_after c y = TR (Some (Touch (fmid y0 y1))).
Proof.
  intros c y i y0 y1 y2 Hwf Ny Hi Hi' Hlt Hlt1 Hbef. unfold co_next_touch_after.
  destruct (next_touch_unfold (length (co_cmps c)) c y Hwf Ny) as (k & (F1 & F2) & H).
  destruct (wf_iter_nonnan _ _ _ _ _ Hwf Hi).
  assert (k = i) as ->.
  { destruct (Nat.lt_trichotomy k i) as [L|[L|L]]; [|exact L|].
    - destruct (interval_exists c k) as (s & e & o & Hk); [apply interval_lt in Hi; lia|].
      destruct (F2 _ _ _ Hk). destruct (Hbef _ _ _ _ L Hk) as [B|B]; [|contradiction].
      destruct (wf_iter_nonnan _ _ _ _ _ Hwf Hk). fk. zb. lia.
    - destruct (F1 _ _ _ _ L Hi) as [?|[? _]]; [|discriminate]. fk. zb. lia. }
  destruct H as [(Hn & _)|[(a & b & Ha & _)|[(a & b & Ha & Hn & _)|[(a & b & c' & d & Ha & Hb & _)|(a & b & c' & d & Ha & Hb & ->)]]]].
  - exfalso. apply Hn. eauto.
  - destruct (interval_fun _ _ _ _ _ _ _ _ Hi Ha) as (_ & _ & ?); discriminate.
  - exfalso. apply Hn. eauto.
  - destruct (interval_fun _ _ _ _ _ _ _ _ Hi' Hb) as (_ & _ & ?); discriminate.
  - destruct (interval_fun _ _ _ _ _ _ _ _ Hi Ha) as (<- & <- & _). rewrite Hlt. reflexivity.
Qed.
Print Assumptions next_touch_complete.

(** A close interval followed by Right is always reported as a crossing at its middle. *)
Theorem next_cross_complete : forall c y i y0 y1 y2, table_wf c -> nan y = false ->
  interval c i y0 y1 Ish -> interval c (S i) y1 y2 Right -> flt y y1 = true ->
  (forall j s e o, j < i -> interval c j s e o -> fle e y = true \/ o = Left) ->
  co_next_touch_after c y = TR (Some (Cross (fmid y0 y1))).
Proof.
  intros c y i y0 y1 y2 Hwf Ny Hi Hi' Hlt1 Hbef. unfold co_next_touch_after.
  destruct (next_touch_unfold (length (co_cmps c)) c y Hwf Ny) as (k & (F1 & F2) & H).
  destruct (wf_iter_nonnan _ _ _ _ _ Hwf Hi).
  assert (k = i) as ->.
  { destruct (Nat.lt_trichotomy k i) as [L|[L|L]]; [|exact L|].
    - destruct (interval_exists c k) as (s & e & o & Hk); [apply interval_lt in Hi; lia|].
      destruct (F2 _ _ _ Hk). destruct (Hbef _ _ _ _ L Hk) as [B|B]; [|contradiction].
      destruct (wf_iter_nonnan _ _ _ _ _ Hwf Hk). fk. zb. lia.
    - destruct (F1 _ _ _ _ L Hi) as [?|[? _]]; [|discriminate]. fk. zb. lia. }
  destruct H as [(Hn & _)|[(a & b & Ha & _)|[(a & b & Ha & Hn & _)|[(a & b & c' & d & Ha & Hb & ->)|(a & b & c' & d & Ha & Hb & _)]]]].
  - exfalso. apply Hn. eauto.
  - destruct (interval_fun _ _ _ _ _ _ _ _ Hi Ha) as (_ & _ & ?); discriminate.
  - exfalso. apply Hn. eauto.
  - destruct (interval_fun _ _ _ _ _ _ _ _ Hi Ha) as (<- & <- & _). reflexivity.
  - destruct (interval_fun _ _ _ _ _ _ _ _ Hi' Hb) as (_ & _ & ?); discriminate.
Qed.
Print Assumptions next_cross_complete.

(** Finding: asked from inside a close interval, later touches are never reported. *)
Theorem touches_skipped_from_close_interval : forall c y i s e, table_wf c -> nan y = false ->
  (forall j s e, interval c j s e Ish -> ~ zero_height s e) ->
  interval c i s e Ish -> fle s y = true -> flt y e = true ->
  forall h, co_next_touch_after c y <> TR (Some (Touch h)).
Proof.
  intros c y i s e Hwf Ny Hz Hi H1 H2. destruct (wf_iter_nonnan _ _ _ _ _ Hwf Hi).
  eapply no_touch_from_close; eauto. fk. zb. lia.
Qed.
Print Assumptions touches_skipped_from_close_interval.

(** ... so "the next height at which they touch" is not what is returned: here the curves are
    close on [2, 3], strictly apart around it, and the answer from height 0 is "never". *)
Theorem next_touch_is_next_touch_refuted : exists c y, table_wf c /\
  interval c 2 (n 2) (n 3) Ish /\ interval c 3 (n 3) (n 4) Left /\ flt y (n 2) = true /\
  co_next_touch_after c y = TR None.
Proof.
  exists (mkCO (n 0) [mkEntry (n 1) Ish; mkEntry (n 2) Left; mkEntry (n 3) Ish; mkEntry (n 4) Left]), (n 0).
  split; [|repeat split; try reflexivity].
  split; [discriminate|]. split; [repeat constructor|]. split.
  - unfold nondecreasing. repeat (apply adjacent_cons; split; [reflexivity|]). apply adjacent_one.
  - repeat (apply adjacent_cons; split; [split; [discriminate|auto]|]). apply adjacent_one.
Qed.
Print Assumptions next_touch_is_next_touch_refuted.

Example sample_touch :
  tview (co_next_touch_after (mkCO (n 0) [mkEntry (n 10) Left; mkEntry (n 12) Ish; mkEntry (n 20) Left]) (n 5)) = Some (Some (false, 11%Z)) /\
  tview (co_next_touch_after sample_table (n 5)) = Some (Some (true, 11%Z)) /\
  tview (co_next_touch_after sample_table (n 21)) = Some None.
Proof. vm_compute. auto. Qed.

(** ** C11 *)

Theorem lookups_bracket : forall c y, table_wf c ->
  (fle (co_start c) y = true -> fle y (table_end c) = true ->
   exists i s e o, co_order_at c y = Some o /\ interval c i s e o /\
     fle s y = true /\ fle y e = true /\ (i = 0 \/ flt s y = true)) /\
  (fle (co_start c) y = true -> flt y (table_end c) = true ->
   exists i s e o, co_entry_at c y = Some (s, e, o) /\ interval c i s e o /\ fle s y = true /\ flt y e = true) /\
  (nan y = false -> (co_entry_at c y = None <-> fle (table_end c) y = true)).
Proof.
  intros c y Hwf. split; [apply order_at_brackets; exact Hwf|]. split; [apply entry_at_brackets; exact Hwf|].
  apply entry_at_none; exact Hwf.
Qed.
Print Assumptions lookups_bracket.

Theorem order_after_next_strict : forall c y, table_wf c -> nan y = false ->
  exists o, co_order_after c y = Some o /\
  ((feq y (table_end c) = true /\ exists n s, S n = length (co_cmps c) /\ interval c n s (table_end c) o) \/
   (feq y (table_end c) = false /\
    ((strict o /\ exists i s e, interval c i s e o /\ flt y e = true /\
        forall j s' e' o', j < i -> interval c j s' e' o' -> flt y e' = true -> o' = Ish) \/
     (o = Ish /\ forall i s e o', interval c i s e o' -> flt y e = true -> o' = Ish)))).
Proof. exact order_after_spec. Qed.
Print Assumptions order_after_next_strict.

Example sample_lookups :
  co_order_at sample_table (n 10) = Some Left /\ co_order_at sample_table (n 11) = Some Ish /\
  option_map (fun '(s, e, o) => (fview s, fview e, o)) (co_entry_at sample_table (n 10)) = Some (10%Z, 12%Z, Ish) /\ co_order_after sample_table (n 10) = Some Right.
Proof. vm_compute. auto. Qed.

(** ** C12 *)

(** Pushing the opposite strict order: the close interval swallows the whole pushed range and the
    strict interval gets zero height, for every such push. *)
Theorem opposite_push_close_interval : forall s m a o1 b o2, strict o1 -> o2 = order_flip o1 ->
  fle a b = true ->
  co_push (mkCO s (m ++ [mkEntry a o1])) b o2 =
  Some (mkCO s (m ++ [mkEntry a o1; mkEntry b Ish; mkEntry b o2])).
Proof.
  intros s m a o1 b o2 Hs -> Hab. unfold co_push. cbn [co_cmps co_start]. rewrite last_opt_app.
  cbn [e_end e_order]. change (fge b a) with (fle a b). rewrite Hab. cbn [negb].
  destruct o1; [|exfalso; apply Hs; reflexivity|]; cbn [order_flip]; rewrite <- app_assoc; reflexivity.
Qed.
Print Assumptions opposite_push_close_interval.

(** So the documented "zero-height ish interval" followed by the pushed order is not what is
    recorded: the table answers "close" where Right was pushed. *)
Theorem opposite_push_keeps_order_refuted : exists c,
  co_pushes (co_new (n 0)) [(n 1, Left); (n 5, Right)] = Some c /\
  pushed_at [(n 1, Left); (n 5, Right)] (n 3) = Some Right /\ co_order_at c (n 3) = Some Ish.
Proof. eexists. split; [reflexivity|]. split; reflexivity. Qed.
Print Assumptions opposite_push_keeps_order_refuted.

(** ** C13 *)

Theorem order_at_outside : forall c y, table_wf c -> nan y = false ->
  (co_order_at c y = None <-> flt (table_end c) y = true) /\
  (flt y (co_start c) = true -> exists e o, interval c 0 (co_start c) e o /\ co_order_at c y = Some o).
Proof.
  intros c y Hwf Ny. split; [apply order_at_none; assumption|]. apply order_at_below; assumption.
Qed.
Print Assumptions order_at_outside.

(** ** C14 *)

Theorem comparisons_stable_antisymmetric : forall intersect slop qs rs,
  queries intersect (cache_new slop) qs = Some rs ->
  forall k l i j r r', k < l -> nth_error qs k = Some (i, j) -> nth_error rs k = Some r ->
    nth_error rs l = Some r' ->
    (nth_error qs l = Some (i, j) -> r' = r) /\
    (i <> j -> nth_error qs l = Some (j, i) -> r' = co_flip r).
Proof. intros intersect slop qs rs H. eapply queries_stable; [apply sym_new|exact H]. Qed.
Print Assumptions comparisons_stable_antisymmetric.

Theorem comparisons_come_from_intersection : forall intersect slop qs rs,
  queries intersect (cache_new slop) qs = Some rs ->
  forall k i j r, nth_error qs k = Some (i, j) -> nth_error rs k = Some r ->
  exists f, co_with_y_slop (intersect i j) slop = Some f /\ r = f \/
       co_with_y_slop (intersect j i) slop = Some f /\ r = co_flip f.
Proof.
  intros intersect slop qs rs H. eapply (answer_origin intersect qs (cache_new slop)); [|exact H].
  intros i j v Hv. discriminate.
Qed.
Print Assumptions comparisons_come_from_intersection.

Definition sample_intersect (i j : nat) : curve_order :=
  if Nat.eqb i 0 then sample_table else mkCO (n 0) [mkEntry (n 3) Ish].
Example sample_cache : option_map (map view)
    (queries sample_intersect (cache_new (n 1)) [(1, 0); (0, 1); (0, 2); (2, 0); (0, 1)]) =
  Some [(0, [(3, Ish)]); (0, [(3, Ish)]); (0, [(9, Left); (13, Ish); (19, Right); (23, Ish)]);
        (0, [(9, Right); (13, Ish); (19, Left); (23, Ish)]); (0, [(3, Ish)])]%Z.
Proof. vm_compute. reflexivity. Qed.
