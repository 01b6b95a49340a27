(** Proofs about scan-line orders: what processing one range adds to the tables. *)
From Coq Require Import List Bool ZArith Arith Lia Permutation Sorted.
From Verif Require Import F64 F64Arith TreeVecModel GeomModel SegmentsModel SegmentsSpec SegmentsProofs CurveOrderModel CurveOrderProofs SweepModel SweepSpec
  SweepProofs2 SweepProofs8 SweepProofs10 RangeModel RangeSpec RangeProofs3 RangeProofs4 RangeProofs5 TopoModel TopoSpec TopoProofs TopoProofs2 TopoProofs3 TopoProofs4
  TopoProofs5 TopoProofs6 TopoProofs7 TopoProofs8 TopoProofs9 WindProofs2 MergeProofs5 ScanModel ScanProofs.
Import ListNotations.

(** [o] itself, or else [w]. *)
Definition orelse {A} (o w : option A) : option A := match o with Some x => Some x | None => w end.
Lemma lastof_app {A} (l m : list A) : lastof (l ++ m) = orelse (lastof m) (lastof l).
Proof. unfold lastof. rewrite rev_app_distr. destruct (rev m); reflexivity. Qed.
Lemma hd_app {A} (l m : list A) : hd_error (l ++ m) = orelse (hd_error l) (hd_error m).
Proof. destruct l; reflexivity. Qed.
Lemma lastof_in {A} (l : list A) x : lastof l = Some x -> In x l.
Proof. unfold lastof. intros H. apply in_rev. destruct (rev l); [discriminate|]. injection H as ->. left. reflexivity. Qed.
Lemma lastof_none {A} (l : list A) : lastof l = None -> l = [].
Proof. unfold lastof. intros H. destruct (rev l) eqn:E; [|discriminate]. rewrite <- (rev_involutive l), E. reflexivity. Qed.
Lemma hd_in {A} (l : list A) x : hd_error l = Some x -> In x l.
Proof. destruct l; [discriminate|]. intros H. injection H as ->. left. reflexivity. Qed.
Lemma lastof_map {A B} (f : A -> B) l : lastof (map f l) = option_map f (lastof l).
Proof. unfold lastof. rewrite <- map_rev. destruct (rev l); reflexivity. Qed.

(** *** The output segments going down from a range *)
Lemma lastw_seq m : forall w k, lastw w k m = orelse (lastof (seq k m)) w.
Proof.
  induction m as [|m IH]; intros w k; [reflexivity|]. cbn [lastw seq]. rewrite IH. change (k :: seq (S k) m) with ([k] ++ seq (S k) m). rewrite lastof_app. destruct (lastof (seq (S k) m)); reflexivity.
Qed.
Lemma odowns_cons N O oin v l : odowns (vrecs N O oin (v :: l)) = seq N (length (vw_down v)) ++ odowns (vrecs (N + length (vw_down v) + length (vw_out v)) O (seq (N + length (vw_down v)) (length (vw_out v))) l).
Proof. reflexivity. Qed.
Lemma vlast_downs O l : forall ld N oin, vlast ld N l = orelse (lastof (odowns (vrecs N O oin l))) ld.
Proof.
  induction l as [|v l IH]; intros ld N oin; [reflexivity|]. cbn [vlast]. rewrite (IH _ _ (seq (N + length (vw_down v)) (length (vw_out v)))), lastw_seq, odowns_cons, lastof_app.
  destruct (lastof (odowns (vrecs (N + length (vw_down v) + length (vw_out v)) O (seq (N + length (vw_down v)) (length (vw_out v))) l))); reflexivity.
Qed.
Lemma odowns_range O l : forall N oin d, In d (odowns (vrecs N O oin l)) -> N <= d < N + length (vorig l).
Proof.
  induction l as [|v l IH]; intros N oin d H; [destruct H|]. rewrite odowns_cons in H. rewrite vorig_len. apply in_app_iff in H. destruct H as [H|H]; [apply in_seq in H; lia|]. apply IH in H. lia.
Qed.
Lemma odowns_sorted O l : forall N oin, StronglySorted lt (odowns (vrecs N O oin l)).
Proof.
  induction l as [|v l IH]; intros N oin; [constructor|]. rewrite odowns_cons. apply sorted_app; [|apply IH|].
  - clear. generalize (length (vw_down v)) as m. intros m. revert N. induction m as [|m IH]; intros N; [constructor|]. cbn. constructor; [apply IH|]. apply Forall_forall. intros x H. apply in_seq in H. lia.
  - intros x y Hx Hy. apply in_seq in Hx. apply odowns_range in Hy. lia.
Qed.
Lemma wests_split m : forall w k D1 d D2, seq k m = D1 ++ d :: D2 -> nth_error (wests w k m) (d - k) = Some (orelse (lastof D1) w).
Proof.
  induction m as [|m IH]; intros w k D1 d D2 E; [destruct D1; discriminate|]. cbn [seq] in E. destruct D1 as [|x D1]; cbn [app] in E; injection E as E1 E2.
  - subst d. rewrite Nat.sub_diag. reflexivity.
  - subst x. assert (L : S k <= d). { assert (X : In d (seq (S k) m)) by (rewrite E2; apply in_or_app; right; left; reflexivity). apply in_seq in X. lia. }
    replace (d - k) with (S (d - S k)) by lia. cbn [wests nth_error]. rewrite (IH (Some k) (S k) D1 d D2 E2). change (k :: D1) with ([k] ++ D1). rewrite lastof_app. destruct (lastof D1); reflexivity.
Qed.
Lemma app_split {A} (l m x z : list A) y : l ++ m = x ++ y :: z -> (exists z', l = x ++ y :: z' /\ z = z' ++ m) \/ (exists x', x = l ++ x' /\ m = x' ++ y :: z).
Proof.
  revert x. induction l as [|a l IH]; intros x E; cbn in E; [right; exists x; auto|]. destruct x as [|b x]; cbn in E; injection E as -> E.
  - left. exists l. split; [reflexivity|congruence].
  - destruct (IH x E) as [(z' & -> & ->)|(x' & -> & ->)]; [left; exists z'; auto|right; exists x'; auto].
Qed.
Lemma vwests_split O l : forall w N oin D1 d D2, odowns (vrecs N O oin l) = D1 ++ d :: D2 -> nth_error (vwests w N l) (d - N) = Some (orelse (lastof D1) w).
Proof.
  induction l as [|v l IH]; intros w N oin D1 d D2 E; [destruct D1; discriminate|]. rewrite odowns_cons in E. cbn [vwests]. apply app_split in E. destruct E as [(z' & E & _)|(x' & -> & E)].
  - assert (L : N <= d < N + length (vw_down v)). { apply in_seq. rewrite E. apply in_or_app. right. left. reflexivity. }
    rewrite nth_error_app1 by (rewrite app_length, wests_length; lia). rewrite nth_error_app1 by (rewrite wests_length; lia). apply (wests_split _ _ _ _ _ _ E).
  - assert (L : N + length (vw_down v) + length (vw_out v) <= d). { assert (X : In d (odowns (vrecs (N + length (vw_down v) + length (vw_out v)) O (seq (N + length (vw_down v)) (length (vw_out v))) l))) by (rewrite E; apply in_or_app; right; left; reflexivity). apply odowns_range in X. lia. }
    rewrite nth_error_app2 by (rewrite app_length, wests_length, repeat_length; lia). rewrite app_length, wests_length, repeat_length.
    replace (d - N - (length (vw_down v) + length (vw_out v))) with (d - (N + length (vw_down v) + length (vw_out v))) by lia. rewrite (IH _ _ _ _ _ _ E), lastw_seq, lastof_app. destruct (lastof x'); reflexivity.
Qed.

Section Step.
Context {W : Type}.
Implicit Types t : topo W.
(** What a range does at height [y]: the open output segments were [Lc ++ M ++ Rc] and are [Lc ++ D ++ Rc]. *)
Record sstep (y : f64) (Lc D Rc : list nat) t t' : Prop := {
  ss_len : length (t_wind t) <= length (t_wind t');
  ss_len_west : length (t_west t') = length (t_wind t');
  ss_len_east : length (t_east t') = length (t_wind t');
  ss_D : forall d, In d D -> length (t_wind t) <= d < length (t_wind t');
  ss_sorted : StronglySorted lt D;
  ss_old : forall o, In o Lc \/ In o Rc -> o < length (t_wind t);
  ss_west_old : forall o, o < length (t_wind t) -> west1 t' o = west1 t o;
  ss_west_D : forall D1 d D2, D = D1 ++ d :: D2 -> west1 t' d = lastof (Lc ++ D1);
  ss_west_new : forall o w, length (t_wind t) <= o < length (t_wind t') -> west1 t' o = Some w -> w < o;
  ss_east_old : forall o, o < length (t_wind t) -> east1 t' o = east1 t o;
  ss_east_D : forall o, lastof D = Some o -> east1 t' o = hd_error Rc;
  ss_east_new : forall o, length (t_wind t) <= o < length (t_wind t') -> lastof D <> Some o -> east1 t' o = None;
  ss_after : t_after t' = t_after t ++ match D, lastof Lc, hd_error Rc with [], None, None => [] | [], w, e => [(y, w, e)] | _, _, _ => [] end;
  ss_top_old : forall o, o < length (t_wind t) -> top_y t' o = top_y t o;
  ss_top_new : forall o, length (t_wind t) <= o < length (t_wind t') -> top_y t' o = y }.

(** Tables. *)
Lemma flat_map_none {A B} (g : A -> list B) l : (forall k, In k l -> g k = []) -> flat_map g l = [].
Proof. induction l as [|x l IH]; intros H; [reflexivity|]. cbn. rewrite H by (left; reflexivity). apply IH. intros k Hk. apply H. right. exact Hk. Qed.
Lemma flat_map_one {A B} (g : A -> list B) l d : NoDup l -> In d l -> (forall k, In k l -> k <> d -> g k = []) -> flat_map g l = g d.
Proof.
  induction l as [|x l IH]; intros ND H HG; [destruct H|]. inversion ND as [|? ? NI ND']; subst. cbn. destruct H as [->|H].
  - rewrite flat_map_none; [apply app_nil_r|]. intros k Hk. apply HG; [right; exact Hk|]. intros ->. contradiction.
  - rewrite (HG x (or_introl eq_refl)) by (intros ->; contradiction). cbn. apply IH; [exact ND'|exact H|]. intros k Hk. apply HG. right. exact Hk.
Qed.
Lemma flat_map_ext_in {A B} (f g : A -> list B) l : (forall k, In k l -> f k = g k) -> flat_map f l = flat_map g l.
Proof. induction l as [|x l IH]; intros H; [reflexivity|]. cbn. rewrite H by (left; reflexivity). rewrite IH; [reflexivity|]. intros k Hk. apply H. right. exact Hk. Qed.
Definition some_entry (y : f64) (o : option nat) : list sentry := match o with Some x => [(y, Some x)] | None => [] end.
Definition when_is (j : nat) (o : option nat) (e : sentry) : list sentry := match o with Some x => on j x e | None => [] end.

Section Tables.
Variables (y : f64) (Lc D Rc : list nat) (t t' : topo W) (fl fl' : nat -> bool).
Hypothesis SS : sstep y Lc D Rc t t'.
Hypothesis FO : forall o, o < length (t_wind t) -> fl' o = fl o.
Hypothesis FN : forall o, length (t_wind t) <= o < length (t_wind t') -> fl' o = false <-> In o D.
Notation N := (length (t_wind t)).
Notation N' := (length (t_wind t')).

Lemma seq_split_new : seq 0 N' = seq 0 N ++ seq N (N' - N).
Proof. pose proof (ss_len _ _ _ _ _ _ SS). replace N' with (N + (N' - N)) at 1 by lia. rewrite seq_app. reflexivity. Qed.
Lemma in_new k : In k (seq N (N' - N)) <-> N <= k < N'.
Proof. pose proof (ss_len _ _ _ _ _ _ SS). rewrite in_seq. lia. Qed.
Lemma lastof_new o : lastof D = Some o -> N <= o < N'.
Proof. intros H. apply (ss_D _ _ _ _ _ _ SS), lastof_in, H. Qed.

Lemma of_east_old j k : k < N -> of_east t' j k = of_east t j k.
Proof. intros L. unfold of_east. rewrite (ss_east_old _ _ _ _ _ _ SS k L), (ss_top_old _ _ _ _ _ _ SS k L). reflexivity. Qed.
Lemma of_west_old j k : k < N -> of_west t' fl' j k = of_west t fl j k.
Proof. intros L. unfold of_west. rewrite (ss_west_old _ _ _ _ _ _ SS k L), (ss_top_old _ _ _ _ _ _ SS k L), (FO k L). reflexivity. Qed.
(** Entries about an eastern neighbour that was there. *)
Lemma new_of_east j : flat_map (of_east t' j) (seq N (N' - N)) = match lastof D with Some d => when_is j (hd_error Rc) (y, Some d) | None => [] end.
Proof.
  destruct (lastof D) as [d|] eqn:E.
  - pose proof (lastof_new d E) as Ld. rewrite (flat_map_one _ _ d); [|apply seq_NoDup|apply in_new, Ld|].
    + unfold of_east. rewrite (ss_east_D _ _ _ _ _ _ SS d E), (ss_top_new _ _ _ _ _ _ SS d Ld). reflexivity.
    + intros k Hk Nk. apply in_new in Hk. unfold of_east. rewrite (ss_east_new _ _ _ _ _ _ SS k Hk); [reflexivity|]. congruence.
  - apply flat_map_none. intros k Hk. apply in_new in Hk. unfold of_east. rewrite (ss_east_new _ _ _ _ _ _ SS k Hk); [reflexivity|]. congruence.
Qed.
Lemma new_after_west j : flat_map (after_west j) (t_after t') = flat_map (after_west j) (t_after t) ++ match lastof D with Some d => [] | None => when_is j (hd_error Rc) (y, lastof Lc) end.
Proof.
  rewrite (ss_after _ _ _ _ _ _ SS), flat_map_app. f_equal. destruct D as [|d D'].
  - cbn [lastof rev hd_error]. destruct (lastof Lc), (hd_error Rc); cbn; rewrite ?app_nil_r; reflexivity.
  - destruct (lastof (d :: D')) eqn:E; [reflexivity|]. apply lastof_none in E. discriminate.
Qed.
Lemma west_table_old j : j < N -> Permutation (west_table t' fl' j) (west_table t fl j ++ when_is j (hd_error Rc) (y, lastof (Lc ++ D))).
Proof.
  intros Lj. unfold west_table. rewrite seq_split_new, flat_map_app, new_of_east, new_after_west.
  replace (flat_map (of_east t' j) (seq 0 N)) with (flat_map (of_east t j) (seq 0 N)) by (apply flat_map_ext_in; intros k Hk; symmetry; apply of_east_old; apply in_seq in Hk; lia).
  replace (own_west t' fl' j) with (own_west t fl j) by (unfold own_west; rewrite (ss_west_old _ _ _ _ _ _ SS j Lj), (ss_top_old _ _ _ _ _ _ SS j Lj), (FO j Lj); reflexivity).
  rewrite lastof_app. rewrite <- !app_assoc. apply Permutation_app_head, Permutation_app_head. destruct (lastof D); cbn [orelse]; [|cbn [app]; reflexivity]. rewrite app_nil_r. apply Permutation_app_comm.
Qed.
Lemma east_range o w : east1 t' o = Some w -> N <= o < N' -> w < N.
Proof.
  intros E L. destruct (lastof D) as [d|] eqn:Q.
  - destruct (Nat.eq_dec o d) as [->|X]; [|rewrite (ss_east_new _ _ _ _ _ _ SS o L) in E by congruence; discriminate]. rewrite (ss_east_D _ _ _ _ _ _ SS d Q) in E. apply (ss_old _ _ _ _ _ _ SS). right. apply hd_in, E.
  - rewrite (ss_east_new _ _ _ _ _ _ SS o L) in E by congruence. discriminate.
Qed.
Hypothesis BW : forall o w, o < N -> west1 t o = Some w -> w < o.
Hypothesis BE : forall o w, o < N -> east1 t o = Some w -> w < o.
Hypothesis BA : forall y w e, In (y, w, e) (t_after t) -> (forall o, w = Some o -> o < N) /\ (forall o, e = Some o -> o < N).
Lemma when_new j x e : N <= j -> In x Rc \/ In x Lc -> when_is j (Some x) e = [].
Proof. intros L H. cbn. unfold on. destruct (Nat.eqb_spec j x) as [->|]; [|reflexivity]. assert (x < N) by (apply (ss_old _ _ _ _ _ _ SS); tauto). lia. Qed.
Lemma west_table_new j : N <= j < N' -> west_table t' fl' j = own_west t' fl' j.
Proof.
  intros Lj. unfold west_table. rewrite seq_split_new, flat_map_app, new_of_east, new_after_west.
  assert (H0 : forall e, when_is j (hd_error Rc) e = []). { intros e. destruct (hd_error Rc) as [x|] eqn:E; [|reflexivity]. apply when_new; [lia|]. left. apply hd_in, E. }
  rewrite !flat_map_none.
  - destruct (lastof D); rewrite ?H0; cbn; rewrite ?H0, ?app_nil_r; reflexivity.
  - intros [[z w] e] Hc. cbn. destruct e as [e|]; [|reflexivity]. destruct (BA z w (Some e) Hc) as [_ B]. specialize (B e eq_refl). unfold on. destruct (Nat.eqb_spec j e); [lia|reflexivity].
  - intros k Hk. apply in_seq in Hk. unfold of_east. destruct (east1 t' k) as [e|] eqn:E; [|reflexivity]. rewrite (ss_east_old _ _ _ _ _ _ SS k) in E by lia. apply BE in E; [|lia]. unfold on. destruct (Nat.eqb_spec j e); [lia|reflexivity].
Qed.
Lemma west_new_down D1 d D2 : D = D1 ++ d :: D2 -> west_table t' fl' d = some_entry y (lastof (Lc ++ D1)).
Proof.
  intros E. assert (Hd : In d D) by (rewrite E; apply in_or_app; right; left; reflexivity). pose proof (ss_D _ _ _ _ _ _ SS d Hd) as Ld. rewrite west_table_new by exact Ld. unfold own_west. rewrite (proj2 (FN d Ld) Hd), (ss_west_D _ _ _ _ _ _ SS _ _ _ E), (ss_top_new _ _ _ _ _ _ SS d Ld). reflexivity.
Qed.
Lemma west_new_flat j : N <= j < N' -> ~ In j D -> west_table t' fl' j = [].
Proof.
  intros Lj H. rewrite west_table_new by exact Lj. unfold own_west. destruct (fl' j) eqn:E; [reflexivity|]. exfalso. apply H, (FN j Lj), E.
Qed.

(** East. *)
Lemma pred_of d : In d D -> exists D1 D2, D = D1 ++ d :: D2. Proof. apply in_split. Qed.
Lemma nodup_D : NoDup D.
Proof. pose proof (ss_sorted _ _ _ _ _ _ SS) as S. clear - S. induction S as [|x l S IH F]; constructor; [|exact IH]. intros H. rewrite Forall_forall in F. specialize (F x H). lia. Qed.
Lemma split_unique D1 d D2 D3 D4 : D = D1 ++ d :: D2 -> D = D3 ++ d :: D4 -> D1 = D3 /\ D2 = D4.
Proof.
  intros E1 E2. pose proof nodup_D as ND. rewrite E1 in E2, ND. clear - E2 ND. revert D3 E2. induction D1 as [|x D1 IH]; intros [|z D3] E2; cbn in *.
  - injection E2 as ->. auto.
  - injection E2 as -> E2. exfalso. inversion ND as [|? ? NI _]; subst. apply NI. apply in_or_app. right. left. reflexivity.
  - injection E2 as <- E2. exfalso. inversion ND as [|? ? NI _]; subst. apply NI. apply in_or_app. right. left. reflexivity.
  - injection E2 as -> E2. inversion ND; subst. destruct (IH H2 D3 E2) as [-> ->]. auto.
Qed.
Lemma of_west_flat j k : N <= k < N' -> ~ In k D -> of_west t' fl' j k = [].
Proof. intros L H. unfold of_west. destruct (fl' k) eqn:E; [reflexivity|]. exfalso. apply H, (FN k L), E. Qed.
Lemma of_west_down j D1 d D2 : D = D1 ++ d :: D2 -> of_west t' fl' j d = when_is j (lastof (Lc ++ D1)) (y, Some d).
Proof.
  intros E. assert (Hd : In d D) by (rewrite E; apply in_or_app; right; left; reflexivity). pose proof (ss_D _ _ _ _ _ _ SS d Hd) as Ld.
  unfold of_west. rewrite (proj2 (FN d Ld) Hd), (ss_west_D _ _ _ _ _ _ SS _ _ _ E), (ss_top_new _ _ _ _ _ _ SS d Ld). reflexivity.
Qed.
(** The western neighbour of the new segments, for old ones. *)
Lemma new_of_west_old j : j < N -> flat_map (of_west t' fl' j) (seq N (N' - N)) = match hd_error D with Some d => when_is j (lastof Lc) (y, Some d) | None => [] end.
Proof.
  intros Lj. destruct (hd_error D) as [d|] eqn:HD.
  - assert (ED : exists D', D = d :: D') by (clear - HD; destruct D as [|x D']; [discriminate|]; injection HD as ->; eauto). destruct ED as [D' ED].
    assert (Hd : In d D) by (rewrite ED; left; reflexivity). rewrite (flat_map_one _ _ d); [|apply seq_NoDup|apply in_new, (ss_D _ _ _ _ _ _ SS d Hd)|].
    + rewrite (of_west_down j [] d D' ED), app_nil_r. reflexivity.
    + intros k Hk Nk. apply in_new in Hk. destruct (in_dec Nat.eq_dec k D) as [X|X]; [|apply of_west_flat; assumption]. destruct (pred_of k X) as (D1 & D2 & E). rewrite (of_west_down j D1 k D2 E).
      destruct D1 as [|x D1]; [rewrite ED in E; injection E as -> _; congruence|]. rewrite lastof_app. destruct (lastof (x :: D1)) as [z|] eqn:Q; [|apply lastof_none in Q; discriminate]. cbn [orelse when_is]. unfold on. destruct (Nat.eqb_spec j z) as [->|]; [|reflexivity].
      assert (HZ : In z D) by (rewrite E; apply in_or_app; left; apply lastof_in, Q). apply (ss_D _ _ _ _ _ _ SS) in HZ. lia.
  - assert (ED : D = []) by (clear - HD; destruct D; [reflexivity|discriminate]). apply flat_map_none. intros k Hk. apply in_new in Hk. apply of_west_flat; [exact Hk|]. rewrite ED. intros [].
Qed.
Lemma new_of_west_new D1 j D2 : D = D1 ++ j :: D2 -> flat_map (of_west t' fl' j) (seq N (N' - N)) = match hd_error D2 with Some d => [(y, Some d)] | None => [] end.
Proof.
  intros ED. assert (Hj : In j D) by (rewrite ED; apply in_or_app; right; left; reflexivity). pose proof (ss_D _ _ _ _ _ _ SS j Hj) as Lj.
  assert (OTHER : forall k, N <= k < N' -> hd_error D2 <> Some k -> of_west t' fl' j k = []).
  { intros k Lk NH. destruct (in_dec Nat.eq_dec k D) as [X|X]; [|apply of_west_flat; assumption]. destruct (pred_of k X) as (D3 & D4 & E). rewrite (of_west_down j D3 k D4 E).
    destruct (last_case D3) as [->|(D5 & z & ->)].
    - rewrite app_nil_r. destruct (lastof Lc) as [x|] eqn:Q; [|reflexivity]. apply when_new; [lia|]. right. apply lastof_in, Q.
    - rewrite app_assoc, lastof_snoc. cbn [when_is]. unfold on. destruct (Nat.eqb_spec j z) as [<-|]; [|reflexivity]. exfalso. apply NH. rewrite <- app_assoc in E. cbn [app] in E. destruct (split_unique _ _ _ _ _ ED E) as [_ ->]. reflexivity. }
  destruct D2 as [|d D2]; cbn [hd_error] in *.
  - apply flat_map_none. intros k Hk. apply OTHER; [apply in_new, Hk|discriminate].
  - assert (Hd : In d D) by (rewrite ED; apply in_or_app; right; right; left; reflexivity). rewrite (flat_map_one _ _ d); [|apply seq_NoDup|apply in_new, (ss_D _ _ _ _ _ _ SS d Hd)|].
    + rewrite (of_west_down j (D1 ++ [j]) d D2) by (rewrite <- app_assoc; exact ED). rewrite app_assoc, lastof_snoc. cbn. unfold on. rewrite Nat.eqb_refl. reflexivity.
    + intros k Hk Nk. apply OTHER; [apply in_new, Hk|]. congruence.
Qed.
Lemma new_of_west_flat j : N <= j < N' -> ~ In j D -> flat_map (of_west t' fl' j) (seq N (N' - N)) = [].
Proof.
  intros Lj HJ. apply flat_map_none. intros k Hk. apply in_new in Hk. destruct (in_dec Nat.eq_dec k D) as [X|X]; [|apply of_west_flat; assumption]. destruct (pred_of k X) as (D3 & D4 & E). rewrite (of_west_down j D3 k D4 E).
  destruct (last_case D3) as [->|(D5 & z & ->)].
  - rewrite app_nil_r. destruct (lastof Lc) as [x|] eqn:Q; [|reflexivity]. apply when_new; [lia|]. right. apply lastof_in, Q.
  - rewrite app_assoc, lastof_snoc. cbn [when_is]. unfold on. destruct (Nat.eqb_spec j z) as [<-|]; [|reflexivity]. exfalso. apply HJ. rewrite E, <- app_assoc. apply in_or_app. right. left. reflexivity.
Qed.
Lemma new_after_east j : flat_map (after_east j) (t_after t') = flat_map (after_east j) (t_after t) ++ match hd_error D with Some d => [] | None => when_is j (lastof Lc) (y, hd_error Rc) end.
Proof.
  rewrite (ss_after _ _ _ _ _ _ SS), flat_map_app. f_equal. destruct D as [|d D']; [|reflexivity].
  cbn [lastof rev hd_error]. destruct (lastof Lc), (hd_error Rc); cbn; rewrite ?app_nil_r; reflexivity.
Qed.
Lemma east_table_old j : j < N -> Permutation (east_table t' fl' j) (east_table t fl j ++ when_is j (lastof Lc) (y, hd_error (D ++ Rc))).
Proof.
  intros Lj. unfold east_table. rewrite seq_split_new, flat_map_app, new_of_west_old, new_after_east by exact Lj.
  replace (flat_map (of_west t' fl' j) (seq 0 N)) with (flat_map (of_west t fl j) (seq 0 N)) by (apply flat_map_ext_in; intros k Hk; symmetry; apply of_west_old; apply in_seq in Hk; lia).
  replace (own_east t' j) with (own_east t j) by (unfold own_east; rewrite (ss_east_old _ _ _ _ _ _ SS j Lj), (ss_top_old _ _ _ _ _ _ SS j Lj); reflexivity).
  rewrite hd_app. rewrite <- !app_assoc. apply Permutation_app_head, Permutation_app_head. destruct (hd_error D); cbn [orelse]; [|cbn [app]; reflexivity]. rewrite app_nil_r. apply Permutation_app_comm.
Qed.
Lemma east_old_part j : N <= j < N' -> flat_map (of_west t' fl' j) (seq 0 N) = [] /\ flat_map (after_east j) (t_after t') = [].
Proof.
  intros Lj. split.
  - apply flat_map_none. intros k Hk. apply in_seq in Hk. unfold of_west. destruct (fl' k); [reflexivity|]. destruct (west1 t' k) as [e|] eqn:E; [|reflexivity]. rewrite (ss_west_old _ _ _ _ _ _ SS k) in E by lia. apply BW in E; [|lia]. unfold on. destruct (Nat.eqb_spec j e); [lia|reflexivity].
  - rewrite new_after_east, flat_map_none.
    + cbn. destruct (hd_error D); [reflexivity|]. destruct (lastof Lc) as [x|] eqn:E; [|reflexivity]. apply when_new; [lia|]. right. apply lastof_in, E.
    + intros [[z w] e] Hc. cbn. destruct w as [w|]; [|reflexivity]. destruct (BA z (Some w) e Hc) as [B _]. specialize (B w eq_refl). unfold on. destruct (Nat.eqb_spec j w); [lia|reflexivity].
Qed.
Lemma east_new_down D1 d D2 : D = D1 ++ d :: D2 -> east_table t' fl' d = some_entry y (hd_error (D2 ++ Rc)).
Proof.
  intros E. assert (Hd : In d D) by (rewrite E; apply in_or_app; right; left; reflexivity). pose proof (ss_D _ _ _ _ _ _ SS d Hd) as Ld. unfold east_table. destruct (east_old_part d Ld) as [E1 E2]. rewrite seq_split_new, flat_map_app, E1, E2, (new_of_west_new _ _ _ E), app_nil_r.
  unfold own_east. destruct D2 as [|x D2].
  - rewrite (ss_east_D _ _ _ _ _ _ SS d) by (rewrite E; apply lastof_snoc). rewrite (ss_top_new _ _ _ _ _ _ SS d Ld). cbn. destruct (hd_error Rc); reflexivity.
  - rewrite (ss_east_new _ _ _ _ _ _ SS d Ld). { reflexivity. }
    rewrite E. change (D1 ++ d :: x :: D2) with (D1 ++ [d] ++ x :: D2). rewrite app_assoc, lastof_app. destruct (lastof (x :: D2)) as [z|] eqn:Q; [|apply lastof_none in Q; discriminate]. cbn. intros X. injection X as ->. apply lastof_in in Q. pose proof nodup_D as ND. rewrite E in ND. apply NoDup_remove_2 in ND. apply ND. apply in_or_app. right. exact Q.
Qed.
Lemma east_new_flat j : N <= j < N' -> ~ In j D -> east_table t' fl' j = [].
Proof.
  intros Lj HJ. unfold east_table. destruct (east_old_part j Lj) as [E1 E2]. rewrite seq_split_new, flat_map_app, E1, E2, (new_of_west_flat j Lj HJ). unfold own_east. rewrite (ss_east_new _ _ _ _ _ _ SS j Lj); [reflexivity|]. intros X. apply HJ, lastof_in, X.
Qed.
End Tables.
End Step.
