(** Proofs about scan-line orders: looking up a table, and what [build_scan_line_orders] puts into the tables. *)
From Coq Require Import List Bool ZArith Arith Lia Permutation Sorted.
From Verif Require Import F64 F64Arith TreeVecModel GeomModel SegmentsModel SegmentsSpec SegmentsProofs CurveOrderModel CurveOrderProofs SweepModel RangeModel TopoModel TopoProofs ScanModel.
Import ListNotations.

(** *** Lookups *)
Definition hkey (e : sentry) : Z := key (fst e).
Definition hlt (x y : sentry) : Prop := (hkey x < hkey y)%Z.
Definition hnum (e : sentry) : Prop := nan (fst e) = false.
(** The neighbour in the last entry that is not above [y]. *)
Definition look_from (acc : option nat) (l : list sentry) (y : f64) : option nat := fold_left (fun acc e => if fle (fst e) y then snd e else acc) l acc.
Definition look (l : list sentry) (y : f64) : option nat := look_from None l y.
Lemma look_snoc l e y : look (l ++ [e]) y = if fle (fst e) y then snd e else look l y.
Proof. unfold look, look_from. rewrite fold_left_app. reflexivity. Qed.
Lemma look_above acc l y : Forall (fun e => fle (fst e) y = false) l -> look_from acc l y = acc.
Proof. revert acc. induction l as [|e l IH]; intros acc F; [reflexivity|]. apply Forall_cons_iff in F. destruct F as [F1 F2]. cbn. rewrite F1. apply IH, F2. Qed.
Lemma half_iter_cons e l : half_iter (e :: l) = (fst e, match l with [] => finfinity | e' :: _ => fst e' end, snd e) :: half_iter l.
Proof. unfold half_iter. destruct e as [y s]. destruct l as [|[y' s'] l]; reflexivity. Qed.
Lemma fgt_flt x y : fgt x y = flt y x. Proof. reflexivity. Qed.
Lemma query_ok l y : StronglySorted hlt l -> Forall hnum l -> flt y finfinity = true -> entries_neighbor_after l y = look l y.
Proof.
  intros S F LT. destruct (flt_nonnan _ _ LT) as [Ny _]. unfold look.
  assert (G : forall acc, (match l with [] => acc = None | e :: _ => True end) -> (match l with e :: _ => fle (fst e) y = false -> acc = None | [] => True end) -> entries_neighbor_after l y = look_from acc l y).
  { induction S as [|e l S IH SF]; intros acc A1 A2; [rewrite A1; reflexivity|]. apply Forall_cons_iff in F. destruct F as [F1 F2].
    unfold entries_neighbor_after. rewrite half_iter_cons. cbn [take_while]. cbn [look_from fold_left]. destruct (fle (fst e) y) eqn:L.
    - cbn [find]. destruct l as [|e' l].
      + rewrite fgt_flt, LT. reflexivity.
      + apply Forall_cons_iff in F2. destruct F2 as [F2 F3]. rewrite fgt_flt. destruct (flt y (fst e')) eqn:L'.
        * symmetry. apply (look_above (snd e) (e' :: l)). apply Forall_forall. intros e2 H2. assert (N2 : nan (fst e2) = false) by (destruct H2 as [<-|H2]; [exact F2|rewrite Forall_forall in F3; apply F3, H2]).
          unfold hnum in *. assert (K : (key (fst e') <= key (fst e2))%Z). { destruct H2 as [<-|H2]; [lia|]. apply StronglySorted_inv in S. destruct S as [_ S]. rewrite Forall_forall in S. specialize (S e2 H2). unfold hlt, hkey in S. lia. }
          fk. zb. lia.
        * unfold hnum in *. assert (L2 : fle (fst e') y = true) by (fk; zb; lia). change (entries_neighbor_after (e' :: l) y = look_from (snd e) (e' :: l) y).
          apply IH; [constructor; assumption|exact I|]. intros X. congruence.
    - cbn [find]. rewrite (A2 eq_refl). symmetry. apply (look_above None l). apply Forall_forall. intros e2 H2. rewrite Forall_forall in SF, F2. specialize (SF e2 H2). specialize (F2 e2 H2). unfold hlt, hkey, hnum in *. fk. zb. lia. }
  destruct l; [reflexivity|]. apply (G None); auto.
Qed.

(** *** Sorting and removing repetitions *)
Lemma sorted_perm_eq l m : Permutation l m -> StronglySorted (fun x y => (hkey x <= hkey y)%Z) l -> StronglySorted hlt m -> l = m.
Proof.
  intros P S. revert m P. induction S as [|x l S IH SF]; intros m P SM; [apply Permutation_nil in P; congruence|].
  destruct SM as [|z m SM MF]; [apply Permutation_sym, Permutation_nil in P; discriminate|]. rewrite Forall_forall in SF, MF.
  assert (x = z).
  { assert (X : In x (z :: m)) by (eapply Permutation_in; [exact P|left; reflexivity]). assert (Z : In z (x :: l)) by (eapply Permutation_in; [symmetry; exact P|left; reflexivity]).
    destruct X as [X|X]; [congruence|]. destruct Z as [Z|Z]; [congruence|]. specialize (MF x X). specialize (SF z Z). unfold hlt in MF. lia. }
  subst z. f_equal. apply IH; [eapply Permutation_cons_inv, P|exact SM].
Qed.
Lemma dedup_id l : StronglySorted hlt l -> Forall hnum l -> dedup l = l.
Proof.
  intros S F. destruct S as [|x l S SF]; [reflexivity|]. cbn. f_equal. revert x F SF. induction S as [|z l S IH SZ]; intros x F SF; [reflexivity|]. cbn. apply Forall_cons_iff in F. destruct F as [Fx F]. apply Forall_cons_iff in SF. destruct SF as [SF _].
  assert (E : sentry_eqb z x = false). { unfold sentry_eqb. apply andb_false_iff. left. apply Forall_cons_iff in F. destruct F as [Fz _]. unfold hnum, hlt, hkey in *. fk. zb. lia. }
  rewrite E. f_equal. apply IH; [exact F|exact SZ].
Qed.
Lemma tidy_ok (sort_by : forall A : Type, (A -> A -> comparison) -> list A -> list A) l m : sort_spec (sort_by sentry) -> Permutation l m -> StronglySorted hlt m -> Forall hnum m -> tidy sort_by l = Ok m.
Proof.
  intros [SP SS] P S F. assert (FL : Forall hnum l) by (eapply Permutation_Forall; [symmetry; exact P|exact F]). unfold tidy.
  assert (E : existsb (fun e => nan (fst e)) l = false).
  { destruct (existsb (fun e => nan (fst e)) l) eqn:E; [|reflexivity]. apply existsb_exists in E. destruct E as (e & He & Q). rewrite Forall_forall in FL. specialize (FL e He). unfold hnum in FL. congruence. }
  rewrite E, andb_false_r. f_equal. rewrite <- (dedup_id m S F). f_equal. apply sorted_perm_eq; [|clear P|exact S].
  - transitivity l; [symmetry; apply SP|exact P].
  - set (cmp := fun x y : sentry => cof_cmp (fst x) (fst y)). assert (NN : forall e, In e l -> nan (fst e) = false) by (intros e He; rewrite Forall_forall in FL; apply FL, He).
    assert (PO : preorder_on cmp l).
    { split.
      - intros x y Hx Hy. unfold cmp. rewrite !cof_cmp_key by (apply NN; assumption). apply Z.compare_antisym.
      - intros x y z Hx Hy Hz. unfold cmp. rewrite !cof_cmp_key by (apply NN; assumption). intros H1 H2. change (key (fst x) <= key (fst z))%Z. change (key (fst x) <= key (fst y))%Z in H1. change (key (fst y) <= key (fst z))%Z in H2. lia. }
    specialize (SS cmp l PO). specialize (SP cmp l). assert (NS : forall e, In e (sort_by sentry cmp l) -> nan (fst e) = false) by (intros e He; apply NN; eapply Permutation_in; [symmetry; exact SP|exact He]).
    clear - SS NS. induction SS as [|x s SS IH SF]; [constructor|]. constructor; [apply IH; intros e He; apply NS; right; exact He|]. rewrite Forall_forall in *. intros y Hy. specialize (SF y Hy). unfold cmp in SF.
    rewrite cof_cmp_key in SF by (apply NS; [left; reflexivity|right; exact Hy] || (apply NS; first [left; reflexivity|right; exact Hy])). exact SF.
Qed.

(** *** The tables before sorting *)
Definition tab (n : nat) (m : stable) (f : nat -> list sentry) : Prop := length m = n /\ forall j, j < n -> nth_error m j = Some (f j).
Lemma tab_ext n m f g : tab n m f -> (forall j, j < n -> f j = g j) -> tab n m g.
Proof. intros [L H] E. split; [exact L|]. intros j Lj. rewrite H by exact Lj. f_equal. apply E, Lj. Qed.
Definition on (j o : nat) (e : sentry) : list sentry := if j =? o then [e] else [].
Lemma push_ok n m f o e : tab n m f -> o < n -> exists m', push m o e = Ok m' /\ tab n m' (fun j => f j ++ on j o e).
Proof.
  intros [L H] Lo. unfold push. rewrite (H o Lo). cbn [orerr rbind]. destruct (upd_in_range m o (f o ++ [e])) as [m' U]; [lia|]. rewrite U. cbn. exists m'. split; [reflexivity|].
  destruct (upd_spec _ _ _ _ U) as (_ & L' & N). split; [lia|]. intros j Lj. rewrite N. unfold on. destruct (Nat.eqb_spec j o) as [->|]; [reflexivity|]. rewrite app_nil_r. apply H, Lj.
Qed.
Lemma tab_empty n : tab n (repeat [] n) (fun _ => []).
Proof. split; [apply repeat_length|]. intros j L. rewrite nth_error_repeat by exact L. reflexivity. Qed.
Lemma check_ok n m f o y : tab n m f -> o < n -> nan y = false -> Forall hnum (f o) -> (forall e, In e (f o) -> (hkey e < key y)%Z) -> check_later m o y = Ok tt.
Proof.
  intros [_ H] Lo Ny FN F. unfold check_later. rewrite (H o Lo). cbn [orerr rbind]. destruct (last_opt (f o)) as [[z s]|] eqn:E; [|reflexivity].
  assert (X : In (z, s) (f o)). { clear - E. destruct (f o) as [|x l]; [discriminate|]. cbn in E. revert x E. induction l as [|w l IH]; intros x E; cbn in E; [injection E as <-; left; reflexivity|]. right. apply (IH w). exact E. }
  specialize (F _ X). rewrite Forall_forall in FN. specialize (FN _ X). unfold hkey, hnum in *. cbn [fst] in *. assert (Q : fgt y z = true) by (fk; zb; lia). rewrite Q. reflexivity.
Qed.
Lemma rfold_seq {A} (step : nat -> A -> res A) (Q : nat -> A -> Prop) n : (forall k m, k < n -> Q k m -> exists m', step k m = Ok m' /\ Q (S k) m') ->
  forall c k m, k + c = n -> Q k m -> exists m', rfold step (seq k c) m = Ok m' /\ Q n m'.
Proof.
  intros ST. induction c as [|c IH]; intros k m E H; cbn [seq rfold].
  - exists m. split; [reflexivity|]. replace n with k by lia. exact H.
  - destruct (ST k m) as (m' & E1 & H'); [lia|exact H|]. rewrite E1. cbn [rbind]. apply IH; [lia|exact H'].
Qed.
Lemma flat_map_seq_S {A} (g : nat -> list A) k : flat_map g (seq 0 (S k)) = flat_map g (seq 0 k) ++ g k.
Proof. rewrite seq_S, flat_map_app. cbn. rewrite app_nil_r. reflexivity. Qed.
Lemma rmap_ok {A B} (f : A -> res B) (l : list A) : forall r, Forall2 (fun x y => f x = Ok y) l r -> rmap f l = Ok r.
Proof. intros r H. induction H as [|x y l r E H IH]; [reflexivity|]. cbn. rewrite E. cbn [rbind]. rewrite IH. reflexivity. Qed.

Section Tables.
Context {W : Type}.
Variable t : topo W.
Notation n := (length (t_wind t)).
(** The height of the first end. *)
Definition top_y (o : nat) : f64 := match point_of t (first_half o) with Ok p => py p | Err _ => fzero end.
(** Which output segments are horizontal. *)
Variable flat : nat -> bool.
Definition west1 (o : nat) : option nat := match nth_error (t_west t) o with Some w => w | None => None end.
Definition east1 (o : nat) : option nat := match nth_error (t_east t) o with Some w => w | None => None end.
Definition own_west (j : nat) : list sentry := if flat j then [] else match west1 j with Some w => [(top_y j, Some w)] | None => [] end.
Definition own_east (j : nat) : list sentry := match east1 j with Some w => [(top_y j, Some w)] | None => [] end.
Definition of_east (j k : nat) : list sentry := match east1 k with Some e => on j e (top_y k, Some k) | None => [] end.
Definition of_west (j k : nat) : list sentry := if flat k then [] else match west1 k with Some w => on j w (top_y k, Some k) | None => [] end.
Definition after_west (j : nat) (c : f64 * option nat * option nat) : list sentry := let '(y, w, e) := c in match e with Some e => on j e (y, w) | None => [] end.
Definition after_east (j : nat) (c : f64 * option nat * option nat) : list sentry := let '(y, w, e) := c in match w with Some w => on j w (y, e) | None => [] end.
Definition west_table (j : nat) : list sentry := own_west j ++ flat_map (of_east j) (seq 0 n) ++ flat_map (after_west j) (t_after t).
Definition east_table (j : nat) : list sentry := own_east j ++ flat_map (of_west j) (seq 0 n) ++ flat_map (after_east j) (t_after t).

(** What the loops need. *)
Record buildable : Prop := {
  bu_west_len : length (t_west t) = n;
  bu_east_len : length (t_east t) = n;
  bu_point : forall o, o < n -> exists p q, point_of t (first_half o) = Ok p /\ point_of t (second_half o) = Ok q /\ nan (py p) = false /\ feq (py p) (py q) = flat o;
  bu_mono : forall i j, i <= j -> j < n -> (key (top_y i) <= key (top_y j))%Z;
  bu_west : forall o w, o < n -> west1 o = Some w -> w < o;
  bu_east : forall o w, o < n -> east1 o = Some w -> w < o;
  bu_after : forall y w e, In (y, w, e) (t_after t) -> (forall o, w = Some o -> o < n) /\ (forall o, e = Some o -> o < n) }.
Variables Wl El : nat -> list sentry.
Record sorted_tables : Prop := {
  st_west : forall o, o < n -> Permutation (west_table o) (Wl o) /\ StronglySorted hlt (Wl o) /\ Forall hnum (Wl o);
  st_east : forall o, o < n -> Permutation (east_table o) (El o) /\ StronglySorted hlt (El o) /\ Forall hnum (El o) }.
Hypothesis BU : buildable.
Hypothesis ST : sorted_tables.

Lemma perm_distinct l m (x : list sentry) y z : Permutation l m -> StronglySorted hlt m -> l = x ++ y :: z -> forall e, In e (x ++ z) -> hkey e <> hkey y.
Proof.
  intros P S E e He. assert (ND : NoDup (map hkey m)).
  { clear - S. induction S as [|u m S IH F]; [constructor|]. cbn. constructor; [|exact IH]. intros X. apply in_map_iff in X. destruct X as (w & Q & Hw). rewrite Forall_forall in F. specialize (F w Hw). unfold hlt in F. lia. }
  assert (ND' : NoDup (map hkey l)) by (eapply Permutation_NoDup; [apply Permutation_map; symmetry; exact P|exact ND]). rewrite E, map_app in ND'. cbn in ND'. apply NoDup_remove_2 in ND'. intros Q. apply ND'. rewrite <- map_app, <- Q. apply in_map, He.
Qed.
Lemma point_ok o : o < n -> exists p, point_of t (first_half o) = Ok p /\ py p = top_y o /\ nan (top_y o) = false.
Proof. intros L. destruct (bu_point BU o L) as (p & q & H1 & _ & H3 & _). exists p. unfold top_y. rewrite H1. auto. Qed.
Lemma flat_ok o : o < n -> is_horizontal t o = Ok (flat o).
Proof. intros L. destruct (bu_point BU o L) as (p & q & H1 & H2 & _ & H4). unfold is_horizontal. rewrite H1. cbn [rbind]. rewrite H2. cbn [rbind]. rewrite H4. reflexivity. Qed.
Lemma west1_ok o : o < n -> nth_error (t_west t) o = Some (west1 o).
Proof. intros L. unfold west1. destruct (nth_error (t_west t) o) eqn:E; [reflexivity|]. apply nth_error_None in E. rewrite (bu_west_len BU) in E. lia. Qed.
Lemma east1_ok o : o < n -> nth_error (t_east t) o = Some (east1 o).
Proof. intros L. unfold east1. destruct (nth_error (t_east t) o) eqn:E; [reflexivity|]. apply nth_error_None in E. rewrite (bu_east_len BU) in E. lia. Qed.

Lemma on_in j o e x : In x (on j o e) -> j = o /\ x = e.
Proof. unfold on. destruct (Nat.eqb_spec j o); [|intros []]. intros [<-|[]]. auto. Qed.
Lemma own_west_in j x : In x (own_west j) -> fst x = top_y j /\ flat j = false.
Proof. unfold own_west. destruct (flat j); [intros []|]. destruct (west1 j); [|intros []]. intros [<-|[]]. auto. Qed.
Lemma own_east_in j x : In x (own_east j) -> fst x = top_y j.
Proof. unfold own_east. destruct (east1 j); [|intros []]. intros [<-|[]]. reflexivity. Qed.
Lemma of_east_in j k x : In x (of_east j k) -> fst x = top_y k /\ east1 k = Some j.
Proof. unfold of_east. destruct (east1 k) as [e|]; [|intros []]. intros H. apply on_in in H. destruct H as [-> ->]. auto. Qed.
Lemma of_west_in j k x : In x (of_west j k) -> fst x = top_y k /\ west1 k = Some j /\ flat k = false.
Proof. unfold of_west. destruct (flat k); [intros []|]. destruct (west1 k) as [e|]; [|intros []]. intros H. apply on_in in H. destruct H as [-> ->]. auto. Qed.

(** Entries pushed so far lie above the next one. *)
Lemma earlier own k j : k < n -> (forall x, In x own -> fst x = top_y j) -> j < k ->
  forall of rest ls, (forall i x, In x (of i) -> fst x = top_y i) -> In (top_y k, Some k) (of k) ->
  Permutation (own ++ flat_map of (seq 0 n) ++ rest) ls -> StronglySorted hlt ls ->
  Forall hnum (own ++ flat_map of (seq 0 k)) /\ forall x, In x (own ++ flat_map of (seq 0 k)) -> (hkey x < key (top_y k))%Z.
Proof.
  intros Lk HO Lj of rest ls HF HK P SS.
  assert (X : forall x, In x (own ++ flat_map of (seq 0 k)) -> exists i, i < k /\ fst x = top_y i).
  { intros x H. apply in_app_iff in H. destruct H as [H|H]; [exists j; split; [exact Lj|apply HO, H]|]. apply in_flat_map in H. destruct H as (i & Hi & H). apply in_seq in Hi. exists i. split; [lia|apply HF, H]. }
  split.
  - apply Forall_forall. intros x H. destruct (X x H) as (i & Li & E). unfold hnum. rewrite E. destruct (point_ok i) as (_ & _ & _ & Q); [lia|exact Q].
  - intros x H. destruct (X x H) as (i & Li & E). unfold hkey. rewrite E. pose proof (bu_mono BU i k) as M. specialize (M ltac:(lia) Lk).
    assert (D : hkey x <> hkey (top_y k, Some k)); [|unfold hkey in D; cbn [fst] in D; rewrite E in D; lia].
    apply in_split in HK. destruct HK as (u & v & EU).
    assert (SP : own ++ flat_map of (seq 0 n) ++ rest = (own ++ flat_map of (seq 0 k) ++ u) ++ (top_y k, Some k) :: (v ++ flat_map of (seq (S k) (n - S k)) ++ rest)).
    { replace n with (k + S (n - S k)) at 1 by lia. rewrite seq_app, flat_map_app. cbn [seq flat_map Nat.add]. rewrite EU. rewrite <- !app_assoc. cbn [app]. reflexivity. }
    apply (perm_distinct _ _ _ _ _ P SS SP x). apply in_app_iff. left. apply in_app_iff in H. apply in_app_iff. destruct H as [H|H]; [left; exact H|right; apply in_app_iff; left; exact H].
Qed.

Lemma west_loop : exists m, rfold (west_step t) (seq 0 (length (t_west t))) (repeat [] n) = Ok m /\ tab n m own_west.
Proof.
  rewrite (bu_west_len BU). destruct (rfold_seq (west_step t) (fun k m => tab n m (fun j => if j <? k then own_west j else [])) n) with (c := n) (k := 0) (m := repeat (@nil sentry) n) as (m & E & H).
  - intros k m Lk T. unfold west_step. rewrite (flat_ok k Lk). cbn [rbind]. destruct (point_ok k Lk) as (p & P1 & P2 & P3).
    assert (SAME : own_west k = [] -> tab n m (fun j => if j <? S k then own_west j else [])).
    { intros Q. eapply tab_ext; [exact T|]. intros j Lj. cbv beta. destruct (Nat.ltb_spec j k), (Nat.ltb_spec j (S k)); try lia; try reflexivity. assert (j = k) by lia. subst j. symmetry. exact Q. }
    unfold own_west in SAME at 1. destruct (flat k) eqn:FK; [exists m; auto|]. rewrite P1. cbn [rbind]. rewrite (west1_ok k Lk). cbn [orerr rbind]. destruct (west1 k) as [w|] eqn:EW; [|exists m; auto].
    destruct (push_ok n m _ k (py p, Some w) T Lk) as (m' & E' & T'). exists m'. split; [exact E'|]. eapply tab_ext; [exact T'|]. intros j Lj. cbv beta. unfold on. destruct (Nat.eqb_spec j k) as [->|N].
    + destruct (Nat.ltb_spec k k); [lia|]. destruct (Nat.ltb_spec k (S k)); [|lia]. unfold own_west. rewrite FK, EW, P2. reflexivity.
    + rewrite app_nil_r. destruct (Nat.ltb_spec j k), (Nat.ltb_spec j (S k)); try lia; reflexivity.
  - lia.
  - eapply tab_ext; [apply tab_empty|]. reflexivity.
  - exists m. split; [exact E|]. eapply tab_ext; [exact H|]. intros j Lj. cbv beta. destruct (Nat.ltb_spec j n); [reflexivity|lia].
Qed.

Lemma east_loop west : tab n west own_west -> exists m, rfold (east_step t) (seq 0 (length (t_east t))) (west, repeat [] n) = Ok m /\
  tab n (fst m) (fun j => own_west j ++ flat_map (of_east j) (seq 0 n)) /\ tab n (snd m) own_east.
Proof.
  intros TW. rewrite (bu_east_len BU).
  destruct (rfold_seq (east_step t) (fun k m => tab n (fst m) (fun j => own_west j ++ flat_map (of_east j) (seq 0 k)) /\ tab n (snd m) (fun j => if j <? k then own_east j else [])) n) with (c := n) (k := 0) (m := (west, repeat (@nil sentry) n)) as (m & E & H1 & H2).
  - intros k [wt et] Lk [T1 T2]. cbn [fst snd] in T1, T2. unfold east_step. destruct (point_ok k Lk) as (p & P1 & P2 & P3). rewrite P1. cbn [rbind]. rewrite (east1_ok k Lk). cbn [orerr rbind]. destruct (east1 k) as [e|] eqn:EE.
    + pose proof (bu_east BU k e Lk EE) as Le.
      destruct (push_ok n et _ k (py p, Some e) T2 Lk) as (et' & E1 & T2'). rewrite E1. cbn [rbind].
      assert (OK : of_east e k = [(top_y k, Some k)]) by (unfold of_east, on; rewrite EE, Nat.eqb_refl; reflexivity).
      destruct (earlier (own_west e) k e Lk (fun x H => proj1 (own_west_in e x H)) Le (of_east e) (flat_map (after_west e) (t_after t)) (Wl e)) as [F1 F2].
      { intros i x H. apply of_east_in in H. apply H. } { rewrite OK. left. reflexivity. } { apply (st_west ST). lia. } { apply (st_west ST). lia. }
      rewrite (check_ok n wt _ e (py p) T1) by (try lia; rewrite ?P2; assumption). cbn [rbind].
      destruct (push_ok n wt _ e (py p, Some k) T1) as (wt' & E2 & T1'); [lia|]. rewrite E2. cbn [rbind]. exists (wt', et'). split; [reflexivity|]. cbn [fst snd]. split.
      * eapply tab_ext; [exact T1'|]. intros j Lj. cbv beta. rewrite flat_map_seq_S, <- app_assoc. f_equal. f_equal. unfold of_east. rewrite EE, P2. reflexivity.
      * eapply tab_ext; [exact T2'|]. intros j Lj. cbv beta. unfold on. destruct (Nat.eqb_spec j k) as [->|N].
        -- destruct (Nat.ltb_spec k k); [lia|]. destruct (Nat.ltb_spec k (S k)); [|lia]. unfold own_east. rewrite EE, P2. reflexivity.
        -- rewrite app_nil_r. destruct (Nat.ltb_spec j k), (Nat.ltb_spec j (S k)); try lia; reflexivity.
    + exists (wt, et). split; [reflexivity|]. cbn [fst snd]. split.
      * eapply tab_ext; [exact T1|]. intros j Lj. cbv beta. rewrite flat_map_seq_S. unfold of_east at 3. rewrite EE, app_nil_r. reflexivity.
      * eapply tab_ext; [exact T2|]. intros j Lj. cbv beta. destruct (Nat.ltb_spec j k), (Nat.ltb_spec j (S k)); try lia; try reflexivity. assert (j = k) by lia. subst j. unfold own_east. rewrite EE. reflexivity.
  - lia.
  - cbn [fst snd]. split; [|eapply tab_ext; [apply tab_empty|reflexivity]]. eapply tab_ext; [exact TW|]. intros j _. cbn. rewrite app_nil_r. reflexivity.
  - exists m. split; [exact E|]. split; [exact H1|]. eapply tab_ext; [exact H2|]. intros j Lj. cbv beta. destruct (Nat.ltb_spec j n); [reflexivity|lia].
Qed.

Lemma back_loop east : tab n east own_east -> exists m, rfold (back_step t) (seq 0 (length (t_west t))) east = Ok m /\ tab n m (fun j => own_east j ++ flat_map (of_west j) (seq 0 n)).
Proof.
  intros TE. rewrite (bu_west_len BU). destruct (rfold_seq (back_step t) (fun k m => tab n m (fun j => own_east j ++ flat_map (of_west j) (seq 0 k))) n) with (c := n) (k := 0) (m := east) as (m & E & H).
  - intros k m Lk T. unfold back_step. rewrite (flat_ok k Lk). cbn [rbind]. destruct (point_ok k Lk) as (p & P1 & P2 & P3).
    assert (SAME : (forall j, of_west j k = []) -> tab n m (fun j => own_east j ++ flat_map (of_west j) (seq 0 (S k)))).
    { intros Q. eapply tab_ext; [exact T|]. intros j Lj. cbv beta. rewrite flat_map_seq_S, Q, app_nil_r. reflexivity. }
    unfold of_west in SAME at 1. destruct (flat k) eqn:FK; [exists m; auto|]. rewrite P1. cbn [rbind]. rewrite (west1_ok k Lk). cbn [orerr rbind]. destruct (west1 k) as [w|] eqn:EW; [|exists m; auto].
    pose proof (bu_west BU k w Lk EW) as Lw. assert (OK : of_west w k = [(top_y k, Some k)]) by (unfold of_west, on; rewrite FK, EW, Nat.eqb_refl; reflexivity).
    destruct (earlier (own_east w) k w Lk (own_east_in w) Lw (of_west w) (flat_map (after_east w) (t_after t)) (El w)) as [F1 F2].
    { intros i x H. apply of_west_in in H. apply H. } { rewrite OK. left. reflexivity. } { apply (st_east ST). lia. } { apply (st_east ST). lia. }
    rewrite (check_ok n m _ w (py p) T) by (try lia; rewrite ?P2; assumption). cbn [rbind].
    destruct (push_ok n m _ w (py p, Some k) T) as (m' & E2 & T'); [lia|]. rewrite E2. exists m'. split; [reflexivity|]. eapply tab_ext; [exact T'|]. intros j Lj. cbv beta. rewrite flat_map_seq_S, <- app_assoc. f_equal. f_equal. unfold of_west. rewrite FK, EW, P2. reflexivity.
  - lia.
  - eapply tab_ext; [exact TE|]. intros j _. cbn. rewrite app_nil_r. reflexivity.
  - exists m. auto.
Qed.

Lemma after_loop l : forall west east f g, incl l (t_after t) -> tab n west f -> tab n east g ->
  exists m, rfold after_step l (west, east) = Ok m /\ tab n (fst m) (fun j => f j ++ flat_map (after_west j) l) /\ tab n (snd m) (fun j => g j ++ flat_map (after_east j) l).
Proof.
  induction l as [|[[y w] e] l IH]; intros west east f g IC TW TE; cbn [rfold flat_map].
  - exists (west, east). split; [reflexivity|]. split; [eapply tab_ext; [exact TW|]|eapply tab_ext; [exact TE|]]; intros j _; rewrite app_nil_r; reflexivity.
  - destruct (bu_after BU y w e) as [B1 B2]; [apply IC; left; reflexivity|]. cbn [after_step].
    assert (X1 : exists west', match e with Some e => push west e (y, w) | None => Ok west end = Ok west' /\ tab n west' (fun j => f j ++ after_west j (y, w, e))).
    { destruct e as [e|]; [apply push_ok; [exact TW|apply B2; reflexivity]|]. exists west. split; [reflexivity|]. eapply tab_ext; [exact TW|]. intros j _. cbn. rewrite app_nil_r. reflexivity. }
    assert (X2 : exists east', match w with Some w => push east w (y, e) | None => Ok east end = Ok east' /\ tab n east' (fun j => g j ++ after_east j (y, w, e))).
    { destruct w as [w|]; [apply push_ok; [exact TE|apply B1; reflexivity]|]. exists east. split; [reflexivity|]. eapply tab_ext; [exact TE|]. intros j _. cbn. rewrite app_nil_r. reflexivity. }
    destruct X1 as (west' & -> & T1). cbn [rbind]. destruct X2 as (east' & -> & T2). cbn [rbind].
    destruct (IH west' east' _ _ (fun x H => IC x (or_intror H)) T1 T2) as (m & E & H1 & H2). exists m. split; [exact E|]. split; [eapply tab_ext; [exact H1|]|eapply tab_ext; [exact H2|]]; intros j _; cbv beta; rewrite <- app_assoc; reflexivity.
Qed.

Lemma tab_list (m : stable) f : tab n m f -> m = map f (seq 0 n).
Proof.
  intros [L H]. apply nth_ext with (d := []) (d' := []); [rewrite map_length, seq_length; exact L|]. intros k Lk. rewrite L in Lk. pose proof (H k Lk) as Q. rewrite (nth_error_nth _ _ _ Q).
  symmetry. apply nth_error_nth. rewrite nth_error_map', nth_error_nth' with (d := 0) by (rewrite seq_length; exact Lk). rewrite seq_nth by exact Lk. reflexivity.
Qed.
Lemma build_ok (sort_by : forall A : Type, (A -> A -> comparison) -> list A -> list A) : sort_spec (sort_by sentry) ->
  build_scan_line_orders sort_by t = Ok (mkScan (map Wl (seq 0 n)) (map El (seq 0 n))).
Proof.
  intros SS. unfold build_scan_line_orders. destruct west_loop as (w1 & E1 & T1). rewrite E1. cbn [rbind]. destruct (east_loop w1 T1) as ([w2 e2] & E2 & T2 & T3). rewrite E2. cbv beta iota. cbn [rbind fst snd] in *.
  destruct (back_loop e2 T3) as (e3 & E3 & T4). rewrite E3. cbn [rbind]. destruct (after_loop (t_after t) w2 e3 _ _ (incl_refl _) T2 T4) as ([w4 e4] & E4 & T5 & T6). rewrite E4. cbv beta iota. cbn [rbind fst snd] in *.
  assert (M : forall m f g, tab n m f -> (forall j, j < n -> Permutation (f j) (g j) /\ StronglySorted hlt (g j) /\ Forall hnum (g j)) -> rmap (tidy sort_by) m = Ok (map g (seq 0 n))).
  { intros m f g T H. rewrite (tab_list m f T). apply rmap_ok. clear T m.
    assert (X : forall l, (forall j, In j l -> j < n) -> Forall2 (fun x y => tidy sort_by x = Ok y) (map f l) (map g l)).
    { induction l as [|j l IH]; intros B; cbn; constructor; [|apply IH; intros i Hi; apply B; right; exact Hi]. destruct (H j) as (P & S & F); [apply B; left; reflexivity|]. apply tidy_ok; assumption. }
    apply X. intros j Hj. apply in_seq in Hj. lia. }
  rewrite (M w4 _ Wl T5). 2:{ intros j Lj. cbv beta. rewrite <- app_assoc. apply (st_west ST j Lj). }
  cbn [rbind]. rewrite (M e4 _ El T6). 2:{ intros j Lj. cbv beta. rewrite <- app_assoc. apply (st_east ST j Lj). }
  reflexivity.
Qed.
End Tables.
