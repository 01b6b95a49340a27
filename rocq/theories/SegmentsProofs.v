(** Proofs about the segment arena: every history stores exactly its contours. *)
From Coq Require Import List Bool ZArith Lia Permutation Sorted Arith.
From Verif Require Import F64 F64Arith TreeVecModel CurveOrderSpec CurveOrderProofs GeomModel SegmentsModel SegmentsSpec.
Import ListNotations.

#[global] Opaque fone fzero fthird ftwothirds.

(** ** Point order facts, NaN included *)

Lemma cof_cmp_not_nan_lt x y : cof_cmp x y = Lt -> flt x y = true.
Proof. unfold cof_cmp. destruct (flt x y); [easy|]. destruct (fgt x y); discriminate. Qed.

Lemma flt_nan_false x y : flt x y = true -> nan x = false /\ nan y = false.
Proof. intros H. exact (flt_nonnan _ _ H). Qed.

Lemma cof_cmp_antisym x y : cof_cmp y x = CompOpp (cof_cmp x y).
Proof.
  unfold cof_cmp. change (fgt x y) with (flt y x). change (fgt y x) with (flt x y).
  destruct (flt x y) eqn:A, (flt y x) eqn:B; try reflexivity.
  destruct (flt_nonnan _ _ A). revert A B. fk. intros; zb; lia.
Qed.

Lemma point_cmp_antisym p q : point_cmp q p = CompOpp (point_cmp p q).
Proof.
  unfold point_cmp. rewrite (cof_cmp_antisym (py p)), (cof_cmp_antisym (px p)).
  destruct (cof_cmp (py p) (py q)), (cof_cmp (px p) (px q)); reflexivity.
Qed.

Lemma point_lt_le p q : point_lt p q = true -> point_le p q = true.
Proof. unfold point_lt, point_le. destruct (point_cmp p q); easy. Qed.
Lemma point_nlt_le p q : point_lt p q = false -> point_le q p = true.
Proof. unfold point_lt, point_le. rewrite (point_cmp_antisym p q). destruct (point_cmp p q); easy. Qed.
Lemma point_nle_le p q : point_le p q = false -> point_le q p = true.
Proof. unfold point_le. rewrite (point_cmp_antisym p q). destruct (point_cmp p q); easy. Qed.

(** ** Appending edges *)

Record extends (a : arena) (es : list edge) (a' : arena) : Prop := {
  ex_body : exists ss os, segs a' = segs a ++ ss /\ orientation a' = orientation a ++ os /\
    length ss = length es /\ length os = length es /\
    map read_from (combine ss os) = map e_from es /\
    map read_to (combine ss os) = map e_to es /\ Forall seg_wf ss;
  ex_t : split_from a' = split_from a ++ map e_t es;
  ex_inp : input_segs a' = input_segs a ++ map e_inp es;
  ex_prev : contour_prev a' = contour_prev a ++ map (fun i => Some (i - 1)) (seq (arena_len a) (length es));
  ex_next : contour_next a' = contour_next a ++ map (fun i => Some (S i)) (seq (arena_len a) (length es));
  ex_enter : enter a' = enter a;
  ex_exit : exit_ a' = exit_ a
}.

Lemma extends_len a es a' : extends a es a' -> arena_len a' = arena_len a + length es.
Proof.
  intros [(ss & os & H & _ & H1 & _) _ _ _ _ _ _]. unfold arena_len. rewrite H, app_length. lia.
Qed.

Lemma extends_nil a : extends a [] a.
Proof.
  constructor; cbn; rewrite ?app_nil_r; try reflexivity.
  exists [], []. rewrite !app_nil_r. repeat split; try reflexivity. constructor.
Qed.

Lemma combine_app {A B} (l1 l2 : list A) (r1 r2 : list B) : length l1 = length r1 ->
  combine (l1 ++ l2) (r1 ++ r2) = combine l1 r1 ++ combine l2 r2.
Proof. revert r1. induction l1; destruct r1; cbn; intros; try discriminate; [reflexivity|]. f_equal. apply IHl1. lia. Qed.

Lemma extends_app a es1 a1 es2 a2 : extends a es1 a1 -> extends a1 es2 a2 -> extends a (es1 ++ es2) a2.
Proof.
  intros H1 H2. pose proof (extends_len _ _ _ H1) as L.
  destruct H1 as [(ss1 & os1 & A1 & B1 & C1 & D1 & E1 & F1 & G1) T1 I1 P1 N1 EN1 EX1].
  destruct H2 as [(ss2 & os2 & A2 & B2 & C2 & D2 & E2 & F2 & G2) T2 I2 P2 N2 EN2 EX2].
  constructor.
  - exists (ss1 ++ ss2), (os1 ++ os2). rewrite A2, A1, B2, B1, !app_assoc, !app_length.
    rewrite combine_app by congruence. rewrite !map_app, E1, E2, F1, F2.
    repeat split; try lia. apply Forall_app; auto.
  - rewrite T2, T1, map_app, app_assoc; reflexivity.
  - rewrite I2, I1, map_app, app_assoc; reflexivity.
  - rewrite P2, P1, app_length, seq_app, map_app, app_assoc, L. reflexivity.
  - rewrite N2, N1, app_length, seq_app, map_app, app_assoc, L. reflexivity.
  - congruence.
  - congruence.
Qed.

Lemma extends_push a s o t inp : seg_wf s ->
  extends a [mkEdge (read_from (s, o)) (read_to (s, o)) t inp] (push_seg a s o t inp).
Proof.
  intros W. constructor; cbn; try reflexivity.
  - exists [s], [o]. repeat split; auto.
  - rewrite app_length. cbn. unfold arena_len. do 3 f_equal. lia.
  - rewrite app_length. cbn. unfold arena_len. do 3 f_equal. lia.
Qed.

Lemma straight_ok p q : point_le p q = true -> straight p q = Some (SLine p q).
Proof. unfold straight. now intros ->. Qed.

Definition line_edges (es : list (point * point)) : list edge := map (fun '(p, q) => line_edge p q) es.

Lemma push_edges_ok es : forall a, exists a', push_edges a es = Some a' /\ extends a (line_edges es) a'.
Proof.
  induction es as [|[p q] es IH]; intros a; cbn [push_edges line_edges map].
  - exists a. split; [reflexivity|apply extends_nil].
  - destruct (point_lt p q) eqn:E.
    + rewrite straight_ok by now apply point_lt_le. cbn [option_bind].
      destruct (IH (push_seg a (SLine p q) true (fzero, fone) (PLine p q))) as (a' & H1 & H2).
      exists a'. split; [exact H1|]. change (extends a ([line_edge p q] ++ line_edges es) a').
      eapply extends_app; [|exact H2]. apply (extends_push a (SLine p q) true).
      split; [now apply point_lt_le|exact I].
    + rewrite straight_ok by now apply point_nlt_le. cbn [option_bind].
      destruct (IH (push_seg a (SLine q p) false (fzero, fone) (PLine p q))) as (a' & H1 & H2).
      exists a'. split; [exact H1|]. change (extends a ([line_edge p q] ++ line_edges es) a').
      eapply extends_app; [|exact H2]. apply (extends_push a (SLine q p) false).
      split; [now apply point_nlt_le|exact I].
Qed.

(** ** Pairs *)

Lemma pairs_length {A} (l : list A) : length (pairs l) = length l - 1.
Proof. induction l as [|x [|y l] IH]; cbn in *; try reflexivity. rewrite IH. lia. Qed.

Lemma pairs_nth {A} (l : list A) d : pairs l = map (fun i => (nth i l d, nth (S i) l d)) (seq 0 (length l - 1)).
Proof.
  induction l as [|x [|y l] IH]; try reflexivity.
  change (pairs (x :: y :: l)) with ((x, y) :: pairs (y :: l)). rewrite IH.
  cbn [length Nat.sub]. rewrite Nat.sub_0_r. cbn [seq map].
  f_equal. rewrite <- seq_shift, map_map. apply map_ext. reflexivity.
Qed.

Lemma open_pairs ps : line_edges (pairs ps) = open_edges ps.
Proof. unfold line_edges, open_edges. rewrite (pairs_nth ps p00), map_map. reflexivity. Qed.

Lemma last_nth {A} (l : list A) d : last l d = nth (length l - 1) l d.
Proof.
  induction l as [|x l IH]; [reflexivity|]. destruct l as [|y l]; [reflexivity|].
  change (last (x :: y :: l) d) with (last (y :: l) d). rewrite IH. cbn [length].
  replace (S (S (length l)) - 1) with (S (S (length l) - 1)) by lia. reflexivity.
Qed.

Lemma closed_pairs ps : 1 < length ps -> line_edges (cyclic_pairs ps) = closed_edges ps.
Proof.
  intros H. unfold closed_edges. replace (length ps <=? 1) with false by (symmetry; apply Nat.leb_gt; lia).
  destruct ps as [|p ps]; [cbn in H; lia|].
  unfold cyclic_pairs. remember (p :: ps) as l. assert (Hn : exists n, length l = S n) by (subst; cbn; eauto).
  destruct Hn as [n Hn]. unfold line_edges. rewrite map_app. fold (line_edges (pairs l)). rewrite open_pairs.
  unfold open_edges. rewrite Hn, seq_S, map_app. f_equal.
  - replace (S n - 1) with n by lia. apply map_ext_in. intros i Hi. apply in_seq in Hi.
    rewrite Nat.mod_small by lia. reflexivity.
  - cbn [map]. rewrite last_nth, Hn, Nat.mod_same by lia. cbn [Nat.add].
    replace (S n - 1) with n by lia. subst l. rewrite (nth_indep (p :: ps) p p00) by lia. reflexivity.
Qed.

(** ** Linking *)

Lemma upd_app {A} (l : list A) y r x : upd (l ++ y :: r) (length l) x = Some (l ++ x :: r).
Proof. induction l; cbn; [reflexivity|]. rewrite IHl. reflexivity. Qed.

Lemma upd_last {A} (l : list A) y x : upd (l ++ [y]) (length l) x = Some (l ++ [x]).
Proof. apply upd_app. Qed.

Lemma upd_in_range {A} (l : list A) i x : i < length l -> exists l', upd l i x = Some l'.
Proof.
  revert i. induction l; destruct i; cbn; intros; try lia; [eauto|].
  destruct (IHl i) as [l' E]; [lia|]. rewrite E. cbn. eauto.
Qed.

(** A new contour of [n] edges at offset [o]: linked linearly, then patched. *)
Lemma prev_patched k o n x : 0 < n ->
  x = prev_of k o n 0 ->
  x :: map (fun i => Some (i - 1)) (seq (S o) (n - 1)) = map (prev_of k o n) (seq 0 n).
Proof.
  intros Hn ->. destruct n as [|n]; [lia|]. cbn [seq map]. f_equal.
  replace (S n - 1) with n by lia. rewrite <- !seq_shift, !map_map.
  assert (forall m j, map (fun x => Some (S x - 1)) (seq (o + j) m) = map (fun x => Some (o + x)) (seq j m)) as H.
  { induction m; intros j; [reflexivity|]. cbn [seq map]. f_equal; [f_equal; lia|].
    rewrite <- IHm. f_equal. f_equal. lia. }
  specialize (H n 0). rewrite Nat.add_0_r in H. exact H.
Qed.

Lemma next_patched k o n y : 0 < n ->
  y = next_of k o n (n - 1) ->
  map (fun i => Some (S i)) (seq o (n - 1)) ++ [y] = map (next_of k o n) (seq 0 n).
Proof.
  intros Hn ->. destruct n as [|n]; [lia|]. replace (S n - 1) with n by lia.
  rewrite seq_S, map_app. cbn [map Nat.add]. f_equal.
  assert (forall m j, m + j <= n ->
    map (fun i => Some (S i)) (seq (o + j) m) = map (next_of k o (S n)) (seq j m)) as H.
  { induction m; intros j Hj; [reflexivity|]. cbn [seq map]. f_equal.
    - unfold next_of. replace (S j =? S n) with false by (symmetry; apply Nat.eqb_neq; lia).
      f_equal. lia.
    - replace (S (o + j)) with (o + S j) by lia. apply IHm. lia. }
  specialize (H n 0 (eq_ind_r (fun z => z <= n) (le_n n) (Nat.add_0_r n))).
  rewrite (Nat.add_0_r o) in H. exact H.
Qed.

(** Patched contours. *)
Record linked (a : arena) (c : contour) (a' : arena) : Prop := {
  lk_body : exists ss os, segs a' = segs a ++ ss /\ orientation a' = orientation a ++ os /\
    length ss = length (edges c) /\ length os = length (edges c) /\
    map read_from (combine ss os) = map e_from (edges c) /\
    map read_to (combine ss os) = map e_to (edges c) /\ Forall seg_wf ss;
  lk_t : split_from a' = split_from a ++ map e_t (edges c);
  lk_inp : input_segs a' = input_segs a ++ map e_inp (edges c);
  lk_prev : contour_prev a' = contour_prev a ++ map (prev_of (ckind c) (arena_len a) (length (edges c))) (seq 0 (length (edges c)));
  lk_next : contour_next a' = contour_next a ++ map (next_of (ckind c) (arena_len a) (length (edges c))) (seq 0 (length (edges c)));
  lk_enter : enter a' = enter a;
  lk_exit : exit_ a' = exit_ a
}.

Definition even (a : arena) : Prop :=
  length (contour_prev a) = arena_len a /\ length (contour_next a) = arena_len a.

Lemma linked_len a c a' : linked a c a' -> arena_len a' = arena_len a + length (edges c).
Proof.
  intros [(ss & os & H & _ & H1 & _) _ _ _ _ _ _]. unfold arena_len. rewrite H, app_length. lia.
Qed.

Lemma linked_even a c a' : even a -> linked a c a' -> even a'.
Proof.
  intros [E1 E2] H. pose proof (linked_len _ _ _ H) as L. destruct H. split.
  - rewrite lk_prev0, app_length, map_length, seq_length. lia.
  - rewrite lk_next0, app_length, map_length, seq_length. lia.
Qed.

Lemma extends_linked_empty a reg k a' : extends a [] a' -> linked a (mkContour k reg []) a'.
Proof. intros []. constructor; assumption. Qed.

Lemma extends_dangling a reg es a' : extends a es a' -> linked a (mkContour KDangling reg es) a'.
Proof.
  intros []. constructor; try assumption; cbn [edges ckind].
  - rewrite ex_prev0. f_equal. destruct (length es) as [|n]; [reflexivity|].
    rewrite <- prev_patched with (x := Some (arena_len a - 1)) by (cbn; auto; lia).
    cbn [seq map]. replace (S n - 1) with n by lia. reflexivity.
  - rewrite ex_next0. f_equal. destruct (length es) as [|n]; [reflexivity|].
    rewrite <- next_patched with (y := Some (arena_len a + S n)).
    + replace (S n - 1) with n by lia. rewrite seq_S, map_app. cbn. do 3 f_equal. lia.
    + lia.
    + unfold next_of. replace (S (S n - 1) =? S n) with true by (symmetry; apply Nat.eqb_eq; lia). reflexivity.
Qed.

Lemma set_links_ok a es a1 reg k x y : even a -> extends a es a1 -> es <> [] ->
  x = prev_of k (arena_len a) (length es) 0 ->
  y = next_of k (arena_len a) (length es) (length es - 1) ->
  exists a2, set_links a1 (arena_len a) x (arena_len a1 - 1) y = Some a2 /\
             linked a (mkContour k reg es) a2.
Proof.
  intros [E1 E2] H Hne Hx Hy. pose proof (extends_len _ _ _ H) as L. destruct H.
  destruct es as [|e es]; [congruence|]. clear Hne.
  remember (length (e :: es)) as n in *. assert (0 < n) by (subst; cbn; lia).
  unfold set_links. rewrite ex_prev0, ex_next0.
  assert (S1 : seq (arena_len a) n = arena_len a :: seq (S (arena_len a)) (n - 1)).
  { destruct n; [lia|]. cbn. rewrite Nat.sub_0_r. reflexivity. }
  assert (S2 : seq (arena_len a) n = seq (arena_len a) (n - 1) ++ [arena_len a + (n - 1)]).
  { destruct n; [lia|]. rewrite seq_S. replace (S n - 1) with n by lia. reflexivity. }
  assert (U1 : upd (contour_prev a ++ map (fun i : nat => Some (i - 1)) (seq (arena_len a) n)) (arena_len a) x =
    Some (contour_prev a ++ x :: map (fun i => Some (i - 1)) (seq (S (arena_len a)) (n - 1)))).
  { rewrite S1. cbn [map]. generalize (seq (S (arena_len a)) (n - 1)). generalize (arena_len a - 1). intros. rewrite <- E1. apply upd_app. }
  assert (U2 : upd (contour_next a ++ map (fun i : nat => Some (S i)) (seq (arena_len a) n)) (arena_len a1 - 1) y =
    Some ((contour_next a ++ map (fun i => Some (S i)) (seq (arena_len a) (n - 1))) ++ [y])).
  { rewrite S2, map_app, app_assoc. cbn [map].
    replace (arena_len a1 - 1) with (length (contour_next a ++ map (fun i => Some (S i)) (seq (arena_len a) (n - 1))))
      by (rewrite app_length, map_length, seq_length; lia).
    apply upd_app. }
  rewrite U1. cbn [option_bind]. rewrite U2. cbn [option_bind]. eexists. split; [reflexivity|].
  constructor; cbn [segs orientation split_from input_segs contour_prev contour_next enter exit_ edges ckind]; try assumption.
  - rewrite <- Heqn. exact ex_body0.
  - rewrite <- Heqn. f_equal. apply prev_patched; assumption.
  - rewrite <- Heqn. rewrite <- app_assoc. f_equal. apply next_patched; assumption.
Qed.

Fixpoint linked_all (a : arena) (cs : list contour) (a' : arena) : Prop :=
  match cs with
  | [] => a = a'
  | c :: cs' => exists a1, linked a c a1 /\ linked_all a1 cs' a'
  end.

Lemma linked_all_app a cs1 a1 cs2 a2 : linked_all a cs1 a1 -> linked_all a1 cs2 a2 -> linked_all a (cs1 ++ cs2) a2.
Proof.
  revert a. induction cs1 as [|c cs1 IH]; cbn; intros a H1 H2; [subst; assumption|].
  destruct H1 as (a' & L & R). exists a'. split; [assumption|]. eapply IH; eassumption.
Qed.

Lemma add_polyline_ok a ps : even a -> exists a', add_polyline a ps = Some a' /\
  linked a (mkContour KClosed true (closed_edges ps)) a'.
Proof.
  intros Hev. unfold add_polyline. destruct (length ps <=? 1) eqn:E.
  - exists a. split; [reflexivity|]. unfold closed_edges. rewrite E. apply extends_linked_empty, extends_nil.
  - apply Nat.leb_gt in E. destruct (push_edges_ok (cyclic_pairs ps) a) as (a1 & H1 & H2).
    rewrite H1. cbn [option_bind]. rewrite closed_pairs in H2 by assumption.
    pose proof (extends_len _ _ _ H2) as L.
    assert (Hne : closed_edges ps <> []).
    { unfold closed_edges. replace (length ps <=? 1) with false by (symmetry; apply Nat.leb_gt; lia).
      destruct ps; [cbn in E; lia|]. discriminate. }
    assert (0 < length (closed_edges ps)) by (destruct (closed_edges ps); [congruence|cbn; lia]).
    replace (arena_len a <? arena_len a1) with true by (symmetry; apply Nat.ltb_lt; lia).
    eapply (set_links_ok a _ a1 true KClosed); try eassumption.
    + rewrite L. reflexivity.
    + unfold next_of. replace (S (length (closed_edges ps) - 1) =? length (closed_edges ps)) with true
        by (symmetry; apply Nat.eqb_eq; lia). reflexivity.
Qed.

Lemma add_polylines_ok pss : forall a, even a -> exists a', add_polylines a pss = Some a' /\
  linked_all a (map (fun ps => mkContour KClosed true (closed_edges ps)) pss) a'.
Proof.
  induction pss as [|ps pss IH]; intros a Hev; cbn [add_polylines map linked_all].
  - eauto.
  - destruct (add_polyline_ok a ps Hev) as (a1 & H1 & H2). rewrite H1. cbn [option_bind].
    destruct (IH a1 (linked_even _ _ _ Hev H2)) as (a' & H3 & H4). exists a'. split; [assumption|]. eauto.
Qed.

(** ** Bezier paths *)

Lemma fle_le_key x y : fle x y = true -> nan x = false /\ nan y = false /\ (key x <= key y)%Z.
Proof.
  intros H. destruct (fle_nonnan _ _ H). repeat split; auto. revert H. fk. intros; zb; lia.
Qed.

Lemma from_kurbo_some p q : from_kurbo p = Some q -> q = p /\ fin (px p) = true /\ fin (py p) = true.
Proof.
  unfold from_kurbo. destruct (fin (px p)) eqn:A, (fin (py p)) eqn:B; cbn; intros E; inversion E; subst; auto.
Qed.

Lemma tuple_le_key p q : point_nonnan p -> point_nonnan q -> tuple_le p q = point_le p q.
Proof.
  intros Hp Hq. unfold point_le. rewrite point_cmp_key by assumption. destruct Hp, Hq.
  unfold tuple_le. fk.
  destruct (Z.compare_spec (key (py p)) (key (py q))).
  - rewrite (proj2 (Z.ltb_ge _ _)) by lia. rewrite (proj2 (Z.eqb_eq _ _)) by lia. cbn.
    destruct (Z.compare_spec (key (px p)) (key (px q))); [apply Z.leb_le|apply Z.leb_le|apply Z.leb_gt]; lia.
  - rewrite (proj2 (Z.ltb_lt _ _)) by lia. reflexivity.
  - rewrite (proj2 (Z.ltb_ge _ _)) by lia. rewrite (proj2 (Z.eqb_neq _ _)) by lia. reflexivity.
Qed.

Lemma point_eq_nonnan p q : point_eq p q = true -> point_nonnan p /\ point_nonnan q.
Proof.
  unfold point_eq. intros H. apply andb_true_iff in H. destruct H as [A B].
  destruct (feq_nonnan _ _ A), (feq_nonnan _ _ B). repeat split; assumption.
Qed.

Lemma feq_flt x y : feq x y = true -> flt x y = false /\ flt y x = false.
Proof.
  intros H. destruct (feq_nonnan _ _ H). revert H. fk. intros H'. zb.
  split; apply Z.ltb_ge; lia.
Qed.

(** A piece is dropped exactly when its end points coincide; otherwise its ends are unchanged. *)
Lemma force_monotonic_cases c :
  (point_eq (c0 c) (c3 c) = true /\ force_monotonic c = None) \/
  (point_eq (c0 c) (c3 c) = false /\ exists p, force_monotonic c = Some p /\ c0 p = c0 c /\ c3 p = c3 c /\
    (flt (py (c0 c)) (py (c3 c)) = true -> py (c1 p) = fmax (py (c0 c)) (py (c1 c)) /\ py (c2 p) = fmin (py (c3 c)) (py (c2 c))) /\
    (flt (py (c3 c)) (py (c0 c)) = true -> py (c1 p) = fmin (py (c0 c)) (py (c1 c)) /\ py (c2 p) = fmax (py (c3 c)) (py (c2 c)))).
Proof.
  unfold force_monotonic, kpoint_eq. destruct (point_eq (c0 c) (c3 c)) eqn:E.
  - left. split; [reflexivity|]. apply andb_true_iff in E. destruct E as [E _].
    destruct (feq_flt _ _ E) as [-> ->]. reflexivity.
  - right. split; [reflexivity|]. cbn [negb].
    destruct (flt (py (c0 c)) (py (c3 c))) eqn:A.
    + eexists. split; [reflexivity|]. cbn. split; [reflexivity|]. split; [reflexivity|]. split; [split; reflexivity|].
      intros B. exfalso. destruct (flt_nonnan _ _ A). revert A B. fk. intros; zb; lia.
    + destruct (flt (py (c3 c)) (py (c0 c))) eqn:B.
      * eexists. split; [reflexivity|]. cbn. repeat split; try reflexivity; intros; discriminate.
      * eexists. split; [reflexivity|]. cbn. repeat split; try reflexivity; intros; discriminate.
Qed.

Lemma fmax_ge_l x y : nan x = false -> fle x (fmax x y) = true.
Proof.
  intros Hx. destruct (nan y) eqn:Hy.
  - unfold fmax. rewrite Hx, Hy. fk. apply Z.leb_refl.
  - destruct (fmax_nonnan x y Hx Hy) as [N K]. fk. apply Z.leb_le. lia.
Qed.
Lemma fmin_le_l x y : nan x = false -> fle (fmin x y) x = true.
Proof.
  intros Hx. destruct (nan y) eqn:Hy.
  - unfold fmin. rewrite Hx, Hy. fk. apply Z.leb_refl.
  - destruct (fmin_nonnan x y Hx Hy) as [N K]. fk. apply Z.leb_le. lia.
Qed.

Definition piece_edge (inp : pathseg) (m : piece) : edge :=
  mkEdge (c0 (pc m)) (c3 (pc m)) (start_t m, end_t m) inp.
Definition piece_good (m : piece) : Prop := exists c, force_monotonic c = Some (pc m).

Lemma fin_point p : fin (px p) = true -> fin (py p) = true -> point_nonnan p.
Proof. intros; split; now apply fin_nonnan. Qed.

Lemma monotonic_cubic_ok p0 p1 p2 p3 s : point_nonnan p0 -> point_nonnan p3 ->
  point_le p0 p3 = true ->
  (flt (py p0) (py p3) = true -> fle (py p0) (py p1) = true /\ fle (py p2) (py p3) = true) ->
  monotonic_cubic p0 p1 p2 p3 = Some s ->
  seg_start s = p0 /\ seg_end s = p3 /\ seg_wf s.
Proof.
  intros H0 H3 Hle Hc. unfold monotonic_cubic. destruct (feq (py p3) (py p0)) eqn:E.
  - rewrite straight_ok by assumption. intros X; inversion X; subst. repeat split; assumption.
  - intros X; inversion X; subst; clear X. cbn. split; [reflexivity|]. split; [reflexivity|].
    split; [assumption|].
    assert (L : flt (py p0) (py p3) = true).
    { unfold point_le in Hle. rewrite point_cmp_key in Hle by assumption. destruct H0, H3. revert E. fk.
      destruct (Z.compare_spec (key (py p0)) (key (py p3))); intros; zb; try easy; lia. }
    split; [assumption|]. apply Hc, L.
Qed.

Lemma push_piece_ok a inp m a' : piece_good m -> push_piece a inp m = Some a' ->
  extends a [piece_edge inp m] a'.
Proof.
  intros (c & Hc). destruct (force_monotonic_cases c) as [[_ N]|(_ & p & Hp & E0 & E3 & Hup & Hdown)]; [congruence|].
  assert (p = pc m) as -> by congruence. clear Hp. unfold push_piece.
  assert (T : forall q0 q1 q2 q3 o, 
     (o = true /\ (q0, q1, q2, q3) = (c0 (pc m), c1 (pc m), c2 (pc m), c3 (pc m)) /\ tuple_le q0 q3 = true \/
      o = false /\ (q0, q1, q2, q3) = (c3 (pc m), c2 (pc m), c1 (pc m), c0 (pc m)) /\ tuple_le q3 q0 = false) ->
     option_bind (from_kurbo q0) (fun p0 => option_bind (from_kurbo q1) (fun p1 =>
       option_bind (from_kurbo q2) (fun p2 => option_bind (from_kurbo q3) (fun p3 =>
       option_bind (monotonic_cubic p0 p1 p2 p3) (fun s => Some (push_seg a s o (start_t m, end_t m) inp)))))) = Some a' ->
     extends a [piece_edge inp m] a').
  { intros q0 q1 q2 q3 o HH.
    destruct (from_kurbo q0) as [x0|] eqn:F0; [|discriminate]. destruct (from_kurbo q1) as [x1|] eqn:F1; [|discriminate].
    destruct (from_kurbo q2) as [x2|] eqn:F2; [|discriminate]. destruct (from_kurbo q3) as [x3|] eqn:F3; [|discriminate].
    cbn [option_bind].
    apply from_kurbo_some in F0, F1, F2, F3. destruct F0 as (-> & A0 & B0), F1 as (-> & A1 & B1), F2 as (-> & A2 & B2), F3 as (-> & A3 & B3).
    pose proof (fin_point _ A0 B0) as N0. pose proof (fin_point _ A3 B3) as N3.
    destruct (monotonic_cubic q0 q1 q2 q3) as [s|] eqn:M; [|discriminate]. cbn [option_bind].
    intros X; inversion X; subst; clear X.
    destruct HH as [(-> & Q & T)|(-> & Q & T)]; inversion Q; subst; clear Q.
    - rewrite tuple_le_key in T by assumption.
      assert (HC : flt (py (c0 (pc m))) (py (c3 (pc m))) = true ->
         fle (py (c0 (pc m))) (py (c1 (pc m))) = true /\ fle (py (c2 (pc m))) (py (c3 (pc m))) = true).
      { intros L. rewrite E0, E3 in L. destruct (Hup L) as [-> ->]. rewrite E0, E3. destruct N0, N3. rewrite E0, E3 in *.
        split; [apply fmax_ge_l|apply fmin_le_l]; assumption. }
      destruct (monotonic_cubic_ok _ _ _ _ _ N0 N3 T HC M) as (S1 & S2 & W).
      pose proof (extends_push a s true (start_t m, end_t m) inp W) as R. unfold read_from, read_to in R. cbn in R.
      rewrite S1, S2 in R. exact R.
    - rewrite tuple_le_key in T by assumption. apply point_nle_le in T.
      assert (HC : flt (py (c3 (pc m))) (py (c0 (pc m))) = true ->
         fle (py (c3 (pc m))) (py (c2 (pc m))) = true /\ fle (py (c1 (pc m))) (py (c0 (pc m))) = true).
      { intros L. rewrite E0, E3 in L. destruct (Hdown L) as [-> ->]. rewrite E0, E3. destruct N0, N3. rewrite E0, E3 in *.
        split; [apply fmax_ge_l|apply fmin_le_l]; assumption. }
      destruct (monotonic_cubic_ok _ _ _ _ _ N0 N3 T HC M) as (S1 & S2 & W).
      pose proof (extends_push a s false (start_t m, end_t m) inp W) as R. unfold read_from, read_to in R. cbn in R.
      rewrite S1, S2 in R. exact R. }
  destruct (tuple_le (c0 (pc m)) (c3 (pc m))) eqn:TL; apply T.
  - left. repeat split; assumption.
  - right. repeat split; assumption.
Qed.

Lemma push_pieces_ok ms : forall a inp a', Forall piece_good ms -> push_pieces a inp ms = Some a' ->
  extends a (map (piece_edge inp) ms) a'.
Proof.
  induction ms as [|m ms IH]; intros a inp a' G H; cbn [push_pieces map] in *.
  - inversion H; subst. apply extends_nil.
  - inversion G; subst. destruct (push_piece a inp m) as [a1|] eqn:E; [|discriminate]. cbn [option_bind] in H.
    change (extends a ([piece_edge inp m] ++ map (piece_edge inp) ms) a').
    eapply extends_app; [eapply push_piece_ok; eassumption|]. apply IH; assumption.
Qed.

Section Bez.
Variable eval : cubic -> f64 -> point.
Variable ctrl : cubic -> f64 -> f64 -> point * point.
Variable monic : f64 -> f64 -> f64 * f64.
Variable quad_ctrl : point -> point -> point -> point * point.

Lemma mono_loop_ok inp c rs : forall last_r,
  map (piece_edge inp) (mono_loop eval ctrl c last_r rs) =
    curve_edges eval inp c ([last_r] ++ filter (fun r => flt fzero r && flt r fone) rs ++ [fone]) /\
  Forall piece_good (mono_loop eval ctrl c last_r rs).
Proof.
  induction rs as [|r rs IH]; intros last_r; cbn [mono_loop filter app].
  - cbn [curve_edges]. destruct (force_monotonic_cases (subsegment eval ctrl c last_r fone)) as [[E F]|(E & p & F & H0 & H3 & _)];
      rewrite F; cbn in E; rewrite E; cbn.
    + split; constructor.
    + cbn in H0, H3. unfold piece_edge. cbn. rewrite H0, H3. split; [reflexivity|]. constructor; [|constructor].
      eexists. exact F.
  - change (fgt r fzero) with (flt fzero r). destruct (flt fzero r && flt r fone) eqn:I.
    + cbn [app]. destruct (IH r) as [IH1 IH2].
      change (curve_edges eval inp c (last_r :: r :: filter (fun r0 : f64 => flt fzero r0 && flt r0 fone) rs ++ [fone]))
        with ((if point_eq (eval c last_r) (eval c r) then []
       else [mkEdge (eval c last_r) (eval c r) (last_r, r) inp]) ++ curve_edges eval inp c (r :: filter (fun r0 : f64 => flt fzero r0 && flt r0 fone) rs ++ [fone])).
      destruct (force_monotonic_cases (subsegment eval ctrl c last_r r)) as [[E F]|(E & p & F & H0 & H3 & _)];
      rewrite F; cbn in E; rewrite E; cbn [app].
      * split; assumption.
      * cbn in H0, H3. cbn [map]. unfold piece_edge at 1. cbn. rewrite H0, H3. cbn in IH1. rewrite IH1. split; [reflexivity|].
        constructor; [|assumption]. eexists; exact F.
    + apply IH.
Qed.

Lemma push_pathseg_ok a s a' : push_pathseg eval ctrl monic quad_ctrl a s = Some a' ->
  extends a (pathseg_edges eval monic quad_ctrl s) a'.
Proof.
  destruct s as [p q|p q r|c]; cbn [push_pathseg pathseg_edges].
  - destruct (from_kurbo p) as [p'|] eqn:Fp; [|discriminate]. destruct (from_kurbo q) as [q'|] eqn:Fq; [|discriminate].
    cbn [option_bind]. apply from_kurbo_some in Fp, Fq. destruct Fp as (-> & A0 & B0), Fq as (-> & A1 & B1).
    pose proof (fin_point _ A0 B0) as N0. pose proof (fin_point _ A1 B1) as N1.
    destruct (point_le p q) eqn:L.
    + destruct (point_eq p q) eqn:E; cbn [negb].
      * intros X; inversion X; subst. apply extends_nil.
      * rewrite straight_ok by assumption. cbn [option_bind]. intros X; inversion X; subst.
        apply (extends_push a (SLine p q) true). split; [assumption|exact I].
    + apply point_nle_le in L. assert (Esym : point_eq q p = point_eq p q).
      { unfold point_eq. destruct N0, N1. fk. rewrite (Z.eqb_sym (key (py p))), (Z.eqb_sym (key (px p))). reflexivity. }
      rewrite Esym. destruct (point_eq p q) eqn:E; cbn [negb].
      * intros X; inversion X; subst. apply extends_nil.
      * rewrite straight_ok by assumption. cbn [option_bind]. intros X; inversion X; subst.
        apply (extends_push a (SLine q p) false). split; [assumption|exact I].
  - unfold monotonic_pieces. destruct (length _ <=? 3); [|discriminate]. cbn [option_bind]. intros H.
    destruct (mono_loop_ok (PQuad p q r) (to_cubic quad_ctrl (PQuad p q r)) (roots monic (to_cubic quad_ctrl (PQuad p q r))) fzero) as [H1 H2].
    unfold cuts. rewrite <- H1. eapply push_pieces_ok; eassumption.
  - unfold monotonic_pieces. destruct (length _ <=? 3); [|discriminate]. cbn [option_bind]. intros H.
    destruct (mono_loop_ok (PCubic c) (to_cubic quad_ctrl (PCubic c)) (roots monic (to_cubic quad_ctrl (PCubic c))) fzero) as [H1 H2].
    unfold cuts. rewrite <- H1. eapply push_pieces_ok; eassumption.
Qed.

Lemma push_pathsegs_ok l : forall a a', push_pathsegs eval ctrl monic quad_ctrl a l = Some a' ->
  extends a (flat_map (pathseg_edges eval monic quad_ctrl) l) a'.
Proof.
  induction l as [|s l IH]; intros a a' H; cbn [push_pathsegs flat_map] in *.
  - inversion H; subst. apply extends_nil.
  - destruct (push_pathseg eval ctrl monic quad_ctrl a s) as [a1|] eqn:E; [|discriminate]. cbn [option_bind] in H.
    eapply extends_app; [eapply push_pathseg_ok; eassumption|]. apply IH; assumption.
Qed.

Lemma combine_nth_error {A B} (l : list A) (r : list B) i : 
  nth_error (combine l r) i = match nth_error l i, nth_error r i with Some x, Some y => Some (x, y) | _, _ => None end.
Proof.
  revert r i. induction l as [|x l IH]; intros [|y r] [|i]; cbn; try reflexivity.
  - destruct (nth_error l i); reflexivity.
  - apply IH.
Qed.

Lemma oriented_start_read a i : oriented_start a i = option_map read_from (nth_error (combine (segs a) (orientation a)) i).
Proof.
  unfold oriented_start. rewrite combine_nth_error. destruct (nth_error (segs a) i); cbn; [|reflexivity].
  destruct (nth_error (orientation a) i); reflexivity.
Qed.
Lemma oriented_end_read a i : oriented_end a i = option_map read_to (nth_error (combine (segs a) (orientation a)) i).
Proof.
  unfold oriented_end. rewrite combine_nth_error. destruct (nth_error (segs a) i); cbn; [|reflexivity].
  destruct (nth_error (orientation a) i); reflexivity.
Qed.

Lemma nth_error_map' {A B} (f : A -> B) l i : nth_error (map f l) i = option_map f (nth_error l i).
Proof. revert i. induction l; destruct i; cbn; auto. Qed.

Lemma extends_oriented a es a' i : extends a es a' -> length (orientation a) = length (segs a) ->
  oriented_start a' (arena_len a + i) = option_map e_from (nth_error es i) /\
  oriented_end a' (arena_len a + i) = option_map e_to (nth_error es i).
Proof.
  intros [(ss & os & A & B & C & D & E & F & G) _ _ _ _ _ _] Hl.
  rewrite oriented_start_read, oriented_end_read. rewrite A, B, combine_app by congruence.
  unfold arena_len. rewrite !nth_error_app2 by (rewrite combine_length; lia).
  replace (length (segs a) + i - length (combine (segs a) (orientation a))) with i by (rewrite combine_length; lia).
  rewrite <- !nth_error_map', E, F. split; reflexivity.
Qed.

Lemma nth_error_last {A} (l : list A) d : l <> [] -> nth_error l (length l - 1) = Some (last l d).
Proof.
  intros H. destruct (exists_last H) as (l' & x & ->). rewrite last_last, app_length. cbn.
  replace (length l' + 1 - 1) with (length l') by lia. rewrite nth_error_app2, Nat.sub_diag by lia. reflexivity.
Qed.

(** One subpath: success adds one linked contour, failure leaves an unregistered dangling one. *)
Lemma add_subpath_ok reg must a sub : even a -> length (orientation a) = length (segs a) ->
  let es := subpath_edges eval monic quad_ctrl sub in
  match add_subpath eval ctrl monic quad_ctrl must a sub with
  | AddOk a' => (must = true -> closes es = true) /\ linked a (bez_contour reg es) a'
  | AddErr a' p q => must = true /\ closes es = false /\ linked a (bez_contour reg es) a' /\
      exists e, In e es /\ p = e_from (hd e es) /\ q = e_to (last es e)
  | AddPanic => True
  end.
Proof.
  intros Hev Hor es. unfold add_subpath. subst es. unfold subpath_edges.
  destruct (kurbo_segments sub) as [ss|] eqn:K; [|exact I]. cbn [option_bind].
  destruct (push_pathsegs eval ctrl monic quad_ctrl a ss) as [a1|] eqn:P; [|exact I].
  apply push_pathsegs_ok in P. remember (flat_map (pathseg_edges eval monic quad_ctrl) ss) as es.
  pose proof (extends_len _ _ _ P) as L. clear Heqes.
  destruct es as [|e es].
  - cbn in L. replace (arena_len a <? arena_len a1) with false by (symmetry; apply Nat.ltb_ge; lia).
    split; [reflexivity|]. apply extends_linked_empty, P.
  - remember (e :: es) as l.
    assert (Ll : 0 < length l) by (subst; cbn; lia).
    replace (arena_len a <? arena_len a1) with true by (symmetry; apply Nat.ltb_lt; lia).
    assert (Hne : l <> []) by (subst; discriminate).
    destruct (extends_oriented a l a1 0 P Hor) as [S0 _]. rewrite Nat.add_0_r in S0. rewrite S0.
    destruct (extends_oriented a l a1 (length l - 1) P Hor) as [_ E0].
    replace (arena_len a1 - 1) with (arena_len a + (length l - 1)) by lia. rewrite E0.
    rewrite (nth_error_last l e Hne). subst l. cbn [nth_error option_map]. unfold kpoint_eq.
    remember (e :: es) as l.
    assert (Hcl : closes l = point_eq (e_from e) (e_to (last l e))) by (subst; reflexivity).
    destruct (point_eq (e_from e) (e_to (last l e))) eqn:C.
    + destruct (set_links_ok a l a1 reg KClosed (Some (arena_len a + (length l - 1))) (Some (arena_len a)) Hev P Hne) as (a2 & R1 & R2).
      * cbn. f_equal. lia.
      * unfold next_of. replace (S (length l - 1) =? length l) with true by (symmetry; apply Nat.eqb_eq; lia). reflexivity.
      * replace (arena_len a1 - 1) with (arena_len a + (length l - 1)) in R1 by lia. rewrite R1.
        split; [auto|]. unfold bez_contour. rewrite Hcl. exact R2.
    + destruct must.
      * split; [reflexivity|]. split; [assumption|]. split.
        -- unfold bez_contour. rewrite Hcl. apply extends_dangling, P.
        -- exists e. subst l. split; [now left|]. cbn [hd]. split; reflexivity.
      * split; [discriminate|]. unfold bez_contour. rewrite Hcl. apply extends_dangling, P.
Qed.

Lemma linked_orient a c a' : length (orientation a) = length (segs a) -> linked a c a' ->
  length (orientation a') = length (segs a').
Proof.
  intros H [(ss & os & A & B & C & D & _) _ _ _ _ _ _]. rewrite A, B, !app_length. lia.
Qed.

Lemma add_subpaths_ok must subs : forall a, even a -> length (orientation a) = length (segs a) ->
  let ess := map (subpath_edges eval monic quad_ctrl) subs in
  match add_subpaths eval ctrl monic quad_ctrl must a subs with
  | AddOk a' => (must = true -> forallb closes ess = true) /\ linked_all a (map (bez_contour true) ess) a'
  | AddErr a' _ _ => must = true /\ forallb closes ess = false /\
      linked_all a (map (bez_contour false) (upto_first_bad closes ess)) a'
  | AddPanic => True
  end.
Proof.
  induction subs as [|sub subs IH]; intros a Hev Hor; cbn [add_subpaths map].
  - split; reflexivity.
  - pose proof (add_subpath_ok true must a sub Hev Hor) as H1. pose proof (add_subpath_ok false must a sub Hev Hor) as H2. cbn in H1, H2.
    destruct (add_subpath eval ctrl monic quad_ctrl must a sub) as [a1|a1 p q|]; [| |exact I].
    + destruct H1 as [C1 L1], H2 as [C2 L2].
      specialize (IH a1 (linked_even _ _ _ Hev L1) (linked_orient _ _ _ Hor L1)). cbn in IH.
      destruct (add_subpaths eval ctrl monic quad_ctrl must a1 subs) as [a2|a2 p q|]; [| |exact I].
      * destruct IH as [I1 I2]. split.
        -- intros M. cbn. rewrite C1, I1 by assumption. reflexivity.
        -- cbn. eauto.
      * destruct IH as (I1 & I2 & I3). split; [assumption|]. split.
        -- cbn. rewrite I2. apply andb_false_r.
        -- cbn. rewrite C1 by assumption. cbn. eauto.
    + destruct H2 as (M & C & L & _). split; [assumption|]. cbn. rewrite C. split; [reflexivity|]. cbn. eauto.
Qed.
End Bez.
