(** The topology of a sweep as the input of laying out curves. *)
From Coq Require Import List Bool ZArith Arith Lia Permutation.
From Verif Require Import F64 F64Arith TreeVecModel GeomModel SegmentsModel SegmentsSpec CurveOrderModel CurveOrderProofs SweepModel SweepSpec RangeModel TopoModel TopoSpec TopoProofs TopoProofs2 TopoProofs9
  RangeSpec RangeProofs3 RangeProofs4 RangeProofs5 PropsRange PropsSweep SweepProofs2 SweepProofs7 SweepProofs8 SweepProofs10 TopoProofs3 TopoProofs4 TopoProofs5 TopoProofs6 TopoProofs7 TopoProofs8 TopoProofs9 PropsTopo WindSpec WindProofs2 MergeSpec MergeProofs5 ScanModel ScanSpec ScanProofs ScanProofs3 ScanProofs4 ScanProofs5 ScanProofs6 PropsScan PosModel PosSpec PosProofs PosProofs3.
Import ListNotations.

(** All names in the tables are names of output segments. *)
Definition names (n : nat) (m : stable) : Prop := length m = n /\ forall l, In l m -> forall y k, In (y, Some k) l -> k < n.
Lemma push_names n m o y c m' : names n m -> (forall k, c = Some k -> k < n) -> push m o (y, c) = Ok m' -> names n m'.
Proof.
  intros [L V] C H. unfold push in H. ok H l E. apply orerr_some in E, H. destruct (upd_spec _ _ _ _ H) as (_ & L' & N). split; [congruence|].
  intros r Hr y' k Hk. apply In_nth_error in Hr. destruct Hr as (j & Hj). rewrite N in Hj. destruct (j =? o).
  - injection Hj as <-. apply in_app_or in Hk. destruct Hk as [Hk|[Hk|[]]]; [eapply V; [eapply nth_error_In, E|exact Hk]|]. injection Hk as _ Hk. exact (C k Hk).
  - eapply V; [eapply nth_error_In, Hj|exact Hk].
Qed.
Lemma rfold_inv {A B} (f : A -> B -> res B) (P : B -> Prop) l : (forall x b b', In x l -> P b -> f x b = Ok b' -> P b') -> forall b b', P b -> rfold f l b = Ok b' -> P b'.
Proof.
  induction l as [|x l IH]; intros ST b b' Pb H; cbn [rfold] in H; [injection H as <-; exact Pb|]. ok H b1 E. eapply IH; [|eapply ST; [left; reflexivity|exact Pb|exact E]|exact H]. intros; eapply ST; [right| |]; eassumption.
Qed.
Lemma dedup_incl l x : In x (dedup l) -> In x l.
Proof.
  assert (X : forall l y x, In x (dedup_after y l) -> In x l).
  { clear. induction l as [|z l IH]; intros y x H; [destruct H|]. cbn [dedup_after] in H. destruct (sentry_eqb z y); [right; eapply IH, H|]. destruct H as [<-|H]; [left; reflexivity|right; eapply IH, H]. }
  destruct l as [|y l]; [intros []|]. intros [<-|H]; [left; reflexivity|right; eapply X, H].
Qed.
Lemma tidy_names (sort_by : forall A : Type, (A -> A -> comparison) -> list A -> list A) n m m' : sort_spec (sort_by sentry) -> names n m -> rmap (tidy sort_by) m = Ok m' -> names n m'.
Proof.
  intros SS [L V] H. assert (X : length m' = length m /\ forall r, In r m' -> exists r0, In r0 m /\ forall e, In e r -> In e r0).
  { clear L V n. revert m' H. induction m as [|l m IH]; intros m' H; cbn [rmap] in H; [injection H as <-; split; [reflexivity|intros r []]|]. ok H l1 E. ok H m1 E1. injection H as <-. destruct (IH _ E1) as [L IN]. split; [cbn [length]; congruence|].
    intros r [<-|Hr]; [exists l; split; [left; reflexivity|]|destruct (IN r Hr) as (r0 & I0 & I1); exists r0; split; [right; exact I0|exact I1]].
    intros e He. unfold tidy in E. destruct (_ && _); [discriminate|]. injection E as <-. apply dedup_incl in He. eapply Permutation_in; [symmetry; apply (proj1 SS)|exact He]. }
  destruct X as [L' X]. split; [congruence|]. intros r Hr y k Hk. destruct (X r Hr) as (r0 & I0 & I1). exact (V r0 I0 y k (I1 _ Hk)).
Qed.
Lemma build_names {W} (t : topo W) (sort_by : forall A : Type, (A -> A -> comparison) -> list A -> list A) m : sort_spec (sort_by sentry) ->
  length (t_west t) = length (t_wind t) -> length (t_east t) = length (t_wind t) ->
  (forall o k, nth_error (t_west t) o = Some (Some k) -> k < length (t_wind t)) -> (forall o k, nth_error (t_east t) o = Some (Some k) -> k < length (t_wind t)) ->
  (forall y w e, In (y, w, e) (t_after t) -> (forall o, w = Some o -> o < length (t_wind t)) /\ (forall o, e = Some o -> o < length (t_wind t))) ->
  build_scan_line_orders sort_by t = Ok m -> names (length (t_wind t)) (so_west m) /\ names (length (t_wind t)) (so_east m).
Proof.
  intros SS LW LE VW VE VA H. set (n := length (t_wind t)) in *. unfold build_scan_line_orders in H. fold n in H. cbv zeta in H.
  assert (E0 : names n (repeat [] n)) by (split; [apply repeat_length|]; intros l Hl; apply repeat_spec in Hl; subst l; intros y k []).
  ok H w1 H1. assert (N1 : names n w1).
  { eapply rfold_inv; [|exact E0|exact H1]. intros o b b' _ Pb ST. unfold west_step in ST. ok ST hz Z1. destruct hz; [injection ST as <-; exact Pb|]. ok ST p Z2. ok ST c Z3. apply orerr_some in Z3. destruct c as [k|]; [|injection ST as <-; exact Pb].
    eapply push_names; [exact Pb| |exact ST]. intros k' E. injection E as <-. exact (VW o k Z3). }
  okp H w2 e2 H2. assert (N2 : names n w2 /\ names n e2).
  { eapply (rfold_inv (east_step t) (fun b => names n (fst b) /\ names n (snd b))) in H2; [exact H2| |split; [exact N1|exact E0]]. intros o [wb eb] [wb' eb'] Io [Pw Pe] ST. cbn [fst snd] in *. unfold east_step in ST. ok ST p Z2. ok ST c Z3. apply orerr_some in Z3. destruct c as [k|]; [|injection ST as <- <-; split; assumption].
    ok ST e3 Z4. ok ST u Z5. ok ST w3 Z6. injection ST as <- <-. split; [eapply push_names; [exact Pw| |exact Z6]|eapply push_names; [exact Pe| |exact Z4]]; intros k' E; injection E as <-; [|exact (VE o k Z3)]. apply in_seq in Io. lia. }
  destruct N2 as [N2 N2']. ok H e3 H3. assert (N3 : names n e3).
  { eapply rfold_inv; [|exact N2'|exact H3]. intros o b b' Io Pb ST. unfold back_step in ST. ok ST hz Z1. destruct hz; [injection ST as <-; exact Pb|]. ok ST p Z2. ok ST c Z3. apply orerr_some in Z3. destruct c as [k|]; [|injection ST as <-; exact Pb].
    ok ST u Z4. eapply push_names; [exact Pb| |exact ST]. intros k' E. injection E as <-. apply in_seq in Io. lia. }
  okp H w4 e4 H4. assert (N4 : names n w4 /\ names n e4).
  { eapply (rfold_inv after_step (fun b => names n (fst b) /\ names n (snd b))) in H4; [exact H4| |split; [exact N2|exact N3]]. intros [[y w] e] [wb eb] [wb' eb'] Io [Pw Pe] ST. cbn [fst snd] in *. destruct (VA y w e Io) as [V1 V2]. unfold after_step in ST. ok ST w3 Z1. ok ST e5 Z2. injection ST as <- <-. split.
    - destruct e as [e|]; [|injection Z1 as <-; exact Pw]. eapply push_names; [exact Pw| |exact Z1]. intros k E. exact (V1 k E).
    - destruct w as [w|]; [|injection Z2 as <-; exact Pe]. eapply push_names; [exact Pe| |exact Z2]. intros k E. exact (V2 k E). }
  destruct N4 as [N4 N4']. ok H w5 H5. ok H e5 H6. injection H as <-. cbn [so_west so_east]. split; [exact (tidy_names _ _ _ _ SS N4 H5)|exact (tidy_names _ _ _ _ SS N4' H6)].
Qed.

(** ** The heights of a sweep *)
Section Run.
Context {W T : Type}.
Variable ops : wops W T.
Variables (tag : list T) (a : arena) (eps : f64) (cmp ccmp : nat -> nat -> curve_order) (min_x max_x : segment -> f64)
  (lower upper : segment -> f64 -> f64 -> f64) (at_y : segment -> f64 -> f64)
  (pps : nat -> ((lentry -> bool) -> list lentry -> nat) * ((lentry -> bool) -> list lentry -> nat))
  (sort_by : forall A : Type, (A -> A -> comparison) -> list A -> list A) (l : list sweeper).
Hypothesis IN : topo_input tag a eps cmp ccmp min_x max_x lower upper at_y pps sort_by l.

(** What is needed of the topology. *)
Record placed (t : topo W) (ends : list (point * point)) : Prop := {
  pd_orig : length (t_orig t) = length (t_wind t);
  pd_len : length ends = length (t_wind t);
  pd_ends : forall o p q, nth_error ends o = Some (p, q) <-> o < length (t_wind t) /\ point_of t (first_half o) = Ok p /\ point_of t (second_half o) = Ok q;
  pd_span : forall o i p q, nth_error (t_orig t) o = Some i -> nth_error ends o = Some (p, q) ->
    registered a i /\ fle (start_y a i) (py p) = true /\ fle (py p) (py q) = true /\ fle (py q) (end_y a i) = true;
  pd_names : forall m, build_scan_line_orders sort_by t = Ok m -> names (length (t_wind t)) (so_west m) /\ names (length (t_wind t)) (so_east m) }.

Lemma rmap_all {A B} (f : A -> res B) l' : (forall x, In x l' -> exists y, f x = Ok y) -> exists r, rmap f l' = Ok r /\ length r = length l' /\ forall n y, nth_error r n = Some y <-> exists x, nth_error l' n = Some x /\ f x = Ok y.
Proof.
  induction l' as [|x l' IH]; intro V.
  - exists []. split; [reflexivity|]. split; [reflexivity|]. intros [|n] y; cbn; split; try discriminate; intros (x & H & _); discriminate.
  - cbn [rmap]. destruct (V x (or_introl eq_refl)) as (y & Ey). rewrite Ey. cbn [rbind]. destruct IH as (r & -> & L & N); [intros; apply V; right; assumption|]. cbn [rbind]. exists (y :: r). split; [reflexivity|]. split; [cbn [length]; congruence|].
    intros [|n] z; cbn [nth_error]; [|apply N]. split; [intro H; injection H as <-; exists x; split; [reflexivity|exact Ey]|]. intros (x' & H & E). injection H as <-. congruence.
Qed.

Lemma topo_placed fuel buf : 2 * arena_len a < fuel -> exists t ends, process_lines ops a tag sort_by eps lower upper at_y fuel l buf (topo_new (arena_len a)) = Ok t /\ end_points t = Ok ends /\ placed t ends.
Proof.
  intro F. destruct (scan_run ops tag a eps cmp ccmp min_x max_x lower upper at_y pps sort_by l IN fuel buf F) as (t & R & O & D & s & before & Wl & El & fl & E & I & ON & ED & NS & SS).
  destruct IN as [SET PS TAG ORI (f & n & RUN) BOX]. set (N := length (t_wind t)).
  assert (NC : forall o, ~ In o (cur s before (length (sw_line s)) O)). { intros o H. unfold cur, mixed in H. rewrite firstn_all, skipn_all2, NS in H by (rewrite (si_len _ _ _ _ _ _ _ _ _ _ _ _ SS); apply le_n). destruct H. }
  assert (PT : forall h x, at_vertex t R h x -> point_of t h = Ok x) by (intros h x; apply (vertex_point a t R none O none h x I)).
  assert (ENDS : forall o, o < N -> exists x x', at_vertex t R (first_half o) x /\ at_vertex t R (second_half o) x' /\ (key (py x) <= key (py x'))%Z).
  { intros o L. destruct (fl o) eqn:FL; [destruct (si_flat _ _ _ _ _ _ _ _ _ _ _ _ SS o L FL) as (x & x' & A & B & C); exists x, x'; split; [exact A|split; [exact B|lia]]|]. destruct (si_slant _ _ _ _ _ _ _ _ _ _ _ _ SS o L FL) as [X|(x & x' & A & B & C)]; [exfalso; eapply NC, X|]. exists x, x'; split; [exact A|split; [exact B|lia]]. }
  pose proof (li_orig _ _ _ _ _ (proj1 I)) as LO. fold N in LO.
  destruct (rmap_all (fun o => do! p := point_of t (first_half o) in do! q := point_of t (second_half o) in Ok (p, q)) (seq 0 (length (t_orig t)))) as (ends & EE & LE & NE).
  { intros o Ho. apply in_seq in Ho. destruct (ENDS o ltac:(lia)) as (x & x' & A & B & _). rewrite (PT _ _ A), (PT _ _ B). cbn [rbind]. eexists. reflexivity. }
  exists t, ends. split; [exact E|]. split; [exact EE|]. rewrite seq_length in LE.
  assert (PE : forall o p q, nth_error ends o = Some (p, q) <-> o < N /\ point_of t (first_half o) = Ok p /\ point_of t (second_half o) = Ok q).
  { intros o p q. rewrite NE. split.
    - intros (x & Hx & Ex). assert (L : o < length (seq 0 (length (t_orig t)))) by (apply nth_error_Some; congruence). rewrite seq_length in L. rewrite nth_error_nth' with (d := 0) in Hx by (rewrite seq_length; exact L). rewrite seq_nth in Hx by exact L. injection Hx as <-. cbn [plus] in Ex. split; [congruence|]. ok Ex p1 E1. ok Ex q1 E2. injection Ex as <- <-. split; assumption.
    - intros (L & Hp & Hq). exists o. split; [rewrite nth_error_nth' with (d := 0) by (rewrite seq_length; congruence); rewrite seq_nth by congruence; reflexivity|]. rewrite Hp, Hq. reflexivity. }
  constructor.
  - exact LO.
  - fold N. congruence.
  - exact PE.
  - intros o i p q Oi En. apply PE in En. destruct En as (L & Hp & Hq). destruct (ENDS o L) as (x & x' & A & B & C). rewrite (PT _ _ A) in Hp. rewrite (PT _ _ B) in Hq. injection Hp as ->. injection Hq as ->.
    pose proof (en_span _ _ _ _ _ _ _ (si_ends _ _ _ _ _ _ _ _ _ _ _ _ SS)) as SP. destruct (SP _ _ i A Oi) as (RG & K1 & K2). destruct (SP _ _ i B Oi) as (_ & K3 & K4). split; [exact RG|].
    assert (NP : forall p, In p (t_points t) -> point_nonnan p). { pose proof (en_num _ _ _ _ _ _ _ (si_ends _ _ _ _ _ _ _ _ _ _ _ _ SS)) as X. apply Forall_forall, X. }
    pose proof (NP _ (vertex_in t R _ _ A)) as [_ N1]. pose proof (NP _ (vertex_in t R _ _ B)) as [_ N2].
    pose proof (ss_arena _ _ _ _ _ SET) as SA. pose proof (SweepProofs2.registered_lt _ SA _ RG) as Lt. destruct (sp_finite _ SA _ Lt) as [[_ F1] [_ F2]]. apply fin_nonnan in F1, F2. change (nan (start_y a i) = false) in F1. change (nan (end_y a i) = false) in F2.
    split; [|split]; apply fle_intro; assumption.
  - intros m B. apply (build_names t sort_by m); [apply (ss_sort _ _ _ _ _ SET)|apply (li_west _ _ _ _ _ (proj1 I))|apply (li_east _ _ _ _ _ (proj1 I))| | |apply (si_ba _ _ _ _ _ _ _ _ _ _ _ _ SS)|exact B].
    + intros o k H. assert (L : o < length (t_wind t)) by (rewrite <- (li_west _ _ _ _ _ (proj1 I)); apply nth_error_Some; congruence). pose proof (si_bw _ _ _ _ _ _ _ _ _ _ _ _ SS o k L) as X. unfold west1 in X. rewrite H in X. specialize (X eq_refl). lia.
    + intros o k H. assert (L : o < length (t_wind t)) by (rewrite <- (li_east _ _ _ _ _ (proj1 I)); apply nth_error_Some; congruence). pose proof (si_be _ _ _ _ _ _ _ _ _ _ _ _ SS o k L) as X. unfold east1 in X. rewrite H in X. specialize (X eq_refl). lia.
Qed.
End Run.

(** ** The comparisons *)
Lemma last_row l : forall st d, l <> [] -> exists s o, In (s, last (map e_end l) d, o) (co_iter_from st l).
Proof.
  induction l as [|e l IH]; intros st d NE; [congruence|]. destruct l as [|e' l]; [exists st, (e_order e); left; reflexivity|]. destruct (IH (e_end e) d ltac:(discriminate)) as (s & o & H). exists s, o. right. exact H.
Qed.
Lemma verdict_some a cmp i j h : comparer_ok a cmp -> sweepable a -> registered a i -> registered a j -> i <> j -> fle (start_y a i) h = true -> flt h (end_y a i) = true -> fle (start_y a j) h = true -> flt h (end_y a j) = true -> verdict cmp h i j <> None.
Proof.
  intros C SP Ri Rj NE A1 A2 B1 B2 H. pose proof (registered_lt _ SP _ Ri) as Li. pose proof (registered_lt _ SP _ Rj) as Lj.
  destruct (C i j Li Lj NE) as (WF & TE & _); [exact (fle_flt _ _ _ A1 A2)|exact (fle_flt _ _ _ B1 B2)|exact (flt_le _ _ (fle_flt _ _ _ A1 B2))|exact (flt_le _ _ (fle_flt _ _ _ B1 A2))|].
  destruct WF as (NN & _). unfold verdict in H. destruct (last_row (co_cmps (cmp i j)) (co_start (cmp i j)) (co_start (cmp i j)) NN) as (s & o & I).
  pose proof (find_none _ _ H _ I) as X. cbv beta iota in X.
  assert (E : last (map e_end (co_cmps (cmp i j))) (co_start (cmp i j)) = CurveOrderSpec.table_end (cmp i j)). { unfold CurveOrderSpec.table_end, CurveOrderSpec.heights. destruct (co_cmps (cmp i j)); [congruence|reflexivity]. }
  rewrite E in X. pose proof (flt_min _ _ _ A2 B2) as M. destruct (feq_nonnan _ _ TE) as [N1 N2]. apply flt_split in M. rewrite feq_key in TE by assumption. apply Z.eqb_eq in TE. change (flt h (CurveOrderSpec.table_end (cmp i j)) = false) in X. rewrite flt_key in X by tauto. apply Z.ltb_ge in X. lia.
Qed.
Lemma order_nodup {T} (tag : list T) a eps cmp ccmp min_x max_x lower upper at_y pps sort_by l h : topo_input tag a eps cmp ccmp min_x max_x lower upper at_y pps sort_by l -> NoDup (order_below l h).
Proof.
  intros [SET PS TAG ORI (f & n & RUN) BOX]. assert (X : forall s, In s l -> NoDup (new_segs (sw_line s))) by (intros s Hs; apply (line_holds_active_segments a eps cmp ccmp min_x max_x lower upper pps sort_by SET f n l true RUN s Hs)).
  unfold order_below. assert (Y : NoDup (@nil nat)) by constructor. revert X Y. generalize (@nil nat). clear. induction l as [|s l IH]; intros o X Y; [exact Y|]. cbn [fold_left]. apply IH; [intros; apply X; right; assumption|]. destruct (fle _ h); [apply X; left; reflexivity|exact Y].
Qed.
