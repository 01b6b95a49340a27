(** C88: scan-line orders only have entries at heights where the segments they mention cross. *)
From Coq Require Import List Bool ZArith Arith Lia Permutation Sorted.
From Verif Require Import F64 F64Arith TreeVecModel GeomModel SegmentsModel SegmentsSpec SegmentsProofs CurveOrderModel CurveOrderProofs SweepModel SweepSpec
  SweepProofs2 SweepProofs7 SweepProofs8 SweepProofs10 RangeModel RangeSpec PropsSweep PropsRange TopoModel TopoSpec TopoProofs PropsTopo MergeProofs5
  ScanModel ScanSpec ScanProofs ScanProofs4 PropsScan PropsPath.
Import ListNotations.

(** A query at the height of an entry answers with that entry. *)
Lemma look_entry acc l e : StronglySorted hlt l -> Forall hnum l -> In e l -> look_from acc l (fst e) = snd e.
Proof.
  intros S. revert acc. induction S as [|x l S IH F]; intros acc N H; [destruct H|]. apply Forall_cons_iff in N. destruct N as [N1 N2]. destruct H as [->|H].
  - cbn [look_from fold_left]. assert (R : fle (fst e) (fst e) = true) by (unfold hnum in N1; fk; zb; lia). rewrite R. apply look_above. rewrite Forall_forall in *. intros y Hy. specialize (F y Hy). specialize (N2 y Hy). unfold hlt, hkey, hnum in *. destruct (fle (fst y) (fst e)) eqn:Q; [|reflexivity]. fk. zb. lia.
  - cbn [look_from fold_left]. apply IH; assumption.
Qed.
Lemma below_infinity x y : flt x y = true -> nan y = false -> flt x finfinity = true.
Proof.
  intros H Ny. destruct (flt_nonnan _ _ H) as [Nx _]. destruct x as [[] | [] | |[]]; try reflexivity; try discriminate Nx. destruct y as [[] | [] | |[]]; discriminate.
Qed.
Lemma final_in l x : final l = Some x -> In x l.
Proof. unfold final. intros H. apply in_rev. destruct (rev l); [discriminate|]. injection H as ->. left. reflexivity. Qed.

Lemma crosses_num {W} (t : topo W) o h : crosses t o h -> nan h = false /\ flt h finfinity = true.
Proof.
  intros (p & q & _ & _ & _ & H). destruct (flt_nonnan _ _ H) as [N1 N2]. split; [exact N1|eapply below_infinity; eassumption].
Qed.
Lemma increasing_row m o row : increasing m -> nth_error m o = Some row -> Forall hnum row -> StronglySorted hlt row.
Proof.
  intros I H F. unfold increasing in I. rewrite Forall_forall in I. apply nth_error_In in H. specialize (I row H). clear - I F.
  induction I as [|x l S IH Q]; constructor; apply Forall_cons_iff in F; destruct F as [F1 F2]; [apply IH, F2|]. rewrite Forall_forall in *. intros y Hy. specialize (Q y Hy). specialize (F2 y Hy). unfold hlt, hkey, hnum in *. fk. zb. lia.
Qed.

Section Live.
Context {W : Type}.
Variables (a : arena) (t : topo W) (l : list sweeper) (m : scan_order).
Hypothesis TB : scan_tables t m.
Hypothesis EX : forall h, flt h finfinity = true -> exact_at t l m h.
Hypothesis ROWS : forall o row e, nth_error (so_west m) o = Some row \/ nth_error (so_east m) o = Some row -> In e row -> o < length (t_wind t) /\ crosses t o (fst e).
Hypothesis DOWN : segments_run_down a t.

Lemma crosses_alive o y : o < length (t_wind t) -> crosses t o y -> alive_at a t o y.
Proof.
  clear TB EX ROWS. intros L C. split; [exact L|]. split; [exact C|]. destruct (DOWN o L) as (x & x' & i & E1 & E2 & E3 & _ & _ & E5 & E6). exists i. split; [exact E3|].
  destruct C as (p & q & P1 & P2 & C1 & C2).
  assert (PE : forall h z z', ends_at t h z -> point_of t h = Ok z' -> z = z'). { intros h z z' (k & H1 & H2). unfold point_of, TopoSpec.pt in *. destruct (hv_get (t_pidx t) h) as [u|]; [|discriminate]. cbn [orerr rbind]. subst u. cbn [orerr rbind]. rewrite H2. cbn [orerr rbind]. intros [= ->]. reflexivity. }
  pose proof (PE _ _ _ E1 P1). pose proof (PE _ _ _ E2 P2). subst x x'. destruct (fle_nonnan _ _ C1), (flt_nonnan _ _ C2), (fle_nonnan _ _ E5), (fle_nonnan _ _ E6). split; fk; zb; lia.
Qed.
Lemma west_alive : names_alive a t (so_west m).
Proof.
  intros o row y n HR HE. destruct (ROWS o row (y, n) (or_introl HR) HE) as [L C]. cbn [fst] in C. split; [apply crosses_alive; assumption|]. intros e ->. destruct (crosses_num _ _ _ C) as [Ny Yf].
  assert (F : Forall hnum row) by (apply Forall_forall; intros z Hz; apply (crosses_num t o), (ROWS o row z (or_introl HR) Hz)). destruct TB as (_ & _ & I & _). pose proof (increasing_row _ _ _ I HR F) as S.
  destruct (EX y Yf) as (outs & ND & IO & _ & NB). assert (Ho : In o outs) by (apply IO; auto). apply in_split in Ho. destruct Ho as (A & B & E). destruct (NB A o B E) as [X _].
  unfold west_neighbor_after, neighbor_after in X. rewrite HR in X. cbn [orerr rbind] in X. rewrite (query_ok row y S F Yf) in X. unfold look in X. rewrite (look_entry None row (y, Some e) S F HE : look_from None row y = Some e) in X. injection X as X. symmetry in X. apply final_in in X.
  assert (Q : In e outs) by (rewrite E; apply in_or_app; left; exact X). apply IO in Q. split; [|apply crosses_alive; apply Q]. intros ->. rewrite E in ND. apply NoDup_remove_2 in ND. apply ND, in_or_app. left. exact X.
Qed.
Lemma east_alive : names_alive a t (so_east m).
Proof.
  intros o row y n HR HE. destruct (ROWS o row (y, n) (or_intror HR) HE) as [L C]. cbn [fst] in C. split; [apply crosses_alive; assumption|]. intros e ->. destruct (crosses_num _ _ _ C) as [Ny Yf].
  assert (F : Forall hnum row) by (apply Forall_forall; intros z Hz; apply (crosses_num t o), (ROWS o row z (or_intror HR) Hz)). destruct TB as (_ & _ & _ & I). pose proof (increasing_row _ _ _ I HR F) as S.
  destruct (EX y Yf) as (outs & ND & IO & _ & NB). assert (Ho : In o outs) by (apply IO; auto). apply in_split in Ho. destruct Ho as (A & B & E). destruct (NB A o B E) as [_ X].
  unfold east_neighbor_after, neighbor_after in X. rewrite HR in X. cbn [orerr rbind] in X. rewrite (query_ok row y S F Yf) in X. unfold look in X. rewrite (look_entry None row (y, Some e) S F HE : look_from None row y = Some e) in X. injection X as X. destruct B as [|b B]; [discriminate|]. injection X as <-.
  assert (Q : In e outs) by (rewrite E; apply in_or_app; right; right; left; reflexivity). apply IO in Q. split; [|apply crosses_alive; apply Q]. intros ->. rewrite E in ND. apply NoDup_remove_2 in ND. apply ND, in_or_app. right. left. reflexivity.
Qed.
End Live.

(** Before or after merging coincident segments, every entry of the two tables is at a height at which the segment it is listed for, the neighbour it names, and
    the input segments both come from reach further down. *)
Theorem scan_tables_name_crossing_segments : forall (W T : Type) (ops : wops W T) tag a eps cmp ccmp min_x max_x lower upper at_y pps sort_by l,
  topo_input tag a eps cmp ccmp min_x max_x lower upper at_y pps sort_by l ->
  forall fuel buf, 2 * arena_len a < fuel ->
  exists t, process_lines ops a tag sort_by eps lower upper at_y fuel l buf (topo_new (arena_len a)) = Ok t /\
  forall t', t' = t \/ (exists close, merge_coincident ops close t = Ok t') ->
  exists m, build_scan_line_orders sort_by t' = Ok m /\ names_alive a t' (so_west m) /\ names_alive a t' (so_east m).
Proof.
  intros W T ops tag a eps cmp ccmp min_x max_x lower upper at_y pps sort_by l IN fuel buf F.
  destruct (scan_exact ops tag a eps cmp ccmp min_x max_x lower upper at_y pps sort_by l IN fuel buf F) as (t & m & E & B & TB & EX & ROWS). exists t. split; [exact E|].
  destruct (topology_rings W T ops tag a eps cmp ccmp min_x max_x lower upper at_y pps sort_by l IN fuel buf F) as (t2 & R & E2 & _ & _ & _ & DOWN). rewrite E in E2. injection E2 as <-.
  intros t' H. assert (K : keeps t t') by (destruct H as [->|(close & H)]; [apply keeps_refl|eapply merge_keeps, H]). exists m. split; [rewrite (keeps_build t t' sort_by K); exact B|].
  assert (RW : forall o row e, nth_error (so_west m) o = Some row \/ nth_error (so_east m) o = Some row -> In e row -> o < length (t_wind t') /\ crosses t' o (fst e)).
  { intros o row e HR HE. rewrite (kp_wind _ _ K), (keeps_crosses t t' _ _ K). eapply ROWS; eassumption. }
  split; [apply west_alive with (l := l)|apply east_alive with (l := l)]; try (exact (keeps_tables t t' m K TB)); try (intros h Hh; exact (keeps_exact t t' l m h K (EX h Hh))); try exact RW; exact (keeps_down a t t' K DOWN).
Qed.
Print Assumptions scan_tables_name_crossing_segments.

(** A case that meets the hypotheses is [bowtie_scan] (the bow tie of [PropsWind]).  Its tables have entries: the height and the neighbour of each, by output segment. *)
From Verif Require Import SegmentsProofs4 PropsSegments PolyExample PropsWind.
Definition bow_tables : res (list (list (bool * option nat)) * list (list (bool * option nat))) :=
  do! t := po_from bowtie 100 100 in
  do! m := build_scan_line_orders (@isort) t in
  let row := map (map (fun e : sentry => (feq (fst e) (f64_of_Z (-1000)), snd e))) in
  Ok (row (so_west m), row (so_east m)).
(** The first component tells whether the entry is at height -1000, the top of the inner path. *)
Example bow_rows : bow_tables = Ok
  ([[]; [(false, Some 0); (true, Some 5)]; [(true, Some 0); (false, Some 6)]; [(true, Some 2)]; [(true, Some 3)]; [(true, Some 4); (false, Some 8)]; [];
    [(false, Some 2)]; [(false, Some 7)]; [(false, Some 5); (false, Some 6)]],
   [[(false, Some 1); (true, Some 2)]; []; [(true, Some 3); (false, Some 7)]; [(true, Some 4)]; [(true, Some 5)]; [(true, Some 1); (false, Some 9)];
    [(false, Some 2); (false, Some 9)]; [(false, Some 8)]; [(false, Some 5)]; []]).
Proof. vm_compute. reflexivity. Qed.
