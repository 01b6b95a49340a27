(** C43: scan-line orders list exactly the output segments at each height, in order. *)
From Coq Require Import List Bool ZArith Arith Lia Permutation Sorted.
From Verif Require Import F64 F64Arith TreeVecModel GeomModel SegmentsModel SegmentsSpec SegmentsProofs CurveOrderModel CurveOrderProofs SweepModel SweepSpec
  SweepProofs2 SweepProofs7 SweepProofs8 SweepProofs10 RangeModel RangeSpec RangeProofs3 RangeProofs4 RangeProofs5 PropsSweep PropsRange TopoModel TopoSpec TopoProofs TopoProofs2 TopoProofs3 TopoProofs4
  TopoProofs5 TopoProofs6 TopoProofs7 TopoProofs8 TopoProofs9 PropsTopo WindProofs2 MergeProofs5 ScanModel ScanSpec ScanProofs ScanProofs2 ScanProofs3 ScanProofs4 ScanProofs5 ScanProofs6.
Import ListNotations.

(** *** Merging leaves everything that scan-line orders are built from. *)
Section Keeps.
Context {W T : Type}.
Variable ops : wops W T.
Record keeps (t t' : topo W) : Prop := {
  kp_points : t_points t' = t_points t; kp_pidx : t_pidx t' = t_pidx t; kp_west : t_west t' = t_west t; kp_east : t_east t' = t_east t;
  kp_after : t_after t' = t_after t; kp_orig : t_orig t' = t_orig t; kp_wind : length (t_wind t') = length (t_wind t) }.
Lemma keeps_refl t : keeps t t. Proof. constructor; reflexivity. Qed.
Lemma keeps_trans t t' t'' : keeps t t' -> keeps t' t'' -> keeps t t''. Proof. intros [] []. constructor; congruence. Qed.
Ltac step H := let E := fresh "E" in match type of H with rbind ?x _ = _ => destruct x eqn:E; cbn [rbind] in H; [|discriminate H] end.
Lemma set_ccw_keeps t h v t' : set_ccw t h v = Ok t' -> keeps t t'.
Proof. unfold set_ccw. intros H. repeat step H. injection H as <-. constructor; reflexivity. Qed.
Lemma set_cw_keeps t h v t' : set_cw t h v = Ok t' -> keeps t t'.
Proof. unfold set_cw. intros H. repeat step H. injection H as <-. constructor; reflexivity. Qed.
Lemma delete_half_keeps t h t' : delete_half t h = Ok t' -> keeps t t'.
Proof. unfold delete_half. intros H. step H. step H. apply set_ccw_keeps in E0. apply set_cw_keeps in H. exact (keeps_trans _ _ _ E0 H). Qed.
Lemma delete_keeps t o t' : delete t o = Ok t' -> keeps t t'.
Proof.
  unfold delete. intros H. step H. step H. apply delete_half_keeps in E0. apply delete_half_keeps in H. refine (keeps_trans _ _ _ (keeps_trans _ _ _ _ E0) H). constructor; reflexivity.
Qed.
Lemma orerr_ok {A} e (x : option A) y : orerr e x = Ok y -> x = Some y.
Proof. destruct x; cbn; [intros [= ->]; reflexivity|discriminate]. Qed.
Lemma upd_length {A} (l : list A) i x l' : upd l i x = Some l' -> length l' = length l.
Proof. revert i l'. induction l as [|a l IH]; intros [|i] l' H; cbn in H; try discriminate H; [injection H as <-; reflexivity|]. destruct (upd l i x) eqn:E; [|discriminate H]. injection H as <-. cbn. f_equal. eapply IH, E. Qed.
Lemma merge_one_keeps close t o t' : merge_one ops close t o = Ok t' -> keeps t t'.
Proof.
  unfold merge_one. intros H. step H. destruct a; [injection H as <-; apply keeps_refl|]. repeat step H. cbv zeta in H. destruct (opt_eqb _ _); [|injection H as <-; apply keeps_refl].
  repeat step H. cbv zeta in H. destruct (_ && _); [injection H as <-; apply keeps_refl|]. destruct (_ && _); [injection H as <-; apply keeps_refl|]. destruct (negb _); [discriminate H|].
  step H. step H. step H. cbv zeta in H. step H. apply delete_keeps in E8. apply orerr_ok, upd_length in E11.
  assert (K : keeps t (with_wind a7 a10)). { eapply keeps_trans; [exact E8|]. constructor; try reflexivity. exact E11. }
  destruct (w_eqb ops _ _); [|injection H as <-; exact K]. apply delete_keeps in H. eapply keeps_trans; eassumption.
Qed.
Lemma merge_loop_keeps close n : forall o t t', merge_loop ops close n o t = Ok t' -> keeps t t'.
Proof. induction n as [|n IH]; intros o t t' H; cbn in H; [injection H as <-; apply keeps_refl|]. step H. apply merge_one_keeps in E. eapply keeps_trans; [exact E|eapply IH, H]. Qed.
Lemma merge_keeps close t t' : merge_coincident ops close t = Ok t' -> keeps t t'.
Proof. apply merge_loop_keeps. Qed.
Lemma keeps_point t t' h : keeps t t' -> point_of t' h = point_of t h.
Proof. intros K. unfold point_of. rewrite (kp_pidx _ _ K), (kp_points _ _ K). reflexivity. Qed.
Lemma keeps_build t t' sort_by : keeps t t' -> build_scan_line_orders sort_by t' = build_scan_line_orders sort_by t.
Proof.
  intros K. unfold build_scan_line_orders, west_step, east_step, back_step, is_horizontal, point_of. rewrite (kp_west _ _ K), (kp_east _ _ K), (kp_after _ _ K), (kp_wind _ _ K), (kp_pidx _ _ K), (kp_points _ _ K). reflexivity.
Qed.
Lemma keeps_crosses t t' o h : keeps t t' -> crosses t' o h <-> crosses t o h.
Proof. intros K. unfold crosses. rewrite !(keeps_point t t' _ K). tauto. Qed.
Lemma keeps_exact t t' lines m h : keeps t t' -> exact_at t lines m h -> exact_at t' lines m h.
Proof.
  intros K (outs & H1 & H2 & H3 & H4). exists outs. split; [exact H1|]. split; [|split; [|exact H4]].
  - intros o. rewrite H2, (kp_wind _ _ K), (keeps_crosses t t' o h K). tauto.
  - rewrite (kp_orig _ _ K). exact H3.
Qed.
Lemma keeps_tables t t' m : keeps t t' -> scan_tables t m -> scan_tables t' m.
Proof. intros K. unfold scan_tables. rewrite (kp_wind _ _ K). auto. Qed.
End Keeps.

(** *** Splitting the lines at a height *)
Lemma nth_sorted {A} (R : A -> A -> Prop) l : (forall n x y, nth_error l n = Some x -> nth_error l (S n) = Some y -> R x y) -> Sorted R l.
Proof.
  induction l as [|x l IH]; intros H; constructor.
  - apply IH. intros n u v H1 H2. exact (H (S n) u v H1 H2).
  - destruct l as [|y l]; constructor. apply (H 0); reflexivity.
Qed.
Definition ylt (s s' : sweeper) : Prop := (key (sw_y s) < key (sw_y s'))%Z.
Lemma split_at L h : StronglySorted ylt L -> exists A B, L = A ++ B /\ Forall (fun s => (key (sw_y s) <= key h)%Z) A /\ Forall (fun s => (key h < key (sw_y s))%Z) B.
Proof.
  induction 1 as [|s L S (A & B & -> & FA & FB) F]; [exists [], []; auto|]. destruct (Z_lt_le_dec (key h) (key (sw_y s))) as [Q|Q].
  - exists [], (s :: A ++ B). split; [reflexivity|]. split; [constructor|]. constructor; [exact Q|]. eapply Forall_impl; [|exact F]. unfold ylt. intros s' H. lia.
  - exists (s :: A), B. split; [reflexivity|]. split; [constructor; assumption|exact FB].
Qed.
Lemma order_last A s B h : Forall (fun s => fle (sw_y s) h = false) B -> fle (sw_y s) h = true -> order_below (A ++ s :: B) h = new_segs (sw_line s).
Proof.
  intros FB HS. unfold order_below. rewrite fold_left_app. cbn [fold_left]. rewrite HS. generalize (new_segs (sw_line s)). induction FB as [|x B E FB IH]; intros acc; [reflexivity|]. cbn [fold_left]. rewrite E. apply IH.
Qed.
Lemma sorted_le A s B s' : StronglySorted ylt (A ++ s :: B) -> In s' (A ++ [s]) -> (key (sw_y s') <= key (sw_y s))%Z.
Proof.
  intros S H. apply in_app_iff in H. destruct H as [H|[<-|[]]]; [|lia]. apply SweepProofs3.SSorted_app in S. destruct S as (_ & _ & S). specialize (S s' s H (or_introl eq_refl)). unfold ylt in S. lia.
Qed.

(** *** The theorem *)
Section Run.
Context {W T : Type}.
Variable ops : wops W T.
Variables (tag : list T) (a : arena) (eps : f64) (cmp ccmp : nat -> nat -> curve_order) (min_x max_x : segment -> f64)
  (lower upper : segment -> f64 -> f64 -> f64) (at_y : segment -> f64 -> f64)
  (pps : nat -> ((lentry -> bool) -> list lentry -> nat) * ((lentry -> bool) -> list lentry -> nat))
  (sort_by : forall A : Type, (A -> A -> comparison) -> list A -> list A) (l : list sweeper).
Hypothesis IN : topo_input tag a eps cmp ccmp min_x max_x lower upper at_y pps sort_by l.

Lemma scan_run fuel buf : 2 * arena_len a < fuel ->
  exists t R O D s before Wl El fl, process_lines ops a tag sort_by eps lower upper at_y fuel l buf (topo_new (arena_len a)) = Ok t /\ TI a t R none O none /\ (forall i, O i = None) /\
    D ++ [s] = start_line :: l /\ new_segs (sw_line s) = [] /\ SI a D s before (length (sw_changed s)) (length (sw_line s)) t R O Wl El fl.
Proof.
  intros F. destruct IN as [SET PS TAG ORI (f & n & RUN) BOX].
  destruct (run_rule2 ops tag a eps cmp ccmp min_x max_x lower upper at_y pps sort_by l IN
    (fun D s before k pos t R O => exists Wl El fl, SI a D s before k pos t R O Wl El fl)
    unchanged_gaps fuel buf) as (t & R & O & D & s & before & H1 & H2 & H3 & H4 & H5 & Wl & El & fl & H6).
  - intros s Hs. destruct (line_post a eps cmp ccmp min_x max_x lower upper pps sort_by SET f n l true s RUN Hs) as (P & _).
    intros k e Hk G. destruct (le_changed e) eqn:C; [|reflexivity]. exfalso. pose proof (po_cov _ _ _ _ _ P k e Hk (or_intror (or_intror C))) as X. unfold covered in X. apply Exists_exists in X. destruct X as (c & Hc & X). exact (G c Hc X).
  - intros D s before k p q t R O _ TL L1 L2 G _ (Wl & El & fl & H). exists Wl, El, fl. exact (SI_gap a tag eps lower upper at_y sort_by TAG ORI D s before k p q t R O Wl El fl TL L1 L2 G H).
  - intros D s before k c evs vs t R O t' R' O' UG RS Hk (Wl & El & fl & H). exact (SI_range ops a tag eps lower upper at_y sort_by (ss_arena _ _ _ _ _ SET) TAG ORI D s before k c evs vs t R O t' R' O' Wl El fl UG RS Hk H).
  - intros D s before s' before' t R O _ TL EB K I HO (Wl & El & fl & H). exists Wl, El, fl. exact (SI_line a tag eps lower upper at_y sort_by TAG ORI D s before s' before' _ t R O Wl El fl TL EB K I HO H).
  - exists (fun _ => []), (fun _ => []), (fun _ => false). apply SI_start.
  - exact F.
  - exists t, R, O, D, s, before, Wl, El, fl. auto 10.
Qed.

Lemma scan_exact fuel buf : 2 * arena_len a < fuel ->
  exists t m, process_lines ops a tag sort_by eps lower upper at_y fuel l buf (topo_new (arena_len a)) = Ok t /\ build_scan_line_orders sort_by t = Ok m /\ scan_tables t m /\
    (forall h, flt h finfinity = true -> exact_at t l m h) /\
    forall o row e, nth_error (so_west m) o = Some row \/ nth_error (so_east m) o = Some row -> In e row -> o < length (t_wind t) /\ crosses t o (fst e).
Proof.
  intros F. destruct (scan_run fuel buf F) as (t & R & O & D & s & before & Wl & El & fl & E & I & ON & ED & NS & SS). destruct IN as [SET PS TAG ORI (f & n & RUN) BOX].
  set (N := length (t_wind t)). exists t, (mkScan (map Wl (seq 0 N)) (map El (seq 0 N))). split; [exact E|].
  assert (NC : forall o, ~ In o (cur s before (length (sw_line s)) O)). { intros o H. unfold cur, mixed in H. rewrite firstn_all, skipn_all2, NS in H by (rewrite (si_len _ _ _ _ _ _ _ _ _ _ _ _ SS); apply le_n). destruct H. }
  assert (PT : forall h x, at_vertex t R h x -> point_of t h = Ok x) by (intros h x; apply (vertex_point a t R none O none h x I)).
  assert (NP : forall p, In p (t_points t) -> point_nonnan p). { pose proof (en_num _ _ _ _ _ _ _ (si_ends _ _ _ _ _ _ _ _ _ _ _ _ SS)) as X. apply Forall_forall, X. }
  assert (VT : forall h x, at_vertex t R h x -> nan (py x) = false) by (intros h x H; apply NP, (vertex_in t R h x H)).
  assert (ENDS : forall o, o < N -> exists x x', at_vertex t R (first_half o) x /\ at_vertex t R (second_half o) x' /\ if fl o then key (py x) = key (py x') else (key (py x) < key (py x'))%Z).
  { intros o L. destruct (fl o) eqn:FL; [apply (si_flat _ _ _ _ _ _ _ _ _ _ _ _ SS o L FL)|]. destruct (si_slant _ _ _ _ _ _ _ _ _ _ _ _ SS o L FL) as [X|X]; [exfalso; eapply NC, X|exact X]. }
  assert (BU : buildable t fl).
  { constructor.
    - apply (li_west _ _ _ _ _ (proj1 I)).
    - apply (li_east _ _ _ _ _ (proj1 I)).
    - intros o L. destruct (ENDS o L) as (x & x' & H1 & H2 & H3). exists x, x'. split; [apply PT, H1|]. split; [apply PT, H2|]. pose proof (VT _ _ H1). pose proof (VT _ _ H2). split; [assumption|]. destruct (fl o); fk; zb; lia.
    - apply (si_mono _ _ _ _ _ _ _ _ _ _ _ _ SS).
    - apply (si_bw _ _ _ _ _ _ _ _ _ _ _ _ SS).
    - apply (si_be _ _ _ _ _ _ _ _ _ _ _ _ SS).
    - apply (si_ba _ _ _ _ _ _ _ _ _ _ _ _ SS). }
  assert (ST : sorted_tables t fl Wl El).
  { constructor; intros o L; [destruct (si_tw _ _ _ _ _ _ _ _ _ _ _ _ SS o L) as (X1 & X2 & X3 & _)|destruct (si_te _ _ _ _ _ _ _ _ _ _ _ _ SS o L) as (X1 & X2 & X3 & _)]; auto. }
  split; [exact (build_ok t fl Wl El BU ST sort_by (ss_sort _ _ _ _ _ SET sentry))|].
  assert (SRT : forall l', StronglySorted hlt l' -> Forall hnum l' -> StronglySorted (fun e e' : sentry => flt (fst e) (fst e') = true) l').
  { clear. induction 1 as [|e l S IH F]; intros N; constructor; apply Forall_cons_iff in N; destruct N as [N1 N2]; [apply IH, N2|]. apply Forall_forall. intros e' He. rewrite Forall_forall in F, N2. specialize (F e' He). specialize (N2 e' He). unfold hlt, hkey, hnum in *. fk. zb. lia. }
  split.
  { split; [cbn; rewrite map_length, seq_length; reflexivity|]. split; [cbn; rewrite map_length, seq_length; reflexivity|].
    split; apply Forall_forall; intros l' H; cbn [so_west so_east] in H; apply in_map_iff in H; destruct H as (o & <- & H); apply in_seq in H; assert (L : o < N) by lia;
      [destruct (st_west _ _ _ _ ST o L) as (_ & X2 & X3)|destruct (st_east _ _ _ _ ST o L) as (_ & X2 & X3)]; apply SRT; assumption. }
  split.
  2:{ intros o row e HR HE. cbn [so_west so_east] in HR.
    assert (RW : o < N /\ (In e (Wl o) \/ In e (El o))).
    { destruct HR as [HR|HR]; (assert (L : o < N) by (assert (Z : nth_error (map Wl (seq 0 N)) o <> None \/ nth_error (map El (seq 0 N)) o <> None) by (first [left; congruence|right; congruence]); rewrite !nth_error_Some, !map_length, !seq_length in Z; lia)); rewrite nth_error_map', (nth_error_nth' _ 0) in HR by (rewrite seq_length; exact L); rewrite seq_nth in HR by exact L; injection HR as <-; auto. }
    destruct RW as [L RW]. split; [exact L|]. destruct (ENDS o L) as (x & x' & H1 & H2 & _). exists x, x'. split; [apply PT, H1|]. split; [apply PT, H2|].
    assert (NE : nan (fst e) = false). { destruct RW as [X|X]; [destruct (st_west _ _ _ _ ST o L) as (_ & _ & X2)|destruct (st_east _ _ _ _ ST o L) as (_ & _ & X2)]; rewrite Forall_forall in X2; apply X2, X. }
    pose proof (si_low _ _ _ _ _ _ _ _ _ _ _ _ SS o e L RW) as LOW. pose proof (si_high _ _ _ _ _ _ _ _ _ _ _ _ SS o x' e L H2 RW) as HIGH. unfold top_y in LOW. rewrite (PT _ _ H1) in LOW. unfold hkey in *.
    pose proof (VT _ _ H1). pose proof (VT _ _ H2). fk. zb. lia. }
  intros h HF. destruct (flt_nonnan _ _ HF) as [Nh _].
  assert (NL : forall x, In x (D ++ [s]) -> nan (sw_y x) = false).
  { rewrite ED. intros x [<-|Hx]; [reflexivity|]. destruct (line_post a eps cmp ccmp min_x max_x lower upper pps sort_by SET f n l true x RUN Hx) as (P & _). apply (po_ahead _ _ _ _ _ P). }
  assert (SN : forall k s1 s2, nth_error (D ++ [s]) k = Some s1 -> nth_error (D ++ [s]) (S k) = Some s2 -> snap t R fl Wl El (sw_y s) s1 s2).
  { intros k s1 s2 H1 H2. apply (si_snap _ _ _ _ _ _ _ _ _ _ _ _ SS k); [|exact H2]. assert (S k < length (D ++ [s])) by (apply nth_error_Some; congruence). rewrite app_length in H. cbn in H. rewrite nth_error_app1 in H1 by lia. exact H1. }
  assert (SO : StronglySorted ylt (D ++ [s])).
  { apply Sorted_StronglySorted; [intros x y z; unfold ylt; lia|]. apply nth_sorted. intros k x y H1 H2. destruct (SN k x y H1 H2) as [K _]. unfold ylt. lia. }
  destruct (split_at (D ++ [s]) h SO) as (A & B & EAB & FA & FB).
  assert (OB : order_below l h = order_below (A ++ B) h). { rewrite <- EAB, ED. unfold order_below. cbn [fold_left start_line sw_line]. destruct (fle _ h); reflexivity. }
  assert (AL : exists A' s1, A = A' ++ [s1]).
  { destruct (last_case A) as [->|X]; [exfalso|exact X]. assert (X : In start_line B) by (rewrite ED in EAB; cbn in EAB; rewrite <- EAB; left; reflexivity). rewrite Forall_forall in FB. specialize (FB _ X).
    assert (Q : fle fneginf h = true) by (clear - Nh; destruct h as [[] | [] | |[]]; try discriminate Nh; reflexivity). assert (NN : nan fneginf = false) by reflexivity. cbn [start_line sw_y] in FB. fk. zb. lia. }
  destruct AL as (A' & s1 & ->). rewrite Forall_forall in FA, FB.
  assert (S1 : In s1 (D ++ [s])) by (rewrite EAB, <- app_assoc; apply in_or_app; right; left; reflexivity).
  assert (HO : order_below l h = new_segs (sw_line s1)).
  { rewrite OB, <- app_assoc. cbn [app]. apply order_last.
    - apply Forall_forall. intros x Hx. specialize (FB x Hx). pose proof (NL x ltac:(rewrite EAB; apply in_or_app; right; exact Hx)). fk. zb. lia.
    - specialize (FA s1 ltac:(apply in_or_app; right; left; reflexivity)). pose proof (NL s1 S1). fk. zb. lia. }
  assert (HT : forall p, In p (t_points t) -> exists x, In x ((A' ++ [s1]) ++ B) /\ py p = sw_y x) by (rewrite <- EAB; apply (si_heights _ _ _ _ _ _ _ _ _ _ _ _ SS)).
  destruct B as [|s2 B].
  - exists []. split; [constructor|]. rewrite app_nil_r in EAB. apply app_inj_tail in EAB. destruct EAB as [<- <-]. split; [|split; [rewrite HO, NS; constructor|intros west o east X; destruct west; discriminate X]].
    intros o. split; [intros []|]. intros (L & p & q & _ & Hq & _ & Hh). destruct (ENDS o L) as (x & x' & H1 & H2 & H3). pose proof (PT _ _ H2) as E2. assert (x' = q) by congruence. subst x'. pose proof (VT _ _ H2) as V2. destruct (HT q (vertex_in t R _ _ H2)) as (z & Hz & EZ). rewrite app_nil_r in Hz. specialize (FA z Hz). rewrite <- EZ in FA. fk. zb. lia.
  - assert (K : nth_error (D ++ [s]) (length A') = Some s1 /\ nth_error (D ++ [s]) (S (length A')) = Some s2).
    { rewrite EAB, <- app_assoc. cbn [app]. split; [rewrite nth_error_app2, Nat.sub_diag by lia; reflexivity|]. rewrite nth_error_app2 by lia. replace (S (length A') - length A') with 1 by lia. reflexivity. }
    destruct K as [K1 K2]. destruct (SN _ _ _ K1 K2) as (KY & outs & A1 & (A0 & A2) & A3 & A4). fold N in A2, A4. rewrite EAB, <- app_assoc in SO. cbn [app] in SO.
    pose proof (FA s1 ltac:(apply in_or_app; right; left; reflexivity)) as Y1. pose proof (FB s2 ltac:(left; reflexivity)) as Y2.
    pose proof (NL s1 S1) as N1. assert (N2 : nan (sw_y s2) = false) by (apply NL; eapply nth_error_In, K2).
    exists outs. split; [exact A0|]. split; [|split; [rewrite HO; exact A1|]].
    + intros o. split.
      * intros Ho. pose proof (A2 o Ho) as L. split; [exact L|]. apply A4 in Ho; [|exact L]. destruct Ho as (B1 & B2 & B3). destruct (ENDS o L) as (x & x' & H1 & H2 & _). exists x, x'. split; [apply PT, H1|]. split; [apply PT, H2|].
        assert (TY : top_y t o = py x) by (unfold top_y; rewrite (PT _ _ H1); reflexivity). rewrite TY in B2. specialize (B3 x' H2). pose proof (VT _ _ H1). pose proof (VT _ _ H2). fk. zb. lia.
      * intros (L & p & q & Hp & Hq & Q1 & Q2). apply A4; [exact L|]. destruct (ENDS o L) as (x & x' & H1 & H2 & H3). pose proof (PT _ _ H1) as E1. pose proof (PT _ _ H2) as E2. assert (x = p) by congruence. assert (x' = q) by congruence. subst x x'.
        pose proof (VT _ _ H1) as V1. pose proof (VT _ _ H2) as V2. destruct (HT p (vertex_in t R _ _ H1)) as (z & Hz & EZ). destruct (HT q (vertex_in t R _ _ H2)) as (z' & Hz' & EZ').
        assert (Q1' : (key (py p) <= key h)%Z) by (fk; zb; lia). assert (Q2' : (key h < key (py q))%Z) by (fk; zb; lia).
        split; [destruct (fl o); [lia|reflexivity]|]. split.
        -- assert (TY : top_y t o = py p) by (unfold top_y; rewrite E1; reflexivity). rewrite TY, EZ. apply (sorted_le A' s1 (s2 :: B) z SO). apply in_app_iff in Hz. destruct Hz as [Hz|Hz]; [exact Hz|]. specialize (FB z Hz). rewrite <- EZ in FB. lia.
        -- intros x Hx. pose proof (PT _ _ Hx) as EX. assert (x = q) by congruence. subst x. rewrite EZ'. apply in_app_iff in Hz'. destruct Hz' as [Hz'|Hz']; [specialize (FA z' Hz'); rewrite <- EZ' in FA; lia|].
           destruct Hz' as [<-|Hz']; [lia|]. apply SweepProofs3.SSorted_app in SO. destruct SO as (_ & SO & _). apply StronglySorted_inv in SO. destruct SO as [SO _]. apply StronglySorted_inv in SO. destruct SO as [_ SO]. rewrite Forall_forall in SO. specialize (SO z' Hz'). unfold ylt in SO. lia.
    + intros west o east EO. assert (L : o < N) by (apply A2; rewrite EO; apply in_or_app; right; left; reflexivity).
      destruct (A3 h ltac:(fk; zb; lia) ltac:(fk; zb; lia) west o east EO) as [Z1 Z2]. unfold west_neighbor_after, east_neighbor_after, neighbor_after. cbn [so_west so_east].
      rewrite !nth_error_map', nth_error_nth' with (d := 0) by (rewrite seq_length; exact L). rewrite seq_nth by exact L. cbn [option_map orerr rbind plus].
      destruct (st_west _ _ _ _ ST o L) as (_ & X2 & X3). destruct (st_east _ _ _ _ ST o L) as (_ & X5 & X6). rewrite (query_ok _ h X2 X3 HF), (query_ok _ h X5 X6 HF), Z1, Z2. split; reflexivity.
Qed.
End Run.

(** Building the scan-line orders of a sweep, before or after merging coincident segments, succeeds; each table is sorted by height; and at each height
    they give the segments crossing that height their neighbours in the order of the sweep line. *)
Theorem scan_orders_exact : forall (W T : Type) (ops : wops W T) tag a eps cmp ccmp min_x max_x lower upper at_y pps sort_by l,
  topo_input tag a eps cmp ccmp min_x max_x lower upper at_y pps sort_by l ->
  forall fuel buf, 2 * arena_len a < fuel ->
  exists t, process_lines ops a tag sort_by eps lower upper at_y fuel l buf (topo_new (arena_len a)) = Ok t /\
  forall t', t' = t \/ (exists close, merge_coincident ops close t = Ok t') ->
  exists m, build_scan_line_orders sort_by t' = Ok m /\ scan_tables t' m /\ forall h, flt h finfinity = true -> exact_at t' l m h.
Proof.
  intros W T ops tag a eps cmp ccmp min_x max_x lower upper at_y pps sort_by l IN fuel buf F.
  destruct (scan_exact ops tag a eps cmp ccmp min_x max_x lower upper at_y pps sort_by l IN fuel buf F) as (t & m & E & B & TB & EX & _). exists t. split; [exact E|].
  intros t' H. assert (K : keeps t t') by (destruct H as [->|(close & H)]; [apply keeps_refl|eapply merge_keeps, H]). exists m. split; [rewrite (keeps_build t t' sort_by K); exact B|].
  split; [exact (keeps_tables t t' m K TB)|]. intros h Hh. exact (keeps_exact t t' l m h K (EX h Hh)).
Qed.
Print Assumptions scan_orders_exact.

(** A case that meets the hypotheses: the bow tie of [PropsWind] ([bowtie_winding]), before and after merging, with the neighbours at height 500. *)
From Verif Require Import SegmentsProofs4 PropsSegments PolyExample PropsWind.
Example bowtie_scan : exists l, po_sweep bowtie 100 100 = Ok (l, true) /\
  topo_input (po_tags bowtie) (po_arena bowtie) po_eps (po_cmp po_eps (po_arena bowtie)) (po_cmp po_eps (po_arena bowtie)) ex_min ex_max po_lo po_hi po_aty ex_pps (@isort) l.
Proof. destruct bowtie_winding as (l & E & IN & _). exists l. auto. Qed.
Definition bow_neighbours (h : f64) : res (list (res (option nat) * res (option nat))) :=
  do! t := po_from bowtie 100 100 in
  do! m := build_scan_line_orders (@isort) t in
  Ok (map (fun o => (west_neighbor_after m o h, east_neighbor_after m o h)) (seq 0 (length (t_wind t)))).
(** At height -500 the segments 0, 2, 3, 4, 5, 1 follow each other from west to east; the others start later. *)
Example bow_at_500 : bow_neighbours (f64_of_Z (-500)) =
  Ok [(Ok None, Ok (Some 2)); (Ok (Some 5), Ok None); (Ok (Some 0), Ok (Some 3)); (Ok (Some 2), Ok (Some 4)); (Ok (Some 3), Ok (Some 5)); (Ok (Some 4), Ok (Some 1));
      (Ok None, Ok None); (Ok None, Ok None); (Ok None, Ok None); (Ok None, Ok None)].
Proof. vm_compute. reflexivity. Qed.
