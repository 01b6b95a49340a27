(** Proofs about scan-line orders: processing a range, seen from the tables. *)
From Coq Require Import List Bool ZArith Arith Lia Permutation Sorted.
From Verif Require Import F64 F64Arith TreeVecModel GeomModel SegmentsModel SegmentsSpec SegmentsProofs CurveOrderModel CurveOrderProofs SweepModel SweepSpec
  SweepProofs2 SweepProofs7 SweepProofs8 SweepProofs10 RangeModel RangeSpec RangeProofs3 RangeProofs4 RangeProofs5 TopoModel TopoSpec TopoProofs TopoProofs2 TopoProofs3 TopoProofs4
  TopoProofs5 TopoProofs6 TopoProofs7 TopoProofs8 TopoProofs9 WindProofs2 MergeProofs5 ScanModel ScanProofs ScanProofs3 ScanProofs4.
Import ListNotations.

Section Step.
Context {W T : Type}.
Variable ops : wops W T.
Variable a : arena.
Variable tag : list T.
Variable eps : f64.
Variables lower upper : segment -> f64 -> f64 -> f64.
Variable at_y : segment -> f64 -> f64.
Variable sort_by : forall A : Type, (A -> A -> comparison) -> list A -> list A.
Hypothesis SP : sweepable a.
Hypothesis TAG : length tag = arena_len a.
Hypothesis ORI : length (orientation a) = arena_len a.
Implicit Types t : topo W.
Notation TI := (TI a).
Notation none := (fun _ : nat => @None nat).
Notation tline := (tline a eps lower upper at_y sort_by).
Notation rstep := (rstep ops a tag eps lower upper at_y sort_by).
Notation st c := (fst (ci_segs c)).
Notation en c := (snd (ci_segs c)).

(** Where half-segments are. *)
Lemma vertex_point t R hz old nw h x : TI t R hz old nw -> at_vertex t R h x -> point_of t h = Ok x.
Proof.
  intros [_ RI] (p & r & Hp & Hh & Hx). pose proof (ri_at _ _ _ RI p r h Hp Hh) as E. unfold pt in E. unfold point_of. destruct (hv_get (t_pidx t) h) as [q|]; [|discriminate]. subst q. cbn [orerr rbind]. rewrite Hx. reflexivity.
Qed.
Lemma placed_vertex t R hz old nw h : TI t R hz old nw -> placed_half t hz old nw h -> exists x, at_vertex t R h x.
Proof.
  intros [_ RI] PH. apply (ri_all _ _ _ RI) in PH. apply in_concat in PH. destruct PH as (r & Hr & Hh). apply In_nth_error in Hr. destruct Hr as [p Hp].
  assert (L : p < length (t_points t)) by (rewrite <- (ri_points _ _ _ RI); apply nth_error_Some; congruence). destruct (nth_error (t_points t) p) as [x|] eqn:E; [|apply nth_error_None in E; lia]. exists x, p, r. auto.
Qed.
Lemma first_vertex t R hz old nw o : TI t R hz old nw -> o < length (t_wind t) -> exists x, at_vertex t R (first_half o) x /\ top_y t o = py x.
Proof.
  intros I L. destruct (placed_vertex t R hz old nw (first_half o) I) as [x Hx]; [split; [exact L|left; reflexivity]|]. exists x. split; [exact Hx|]. unfold top_y. rewrite (vertex_point _ _ _ _ _ _ _ I Hx). reflexivity.
Qed.
Lemma vertex_stays s before c evs l t R O t' R' O' h x : rstep s before c evs l t R O t' R' O' -> at_vertex t R h x -> at_vertex t' R' h x.
Proof.
  intros RS (p & r & Hp & Hh & Hx). destruct (rs_points ops a tag eps lower upper at_y sort_by _ _ _ _ _ _ _ _ _ _ _ RS) as (EP & _). exists p, r. rewrite (rs_R _ _ _ _ _ _ _ _ _ _ _ _ _ _ _ _ _ _ _ RS), EP.
  split; [rewrite nth_error_app1 by (apply nth_error_Some; congruence); exact Hp|]. split; [exact Hh|]. rewrite nth_error_app1 by (apply nth_error_Some; congruence). exact Hx.
Qed.

(** The parts of the line to the left of a range, in it, and to the right. *)
Definition partL (s : sweeper) (c : cinterval) (O : nat -> option nat) : list nat := map (val O) (new_segs (firstn (st c) (sw_line s))).
Definition partM (before : list lentry) (c : cinterval) (O : nat -> option nat) : list nat := map (val O) (old_segs (piece before (st c) (en c))).
Definition partR (before : list lentry) (c : cinterval) (O : nat -> option nat) : list nat := map (val O) (old_segs (skipn (en c) before)).

Lemma one_piece {A} (l : list A) i e : nth_error l i = Some e -> piece l i (S i) = [e].
Proof.
  intros He. unfold piece. replace (S i - i) with 1 by lia. revert l He. induction i as [|i IH]; intros [|x m] H; try discriminate; cbn in *; [congruence|apply IH, H].
Qed.
Lemma gap_new s before i e : tline s before -> nth_error (sw_line s) i = Some e -> gap s i -> newl e = [le_seg e] /\ old_of (unmark e) = [le_seg e] /\ nth_error before i = Some (unmark e).
Proof.
  intros TL He G. destruct (tl_gap _ _ _ _ _ _ _ _ TL _ _ He G) as (E0 & E1 & E2 & E3). rewrite old_unmark. unfold newl, old_of, really_exits. rewrite E1, E2, E3. auto.
Qed.
Lemma partL_last s before c O : tline s before -> In c (sw_changed s) ->
  lastof (partL s c O) = match st c with 0 => None | S i => option_map (fun e => val O (le_seg e)) (nth_error (sw_line s) i) end.
Proof.
  intros TL HC. unfold partL. destruct (st c) as [|i] eqn:ES; [reflexivity|]. pose proof (tl_bounds _ _ _ _ _ _ _ _ TL c HC) as BD.
  destruct (nth_error (sw_line s) i) as [e|] eqn:He; [|apply nth_error_None in He; lia]. rewrite (firstn_piece (sw_line s) i (S i)), new_segs_app, (one_piece _ _ _ He) by lia.
  destruct (gap_new s before i e TL He) as (E & _); [eapply left_gap; eassumption|]. rewrite (new_segs_flat [e]). cbn [flat_map]. rewrite E. cbn [app]. rewrite map_app. cbn [map]. apply lastof_snoc.
Qed.
Lemma partR_hd s before c O : tline s before -> In c (sw_changed s) -> hd_error (partR before c O) = option_map (fun e => val O (le_seg e)) (nth_error (sw_line s) (en c)).
Proof.
  intros TL HC. unfold partR. destruct (nth_error (sw_line s) (en c)) as [e|] eqn:He.
  - destruct (gap_new s before (en c) e TL He) as (_ & E & B); [eapply right_gap; eassumption|]. rewrite (skipn_piece before (en c) (S (en c))), old_segs_app, (one_piece _ _ _ B) by lia. unfold old_segs at 1. cbn [flat_map]. rewrite E. reflexivity.
  - apply nth_error_None in He. rewrite skipn_all2 by (rewrite (tl_len _ _ _ _ _ _ _ _ TL); exact He). reflexivity.
Qed.
Lemma some_val O i : O i <> None -> O i = Some (val O i).
Proof. unfold val. destruct (O i); [reflexivity|contradiction]. Qed.

Definition unchanged_gaps (s : sweeper) : Prop := forall k e, nth_error (sw_line s) k = Some e -> gap s k -> le_changed e = false.

Section OneRange.
Variables (s : sweeper) (before : list lentry) (c : cinterval) (evs : list oevent) (l : list view) (t : topo W) (R : list (list half)) (O : nat -> option nat) (t' : topo W) (R' : list (list half)) (O' : nat -> option nat).
Hypothesis RS : rstep s before c evs l t R O t' R' O'.
Hypothesis UG : unchanged_gaps s.
Notation N := (length (t_wind t)).
Notation Lc := (partL s c O).
Notation M := (partM before c O).
Notation Rc := (partR before c O).
Notation D := (odowns (vrecs N O [] l)).

Let TL : tline s before. Proof. apply RS. Qed.
Let HC : In c (sw_changed s). Proof. apply RS. Qed.
Let V : views_of evs l. Proof. apply RS. Qed.
Let I : TI t R none O none. Proof. apply RS. Qed.

Lemma cur_start : map (val O) (mixed (sw_line s) before (st c)) = Lc ++ M ++ Rc.
Proof. rewrite (mixed_start a eps lower upper at_y sort_by s before TL c HC), !map_app. reflexivity. Qed.
Lemma down_open i o : In (i, o) (combine (downs l) D) -> O' i = Some o.
Proof.
  intros Hi. rewrite (rs_O _ _ _ _ _ _ _ _ _ _ _ _ _ _ _ _ _ _ _ RS). unfold reopen. assert (X : In i (downs l)) by (eapply in_combine_l, Hi). apply (downs_in _ _ V) in X. destruct X as (e & He & _ & <-). rewrite (proj2 (memn_spec _ _) (in_map ev_seg _ _ He)).
  apply assoc_nodup; [|exact Hi]. rewrite map_fst_combine by apply odowns_length. apply (downs_nodup _ _ V).
Qed.
Lemma not_seg_same i : ~ In i (map ev_seg evs) -> O' i = O i.
Proof. intros X. rewrite (rs_O _ _ _ _ _ _ _ _ _ _ _ _ _ _ _ _ _ _ _ RS). unfold reopen. rewrite (proj2 (memn_false _ _) X). reflexivity. Qed.
Lemma left_same i : In i (new_segs (firstn (st c) (sw_line s))) -> O' i = O i.
Proof. intros H. apply not_seg_same. eapply (left_not_segs a tag); try eassumption; apply RS. Qed.
Lemma right_same i : In i (old_segs (skipn (en c) before)) -> O' i = O i.
Proof. intros H. apply not_seg_same. eapply (right_not_segs a tag); try eassumption; apply RS. Qed.
Lemma vals_down : map (val O') (downs l) = D.
Proof.
  pose proof down_open as MD. pose proof (odowns_length N O [] l) as LN. revert MD LN. generalize D. clear. induction (downs l) as [|i m IH]; intros [|o n] MD LN; cbn in *; try discriminate; [reflexivity|].
  f_equal; [unfold val; rewrite (MD i o (or_introl eq_refl)); reflexivity|]. apply IH; [intros j o' H; apply MD; right; exact H|lia].
Qed.
Lemma cur_end : map (val O') (mixed (sw_line s) before (en c)) = Lc ++ D ++ Rc.
Proof.
  rewrite (mixed_end a eps lower upper at_y sort_by s before TL c HC), !map_app. assert (NP : new_positions_ordered evs) by apply RS.
  rewrite <- (downs_line a eps lower upper at_y sort_by s before TL c evs (rs_rep _ _ _ _ _ _ _ _ _ _ _ _ _ _ _ _ _ _ _ RS) l V NP), vals_down. f_equal; [|f_equal]; apply map_ext_in; intros i Hi; unfold val; [rewrite left_same by exact Hi|rewrite right_same by exact Hi]; reflexivity.
Qed.
Lemma in_lt o : In o Lc \/ In o Rc -> o < N.
Proof.
  assert (X : forall i, In i (mixed (sw_line s) before (st c)) -> val O i < N). { intros i Hi. apply (rs_open _ _ _ _ _ _ _ _ _ _ _ _ _ _ _ _ _ _ _ RS) in Hi. apply some_val in Hi. eapply LI_own_lt; [apply I|right; left; exact Hi]. }
  intros H. assert (Y : exists i, o = val O i /\ In i (mixed (sw_line s) before (st c))).
  { rewrite (mixed_start a eps lower upper at_y sort_by s before TL c HC). destruct H as [H|H]; apply in_map_iff in H; destruct H as (i & <- & Hi); exists i; (split; [reflexivity|]); rewrite !in_app_iff; auto. }
  destruct Y as (i & -> & Hi). apply X, Hi.
Qed.
Lemma west_last : west_of s c O = lastof Lc.
Proof.
  rewrite (partL_last s before c O TL HC). unfold west_of. destruct (st c) as [|i] eqn:ES; [reflexivity|]. pose proof (tl_bounds _ _ _ _ _ _ _ _ TL c HC) as BD.
  destruct (nth_error (sw_line s) i) as [e|] eqn:He; [|apply nth_error_None in He; lia]. unfold line_segment. rewrite He. cbn [option_map]. apply some_val. apply (rs_open _ _ _ _ _ _ _ _ _ _ _ _ _ _ _ _ _ _ _ RS). eapply left_in_mixed; [exact TL| |exact He|]; [lia|]. eapply left_gap; eassumption.
Qed.
Lemma links : exists t1, grown t t1 (vwinds ops a tag (wind_of ops t (west_of s c O)) l) (vwests (lastof Lc) N l) (vorig l) (vpos a l) (map (fun v => mkPoint (sw_y s) (vw_x v)) l) /\ TI t1 R' none O' none /\
  match lastof D with
  | Some o => match hd_error Rc with None => t' = t1 | Some e => exists v, upd (t_east t1) o (Some e) = Some v /\ t' = with_east t1 v end
  | None => t' = match lastof Lc, hd_error Rc with None, None => t1 | w, e => with_after t1 (t_after t1 ++ [(sw_y s, w, e)]) end
  end.
Proof.
  destruct (rs_grown _ _ _ _ _ _ _ _ _ _ _ _ _ _ _ _ _ _ _ RS) as (t1 & G & I1 & SL). exists t1. rewrite <- west_last. split; [exact G|]. split; [exact I1|].
  rewrite (vlast_downs O l None N []) in SL. unfold scan_links in SL. pose proof (tl_bounds _ _ _ _ _ _ _ _ TL c HC) as BD.
  assert (EAST : hd_error Rc = option_map (fun e => val O (le_seg e)) (nth_error (sw_line s) (en c))) by (eapply partR_hd; eassumption).
  assert (FR : forall e, nth_error (sw_line s) (en c) = Some e -> open_front t1 (le_seg e) = Ok (Some (val O (le_seg e)))).
  { intros e He. rewrite (front_ok a t1 R' O') by (try exact I1; eapply mem_lt; eassumption). f_equal. assert (G1 : gap s (en c)) by (eapply right_gap; eassumption). destruct (gap_new s before _ e TL He G1) as (_ & E & B).
    rewrite right_same. 2:{ rewrite (skipn_piece before (en c) (S (en c))), old_segs_app, (one_piece _ _ _ B) by lia. unfold old_segs at 1. cbn [flat_map]. rewrite E. left. reflexivity. }
    apply some_val. apply (rs_open _ _ _ _ _ _ _ _ _ _ _ _ _ _ _ _ _ _ _ RS). eapply right_in_mixed; [exact TL| |exact He|exact G1]. lia. }
  destruct (lastof D) as [o|] eqn:ED; cbn [orelse] in SL.
  - rewrite EAST. destruct (nth_error (sw_line s) (en c)) as [e|] eqn:He; cbn [option_map]; [|injection SL as <-; reflexivity].
    rewrite (UG _ _ He) in SL by (eapply right_gap; eassumption). rewrite (FR e eq_refl) in SL. cbn [rbind] in SL. unfold set_east in SL. destruct (upd (t_east t1) o (Some (val O (le_seg e)))) as [v|] eqn:U; [|discriminate]. cbn [orerr rbind] in SL. injection SL as <-. eauto.
  - rewrite EAST. rewrite west_last, (partL_last s before c O TL HC). unfold line_segment in SL.
    assert (X1 : (match (match st c with 0 => None | S i => option_map le_seg (nth_error (sw_line s) i) end) with None => Ok None | Some i => do! f := open_front t1 i in do! o := orerr EOpen f in Ok (Some o) end) =
      Ok match st c with 0 => None | S i => option_map (fun e => val O (le_seg e)) (nth_error (sw_line s) i) end).
    { destruct (st c) as [|i] eqn:ES; [reflexivity|]. destruct (nth_error (sw_line s) i) as [e|] eqn:He; cbn [option_map]; [|reflexivity].
      rewrite (front_ok a t1 R' O') by (try exact I1; eapply mem_lt; eassumption). cbn [rbind]. assert (G1 : gap s i) by (eapply left_gap; eassumption). destruct (gap_new s before _ e TL He G1) as (E & _ & B).
      rewrite left_same. 2:{ rewrite ES, (firstn_piece (sw_line s) i (S i)), new_segs_app, (one_piece _ _ _ He) by lia. rewrite (new_segs_flat [e]). cbn [flat_map]. rewrite E. apply in_or_app. right. left. reflexivity. }
      assert (Q : O (le_seg e) = Some (val O (le_seg e))) by (apply some_val, (rs_open _ _ _ _ _ _ _ _ _ _ _ _ _ _ _ _ _ _ _ RS); eapply left_in_mixed; [exact TL| |exact He|exact G1]; lia). rewrite Q. reflexivity. }
    rewrite X1 in SL. cbn [rbind] in SL.
    assert (X2 : (match option_map le_seg (nth_error (sw_line s) (en c)) with None => Ok None | Some i => do! f := open_front t1 i in do! o := orerr EOpen f in Ok (Some o) end) = Ok (option_map (fun e => val O (le_seg e)) (nth_error (sw_line s) (en c)))).
    { destruct (nth_error (sw_line s) (en c)) as [e|] eqn:He; cbn [option_map]; [|reflexivity]. rewrite (FR e eq_refl). reflexivity. }
    rewrite X2 in SL. cbn [rbind] in SL. injection SL as <-. destruct (match st c with 0 => None | S i => option_map (fun e => val O (le_seg e)) (nth_error (sw_line s) i) end), (option_map (fun e => val O (le_seg e)) (nth_error (sw_line s) (en c))); reflexivity.
Qed.
Lemma range_sizes : length (t_wind t') = N + length (vorig l).
Proof. destruct (rs_points ops a tag eps lower upper at_y sort_by _ _ _ _ _ _ _ _ _ _ _ RS) as (_ & EW & _). rewrite EW, app_length, vwinds_length. reflexivity. Qed.
Lemma top_old o : o < N -> top_y t' o = top_y t o.
Proof.
  intros L. destruct (first_vertex t R _ _ _ o I L) as (x & Hx & ->). apply (vertex_stays _ _ _ _ _ _ _ _ _ _ _ _ _ RS) in Hx. unfold top_y. rewrite (vertex_point _ _ _ _ _ _ _ (rs_ti' _ _ _ _ _ _ _ _ _ _ _ _ _ _ _ _ _ _ _ RS) Hx). reflexivity.
Qed.
Lemma top_new o : N <= o < length (t_wind t') -> top_y t' o = sw_y s.
Proof.
  intros L. destruct (first_vertex t' R' _ _ _ o (rs_ti' _ _ _ _ _ _ _ _ _ _ _ _ _ _ _ _ _ _ _ RS) (proj2 L)) as (x & Hx & ->).
  apply (vertex_cases ops a tag eps lower upper at_y sort_by TAG ORI _ _ _ _ _ _ _ _ _ _ _ _ _ RS) in Hx. destruct Hx as [[_ H]|(l0 & v & l1 & _ & _ & ->)]; [cbn in H; lia|reflexivity].
Qed.
Lemma range_sstep : sstep (sw_y s) Lc D Rc t t'.
Proof.
  destruct links as (t1 & G & I1 & K). pose proof (li_west _ _ _ _ _ (proj1 I)) as LW. pose proof (li_east _ _ _ _ _ (proj1 I)) as LE. pose proof (li_west _ _ _ _ _ (proj1 (rs_ti' _ _ _ _ _ _ _ _ _ _ _ _ _ _ _ _ _ _ _ RS))) as LW'. pose proof (li_east _ _ _ _ _ (proj1 (rs_ti' _ _ _ _ _ _ _ _ _ _ _ _ _ _ _ _ _ _ _ RS))) as LE'.
  pose proof range_sizes as LN. assert (EW : t_west t' = t_west t ++ vwests (lastof Lc) N l).
  { rewrite <- (gr_west _ _ _ _ _ _ _ G). destruct (lastof D) as [o|]; [destruct (hd_error Rc) as [e|]; [destruct K as (v & _ & ->); reflexivity|subst; reflexivity]|]. destruct (lastof Lc), (hd_error Rc); subst; reflexivity. }
  assert (W1 : forall o, N <= o -> west1 t' o = match nth_error (vwests (lastof Lc) N l) (o - N) with Some w => w | None => None end). { intros o L. unfold west1. rewrite EW, nth_error_app2 by lia. rewrite LW. reflexivity. }
  assert (E1 : forall o, nth_error (t_east t1) o = if o <? N then nth_error (t_east t) o else if o <? N + length (vorig l) then Some None else None).
  { intros o. rewrite (gr_east _ _ _ _ _ _ _ G), vwinds_length. destruct (Nat.ltb_spec o N); [apply nth_error_app1; lia|]. rewrite nth_error_app2, LE by lia. destruct (Nat.ltb_spec o (N + length (vorig l))).
    - apply nth_error_repeat. lia.
    - apply nth_error_None. rewrite repeat_length. lia. }
  assert (E2 : forall o, east1 t' o = if o <? N then east1 t o else match lastof D with Some d => if o =? d then hd_error Rc else None | None => None end).
  { intros o. assert (B : east1 t1 o = if o <? N then east1 t o else None). { unfold east1. rewrite E1. destruct (o <? N); [reflexivity|]. destruct (o <? N + length (vorig l)); reflexivity. }
    destruct (lastof D) as [d|] eqn:ED.
    - assert (Ld : N <= d < N + length (vorig l)) by (apply (odowns_range O l N []), lastof_in, ED). destruct (hd_error Rc) as [e|].
      + destruct K as (v & U & ->). destruct (upd_spec _ _ _ _ U) as (_ & _ & NE). unfold east1 at 1. cbn [with_east t_east]. rewrite NE. destruct (Nat.eqb_spec o d) as [->|X]; [destruct (Nat.ltb_spec d N); [lia|reflexivity]|]. exact B.
      + rewrite K, B. destruct (o <? N); [reflexivity|]. destruct (o =? d); reflexivity.
    - assert (Q : east1 t' o = east1 t1 o) by (destruct (lastof Lc), (hd_error Rc); subst; reflexivity). rewrite Q, B. reflexivity. }
  constructor.
  - lia.
  - exact LW'.
  - exact LE'.
  - intros d Hd. rewrite LN. apply (odowns_range O l N []), Hd.
  - apply odowns_sorted.
  - exact in_lt.
  - intros o L. unfold west1. rewrite EW, nth_error_app1 by lia. reflexivity.
  - intros D1 d D2 E. assert (L : N <= d) by (apply (odowns_range O l N []); rewrite E; apply in_or_app; right; left; reflexivity). rewrite W1, (vwests_split O l (lastof Lc) N [] D1 d D2 E) by exact L. rewrite lastof_app. reflexivity.
  - intros o w L E. rewrite W1 in E by lia. destruct (nth_error (vwests (lastof Lc) N l) (o - N)) as [w'|] eqn:Q; [|discriminate]. subst w'. apply vwests_below in Q; [lia|]. intros x X. apply in_lt. left. apply lastof_in, X.
  - intros o L. rewrite E2. destruct (Nat.ltb_spec o N); [reflexivity|lia].
  - intros o E. assert (Ld : N <= o) by (apply (odowns_range O l N []), lastof_in, E). rewrite E2, E, Nat.eqb_refl. destruct (Nat.ltb_spec o N); [lia|reflexivity].
  - intros o L H. rewrite E2. destruct (Nat.ltb_spec o N); [lia|]. destruct (lastof D) as [d|]; [|reflexivity]. destruct (Nat.eqb_spec o d); [congruence|reflexivity].
  - rewrite <- (gr_after _ _ _ _ _ _ _ G). destruct (lastof D) as [d|] eqn:ED.
    + destruct D as [|x D'] eqn:Q; [discriminate|]. rewrite app_nil_r. destruct (hd_error Rc); [destruct K as (v & _ & ->)|subst]; reflexivity.
    + apply lastof_none in ED. rewrite ED. destruct (lastof Lc), (hd_error Rc); subst; cbn [with_after t_after]; rewrite ?app_nil_r; reflexivity.
  - exact top_old.
  - exact top_new.
Qed.
End OneRange.
End Step.
