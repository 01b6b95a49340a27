(** Proofs about scan-line orders: the invariant of a run. *)
From Coq Require Import List Bool ZArith Arith Lia Permutation Sorted.
From Verif Require Import F64 F64Arith TreeVecModel GeomModel SegmentsModel SegmentsSpec SegmentsProofs CurveOrderModel CurveOrderProofs SweepModel SweepSpec
  SweepProofs2 SweepProofs7 SweepProofs8 SweepProofs10 RangeModel RangeSpec RangeProofs3 RangeProofs4 RangeProofs5 TopoModel TopoSpec TopoProofs TopoProofs2 TopoProofs3 TopoProofs4
  TopoProofs5 TopoProofs6 TopoProofs7 TopoProofs8 TopoProofs9 WindProofs2 MergeProofs5 ScanModel ScanProofs ScanProofs3 ScanProofs4 ScanProofs5.
Import ListNotations.

Section Inv.
Context {W T : Type}.
Variable ops : wops W T.
Variable a : arena.
Variable tag : list T.
Variable eps : f64.
Variables lower upper : segment -> f64 -> f64 -> f64.
Variable at_y : segment -> f64 -> f64.
Variable sort_by : forall A : Type, (A -> A -> comparison) -> list A -> list A.
Hypothesis SP : sweepable a.
Hypothesis TAG : length tag = arena_len a.
Hypothesis ORI : length (orientation a) = arena_len a.
Implicit Types t : topo W.
Notation TI := (TI a).
Notation none := (fun _ : nat => @None nat).
Notation tline := (tline a eps lower upper at_y sort_by).
Notation rstep := (rstep ops a tag eps lower upper at_y sort_by).
Notation onep := (one_piece a tag eps lower upper at_y TAG ORI).
Notation placedv := (placed_vertex a tag eps lower upper at_y TAG ORI).
Notation firstv := (first_vertex a tag eps lower upper at_y TAG ORI).
Notation st c := (fst (ci_segs c)).
Notation en c := (snd (ci_segs c)).

Definition cur (s : sweeper) before pos O : list nat := map (val O) (mixed (sw_line s) before pos).
Definition rest before pos O : list nat := map (val O) (old_segs (skipn pos before)).
Definition front (s : sweeper) pos O : list nat := map (val O) (new_segs (firstn pos (sw_line s))).
Definition just (s : sweeper) (k pos : nat) : Prop := exists k0 c, k = S k0 /\ nth_error (sw_changed s) k0 = Some c /\ en c = pos.

(** The output segments between lines [s1] and [s2], from west to east. *)
Definition snap t R (fl : nat -> bool) (Wl El : nat -> list sentry) (y : f64) (s1 s2 : sweeper) : Prop :=
  (key (sw_y s1) < key (sw_y s2) <= key y)%Z /\ exists outs,
  Forall2 (fun o i => nth_error (t_orig t) o = Some i) outs (new_segs (sw_line s1)) /\
  (NoDup outs /\ forall o, In o outs -> o < length (t_wind t)) /\
  (forall h, fle (sw_y s1) h = true -> flt h (sw_y s2) = true -> adjacent Wl El outs h) /\
  (forall o, o < length (t_wind t) -> (In o outs <-> fl o = false /\ (key (top_y t o) <= key (sw_y s1))%Z /\ forall x, at_vertex t R (second_half o) x -> (key (sw_y s2) <= key (py x))%Z)).

Record SI (DN : list sweeper) (s : sweeper) (before : list lentry) (k pos : nat) t (R : list (list half)) (O : nat -> option nat) (Wl El : nat -> list sentry) (fl : nat -> bool) : Prop := {
  si_num : nan (sw_y s) = false;
  si_len : length before = length (sw_line s);
  si_ends : ends a s before pos t R O;
  si_nodup : NoDup (cur s before pos O);
  si_pts : forall p, In p (t_points t) -> (key (py p) <= key (sw_y s))%Z;
  si_heights : forall p, In p (t_points t) -> exists s', In s' (DN ++ [s]) /\ py p = sw_y s';
  si_bw : forall o w, o < length (t_wind t) -> west1 t o = Some w -> w < o;
  si_be : forall o w, o < length (t_wind t) -> east1 t o = Some w -> w < o;
  si_ba : forall y w e, In (y, w, e) (t_after t) -> (forall o, w = Some o -> o < length (t_wind t)) /\ (forall o, e = Some o -> o < length (t_wind t));
  si_mono : forall i j, i <= j -> j < length (t_wind t) -> (key (top_y t i) <= key (top_y t j))%Z;
  si_tw : forall o, o < length (t_wind t) -> table_ok (sw_y s) (west_table t fl o) (Wl o);
  si_te : forall o, o < length (t_wind t) -> table_ok (sw_y s) (east_table t fl o) (El o);
  si_adj : forall h, fle (sw_y s) h = true -> adjacent Wl El (cur s before pos O) h;
  si_fe : forall o, In o (rest before pos O) -> fresh (sw_y s) (El o);
  si_fw : forall o, In o (tl (rest before pos O)) -> fresh (sw_y s) (Wl o);
  si_now : ~ just s k pos -> (forall o, hd_error (rest before pos O) = Some o -> fresh (sw_y s) (Wl o)) /\ (forall o, lastof (front s pos O) = Some o -> fresh (sw_y s) (El o));
  si_cfl : forall o, In o (cur s before pos O) -> fl o = false;
  si_flat : forall o, o < length (t_wind t) -> fl o = true -> exists x x', at_vertex t R (first_half o) x /\ at_vertex t R (second_half o) x' /\ key (py x) = key (py x');
  si_slant : forall o, o < length (t_wind t) -> fl o = false -> In o (cur s before pos O) \/ exists x x', at_vertex t R (first_half o) x /\ at_vertex t R (second_half o) x' /\ (key (py x) < key (py x'))%Z;
  si_low : forall o e, o < length (t_wind t) -> In e (Wl o) \/ In e (El o) -> (key (top_y t o) <= hkey e)%Z;
  si_high : forall o x e, o < length (t_wind t) -> at_vertex t R (second_half o) x -> In e (Wl o) \/ In e (El o) -> (hkey e < key (py x))%Z;
  si_snap : forall n s1 s2, nth_error DN n = Some s1 -> nth_error (DN ++ [s]) (S n) = Some s2 -> snap t R fl Wl El (sw_y s) s1 s2 }.

Lemma cur_split s before pos O : cur s before pos O = front s pos O ++ rest before pos O.
Proof. unfold cur, mixed. rewrite map_app. reflexivity. Qed.
Lemma fresh_le y y' (l : list sentry) : (key y < key y')%Z -> Forall (fun e => (hkey e <= key y)%Z) l -> fresh y' l.
Proof. intros K. apply Forall_impl. intros e H. lia. Qed.

Lemma SI_gap DN s before k p q t R O Wl El fl : tline s before -> p <= q -> q <= length (sw_line s) -> (forall j, p <= j < q -> gap s j) -> SI DN s before k p t R O Wl El fl -> SI DN s before k q t R O Wl El fl.
Proof.
  intros TL L LQ G H. destruct (Nat.eq_dec p q) as [<-|NE]; [exact H|]. destruct H.
  assert (MG : mixed (sw_line s) before p = mixed (sw_line s) before q) by (eapply mixed_gap; eassumption).
  assert (CE : cur s before q O = cur s before p O) by (unfold cur; rewrite MG; reflexivity).
  destruct (nth_error (sw_line s) p) as [e|] eqn:He; [|apply nth_error_None in He; lia]. destruct (gap_new a eps lower upper at_y sort_by s before p e TL He) as (_ & E1 & E2); [apply G; lia|].
  assert (RT : exists X, rest before p O = val O (le_seg e) :: X ++ rest before q O).
  { unfold rest. rewrite (skipn_piece before p (S p)), (onep _ _ _ E2), (skipn_piece before (S p) q), !old_segs_app, !map_app by lia. unfold old_segs at 1. cbn [flat_map]. rewrite E1. cbn [app map]. eauto. }
  destruct RT as [X RT].
  assert (TLR : forall o, In o (rest before q O) -> In o (tl (rest before p O)) /\ In o (rest before p O)) by (intros o Ho; rewrite RT; cbn; split; [|right]; apply in_or_app; right; exact Ho).
  constructor; try assumption.
  - eapply ends_gap; eassumption.
  - rewrite CE. assumption.
  - rewrite CE. assumption.
  - intros o Ho. apply si_fe0, TLR, Ho.
  - intros o Ho. apply si_fw0, TLR. destruct (rest before q O); [destruct Ho|right; exact Ho].
  - intros _. split.
    + intros o Ho. apply si_fw0, TLR, hd_in, Ho.
    + intros o Ho. apply si_fe0. unfold front in Ho. assert (Q : exists r, q = S r) by (destruct q as [|r]; [lia|eauto]). destruct Q as [r ->]. destruct (nth_error (sw_line s) r) as [f|] eqn:Hf; [|apply nth_error_None in Hf; lia].
      destruct (gap_new a eps lower upper at_y sort_by s before r f TL Hf) as (F0 & F1 & F2); [apply G; lia|]. rewrite (firstn_piece (sw_line s) r (S r)), new_segs_app, (onep _ _ _ Hf), map_app in Ho by lia. rewrite (new_segs_flat [f]) in Ho. cbn [flat_map] in Ho. rewrite F0 in Ho. cbn [app map] in Ho. rewrite lastof_snoc in Ho. injection Ho as <-.
      unfold rest. apply in_map. rewrite (skipn_piece before p r), old_segs_app, (skipn_piece before r (S r)), old_segs_app, (onep _ _ _ F2) by lia. apply in_or_app. right. apply in_or_app. left. unfold old_segs. cbn [flat_map]. rewrite F1. left. reflexivity.
  - rewrite CE. assumption.
  - rewrite CE. assumption.
Qed.

Lemma vertex_in t R h x : at_vertex t R h x -> In x (t_points t).
Proof. intros (p & r & _ & _ & H). eapply nth_error_In, H. Qed.
Lemma open_cur s before pos t R O o : TI t R none O none -> (forall i, O i <> None <-> In i (mixed (sw_line s) before pos)) -> (In o (cur s before pos O) <-> exists i, O i = Some o).
Proof.
  intros I HO. unfold cur. rewrite in_map_iff. split.
  - intros (i & <- & Hi). apply HO in Hi. apply some_val in Hi. eauto.
  - intros (i & E). exists i. split; [unfold val; rewrite E; reflexivity|]. apply HO. congruence.
Qed.
Lemma opened_cur t R O o : TI t R none O none -> (opened none O none o <-> exists i, O i = Some o).
Proof.
  intros I. unfold opened. split.
  - intros (i & H). exists i. destruct H as [H|[H|H]]; [discriminate|exact H|discriminate].
  - intros (i & H). exists i. auto.
Qed.
Lemma second_closed s before pos t R O o : TI t R none O none -> (forall i, O i <> None <-> In i (mixed (sw_line s) before pos)) -> o < length (t_wind t) ->
  ((exists x, at_vertex t R (second_half o) x) <-> ~ In o (cur s before pos O)).
Proof.
  intros I HO L. rewrite (open_cur s before pos t R O o I HO). rewrite <- (opened_cur t R O o I). split.
  - intros (x & p & r & Hp & Hh & _) X. assert (Y : In (second_half o) (concat R)) by (eapply nth_concat; eassumption). apply (ri_all _ _ _ (proj2 I)) in Y. destruct Y as [_ [Y|Y]]; [discriminate|contradiction].
  - intros X. apply (placedv t R _ _ _ (second_half o) I). split; [exact L|right; exact X].
Qed.

Definition grow_fl (fl : nat -> bool) (N : nat) (D : list nat) (o : nat) : bool := if o <? N then fl o else negb (existsb (Nat.eqb o) D).
Lemma SI_range DN s before k c evs l t R O t' R' O' Wl El fl : unchanged_gaps s -> rstep s before c evs l t R O t' R' O' -> nth_error (sw_changed s) k = Some c ->
  SI DN s before k (st c) t R O Wl El fl -> exists Wl' El' fl', SI DN s before (S k) (en c) t' R' O' Wl' El' fl'.
Proof.
  intros UG RS Hk [NUM LEN EN ND PTS HTS BW BE BA MO TW TE AD FE FW NOW CFL FLT SLA LOW HIGH SNP].
  set (N := length (t_wind t)) in *. set (D := odowns (vrecs N O [] l)). set (Lc := partL s c O). set (M := partM before c O). set (Rc := partR before c O). set (y := sw_y s) in *. set (fl' := grow_fl fl N D).
  pose proof (rs_ti _ _ _ _ _ _ _ _ _ _ _ _ _ _ _ _ _ _ _ RS) as I. pose proof (rs_ti' _ _ _ _ _ _ _ _ _ _ _ _ _ _ _ _ _ _ _ RS) as I'. pose proof (rs_line _ _ _ _ _ _ _ _ _ _ _ _ _ _ _ _ _ _ _ RS) as TL.
  pose proof (rs_open _ _ _ _ _ _ _ _ _ _ _ _ _ _ _ _ _ _ _ RS) as HO. pose proof (rs_open' _ _ _ _ _ _ _ _ _ _ _ _ _ _ _ _ _ _ _ RS) as HO'. pose proof (tl_bounds _ _ _ _ _ _ _ _ TL c (rs_in _ _ _ _ _ _ _ _ _ _ _ _ _ _ _ _ _ _ _ RS)) as BD.
  pose proof (range_sstep ops a tag eps lower upper at_y sort_by SP TAG ORI s before c evs l t R O t' R' O' RS UG) as SS. fold N D Lc Rc y in SS. set (N' := length (t_wind t')) in *.
  assert (CS : cur s before (st c) O = Lc ++ M ++ Rc) by (eapply cur_start; eassumption).
  assert (CE : cur s before (en c) O' = Lc ++ D ++ Rc) by exact (cur_end ops a tag eps lower upper at_y sort_by TAG ORI s before c evs l t R O t' R' O' RS).
  assert (RE : rest before (en c) O' = Rc). { unfold rest, Rc, partR. apply map_ext_in. intros i Hi. unfold val. rewrite (right_same ops a tag eps lower upper at_y sort_by TAG ORI s before c evs l t R O t' R' O' RS i Hi). reflexivity. }
  assert (RS0 : rest before (st c) O = M ++ Rc). { unfold rest, M, Rc, partM, partR. rewrite (skipn_piece before (st c) (en c)), old_segs_app, map_app by lia. reflexivity. }
  assert (NJ : ~ just s k (st c)). { intros (k0 & c0 & -> & H0 & E0). assert (Z : en c0 < st c). { refine (sorted_nth _ _ (tl_apart _ _ _ _ _ _ _ _ TL) k0 (S k0) c0 c _ H0 Hk). lia. } lia. }
  destruct (NOW NJ) as [NOW1 NOW2].
  assert (ALLW : forall o, In o (M ++ Rc) -> fresh y (Wl o)). { intros o Ho. rewrite <- RS0 in Ho. destruct (rest before (st c) O) as [|z r] eqn:Q; [destruct Ho|]. destruct Ho as [<-|Ho]; [apply NOW1; reflexivity|apply FW, Ho]. }
  assert (ALLE : forall o, In o (M ++ Rc) -> fresh y (El o)) by (intros o Ho; apply FE; rewrite RS0; exact Ho).
  assert (FO : forall o, o < N -> fl' o = fl o) by (intros o L; unfold fl', grow_fl; destruct (Nat.ltb_spec o N); [reflexivity|lia]).
  assert (FN : forall o, N <= o < N' -> fl' o = false <-> In o D).
  { intros o L. unfold fl', grow_fl. destruct (Nat.ltb_spec o N); [lia|]. rewrite negb_false_iff, existsb_exists. split; [intros (x & Hx & E); apply Nat.eqb_eq in E; congruence|intros HD; exists o; split; [exact HD|apply Nat.eqb_refl]]. }
  rewrite CS in ND. assert (AD' : forall h, fle y h = true -> adjacent Wl El (Lc ++ M ++ Rc) h) by (intros h Hh; rewrite <- CS; apply AD, Hh).
  assert (FWh : forall o, hd_error Rc = Some o -> fresh y (Wl o)) by (intros o Ho; apply ALLW, in_or_app; right; apply hd_in, Ho).
  assert (FEl : forall o, lastof Lc = Some o -> fresh y (El o)) by exact NOW2.
  assert (ND' : NoDup (Lc ++ D ++ Rc)) by exact (next_nodup y Lc M D Rc t t' fl fl' SS FO FN BW BE BA ND Wl El TW TE AD' FWh FEl).
  assert (TOPN : forall o, o < N -> nan (top_y t o) = false /\ (key (top_y t o) <= key y)%Z).
  { intros o L. destruct (firstv t R _ _ _ o I L) as (x & Hx & ->). apply vertex_in in Hx. split; [|apply PTS, Hx]. pose proof (en_num _ _ _ _ _ _ _ EN) as EE. rewrite Forall_forall in EE. apply EE, Hx. }
  pose proof (ss_len _ _ _ _ _ _ SS) as LEL.
  destruct (rs_points ops a tag eps lower upper at_y sort_by _ _ _ _ _ _ _ _ _ _ _ RS) as (EP & _ & EO & _).
  pose proof (fun h x => vertex_cases ops a tag eps lower upper at_y sort_by TAG ORI s before c evs l t R O t' R' O' h x RS) as RSV.
  assert (STAY : forall h x, at_vertex t R h x -> at_vertex t' R' h x) by (intros h x; eapply vertex_stays; eassumption).
  pose proof (next_rows y Lc M D Rc t t' fl fl' SS FO FN BW BE BA Wl El TW TE AD' FWh FEl) as NROWS.
  exists (next_w y Lc D Rc t t' fl' Wl), (next_e y Lc D Rc t t' fl' El), fl'. constructor; fold y N'.
  - exact NUM.
  - exact LEN.
  - exact (ends_range ops a tag eps lower upper at_y sort_by SP TAG ORI s before c evs l t R O t' R' O' RS EN).
  - rewrite CE. exact ND'.
  - intros p Hp. rewrite EP in Hp. apply in_app_iff in Hp. destruct Hp as [Hp|Hp]; [apply PTS, Hp|]. apply in_map_iff in Hp. destruct Hp as (v & <- & _). cbn. fold y. lia.
  - intros p Hp. rewrite EP in Hp. apply in_app_iff in Hp. destruct Hp as [Hp|Hp]; [apply HTS, Hp|]. apply in_map_iff in Hp. destruct Hp as (v & <- & _). exists s. split; [apply in_or_app; right; left; reflexivity|reflexivity].
  - intros o w L E. destruct (Nat.lt_ge_cases o N) as [Q|Q]; [rewrite (ss_west_old _ _ _ _ _ _ SS o Q) in E; eapply BW; eassumption|]. eapply (ss_west_new _ _ _ _ _ _ SS); [split; [exact Q|exact L]|exact E].
  - intros o w L E. destruct (Nat.lt_ge_cases o N) as [Q|Q]; [rewrite (ss_east_old _ _ _ _ _ _ SS o Q) in E; eapply BE; eassumption|].
    assert (w < N); [|lia]. eapply (east_range y Lc D Rc t t'); [exact SS|exact E|split; assumption].
  - intros z w e H. rewrite (ss_after _ _ _ _ _ _ SS) in H. apply in_app_iff in H. destruct H as [H|H].
    + destruct (BA z w e H) as [B1 B2]. split; intros o E; [specialize (B1 o E)|specialize (B2 o E)]; lia.
    + assert (X : w = lastof Lc /\ e = hd_error Rc). { destruct D; [|destruct H]. destruct (lastof Lc), (hd_error Rc); cbn in H; try contradiction; destruct H as [H|[]]; injection H as <- <- <-; auto. }
      destruct X as [-> ->]. split; intros o E; [apply lastof_in in E|apply hd_in in E]; assert (o < N) by (apply (ss_old _ _ _ _ _ _ SS); auto); lia.
  - intros i j Lij Lj. destruct (Nat.lt_ge_cases j N) as [Q|Q].
    + rewrite !(ss_top_old _ _ _ _ _ _ SS) by lia. apply MO; assumption.
    + rewrite (ss_top_new _ _ _ _ _ _ SS j) by (split; assumption). destruct (Nat.lt_ge_cases i N) as [Qi|Qi]; [rewrite (ss_top_old _ _ _ _ _ _ SS i Qi); apply TOPN, Qi|]. rewrite (ss_top_new _ _ _ _ _ _ SS i); [lia|]. fold N N'. lia.
  - exact (next_w_ok y Lc M D Rc t t' fl fl' NUM SS FO FN BW BE BA Wl El TW TE AD' FWh FEl).
  - exact (next_e_ok y Lc M D Rc t t' fl fl' NUM SS FO FN BW BE BA Wl El TW TE AD' FWh FEl).
  - intros h Hh. rewrite CE. exact (next_adjacent y Lc M D Rc t t' fl fl' SS FO FN BW BE BA ND Wl El TW TE AD' FWh FEl h Hh).
  - intros o Ho. rewrite RE in Ho. apply (next_fresh_e y Lc M D Rc t t' fl fl' SS FO FN BW BE BA ND Wl El TW TE AD' FWh FEl o Ho). apply ALLE, in_or_app. right. exact Ho.
  - intros o Ho. rewrite RE in Ho. apply (next_fresh_w y Lc M D Rc t t' fl fl' SS FO FN BW BE BA ND Wl El TW TE AD' FWh FEl o Ho). apply ALLW, in_or_app. right. destruct Rc; [destruct Ho|right; exact Ho].
  - intros X. exfalso. apply X. exists k, c. auto.
  - intros o Ho. rewrite CE in Ho. rewrite !in_app_iff in Ho. assert (OLD : In o Lc \/ In o Rc -> fl' o = false).
    { intros X. rewrite FO by (apply (ss_old _ _ _ _ _ _ SS), X). apply CFL. rewrite CS, !in_app_iff. tauto. }
    destruct Ho as [Ho|[Ho|Ho]]; [auto| |auto]. apply FN; [apply (ss_D _ _ _ _ _ _ SS), Ho|exact Ho].
  - intros o L E. destruct (Nat.lt_ge_cases o N) as [Q|Q].
    + rewrite FO in E by exact Q. destruct (FLT o Q E) as (x & x' & H1 & H2 & H3). exists x, x'. auto.
    + assert (NC : ~ In o (cur s before (en c) O')).
      { rewrite CE, !in_app_iff. intros X. assert (In o D). { destruct X as [X|[X|X]]; [|exact X|]; exfalso; assert (o < N) by (apply (ss_old _ _ _ _ _ _ SS); auto); lia. } apply FN in H; [congruence|]. split; assumption. }
      apply (second_closed s before (en c) t' R' O' o I' HO' L) in NC. destruct NC as [x' Hx']. destruct (firstv t' R' _ _ _ o I' L) as (x & Hx & _). exists x, x'. split; [exact Hx|]. split; [exact Hx'|].
      apply RSV in Hx. apply RSV in Hx'. destruct Hx as [[_ Z]|(l0 & v & l1 & _ & _ & ->)]; [cbn in Z; fold N in Z; lia|]. destruct Hx' as [[_ Z]|(m0 & u & m1 & _ & _ & ->)]; [cbn in Z; fold N in Z; lia|]. reflexivity.
  - intros o L E. destruct (Nat.lt_ge_cases o N) as [Q|Q].
    + rewrite FO in E by exact Q. destruct (SLA o Q E) as [H|(x & x' & H1 & H2 & H3)]; [|right; exists x, x'; auto].
      destruct (in_dec Nat.eq_dec o (cur s before (en c) O')) as [X|X]; [auto|right]. apply (second_closed s before (en c) t' R' O' o I' HO' L) in X as X2. destruct X2 as [x' Hx'].
      destruct (firstv t R _ _ _ o I Q) as (x & Hx & _). exists x, x'. split; [apply STAY, Hx|]. split; [exact Hx'|].
      assert (X3 : In o M). { rewrite CS, !in_app_iff in H. rewrite CE, !in_app_iff in X. tauto. } unfold M, partM in X3. apply in_map_iff in X3. destruct X3 as (i & <- & Hi).
      assert (OI : O i = Some (val O i)). { apply some_val, HO. erewrite mixed_start; [|exact TL|apply RS]. rewrite !in_app_iff. auto. }
      destruct (en_open _ _ _ _ _ _ _ EN i (val O i) x OI Hx) as [_ B]. specialize (B ltac:(rewrite (skipn_piece before (st c) (en c)), old_segs_app by lia; apply in_or_app; left; exact Hi)).
      apply RSV in Hx'. destruct Hx' as [[Hx' _]|(m0 & u & m1 & _ & _ & ->)]; [|exact B]. exfalso.
      apply (proj1 (second_closed s before (st c) t R O (val O i) I HO Q)); [eauto|]. exact H.
    + left. rewrite CE, !in_app_iff. right. left. apply FN; [split; assumption|exact E].
  - intros o e L He. apply NROWS in He; [|exact L]. destruct He as [[Q He]|[-> He]]; [rewrite (ss_top_old _ _ _ _ _ _ SS) by exact Q; apply LOW; assumption|].
    destruct (Nat.lt_ge_cases o N) as [Q|Q]; [rewrite (ss_top_old _ _ _ _ _ _ SS) by exact Q; apply TOPN, Q|]. rewrite (ss_top_new _ _ _ _ _ _ SS) by (split; assumption). lia.
  - intros o x e L Hx He. assert (NC : ~ In o (Lc ++ D ++ Rc)) by (rewrite <- CE; apply (second_closed s before (en c) t' R' O' o I' HO' L); eauto).
    apply NROWS in He; [|exact L]. destruct He as [[Q He]|[_ He]]; [|exfalso; apply NC; rewrite !in_app_iff; destruct He as [He|[He|He]]; [auto|right; right; apply hd_in, He|left; apply lastof_in, He]].
    apply RSV in Hx as Hx2. destruct Hx2 as [[Hx2 _]|(m0 & u & m1 & _ & _ & ->)]; [eapply HIGH; eassumption|]. cbn [py]. fold y.
    destruct (in_dec Nat.eq_dec o M) as [X|X].
    + assert (F : fresh y (Wl o) /\ fresh y (El o)) by (split; [apply ALLW|apply ALLE]; apply in_or_app; left; exact X). unfold fresh in F. rewrite !Forall_forall in F. destruct F as [F1 F2]. destruct He as [He|He]; [apply F1, He|apply F2, He].
    + assert (NC0 : ~ In o (cur s before (st c) O)) by (rewrite CS, !in_app_iff; rewrite !in_app_iff in NC; tauto). apply (second_closed s before (st c) t R O o I HO Q) in NC0. destruct NC0 as [x0 Hx0].
      pose proof (vertex_point a t' R' _ _ _ _ _ I' (STAY _ _ Hx0)) as E0. assert (Y : py x0 = y); [|rewrite <- Y; eapply HIGH; eassumption].
      assert (LV : at_vertex t' R' (second_half o) (mkPoint y (vw_x u))). { unfold y. assumption. } pose proof (vertex_point a t' R' _ _ _ _ _ I' LV) as E1. rewrite E0 in E1. injection E1 as ->. reflexivity.
  - intros n s1 s2 H1 H2. destruct (SNP n s1 s2 H1 H2) as (K & outs & A1 & (A0 & A2) & A3 & A4). fold N in A2, A4. split; [exact K|]. exists outs. split; [|split; [|split]].
    + clear - A1 EO. induction A1 as [|o i l1 l2 Q A1 IH]; constructor; [|exact IH]. rewrite EO, nth_error_app1; [exact Q|]. apply nth_error_Some. congruence.
    + split; [exact A0|]. intros o Ho. specialize (A2 o Ho). fold N'. lia.
    + intros h Q1 Q2 P o Q E. assert (LO : o < N) by (apply A2; rewrite E; apply in_or_app; right; left; reflexivity). assert (HY : flt h y = true) by (destruct (flt_nonnan _ _ Q2) as [X1 X2]; fk; zb; lia).
      destruct (A3 h Q1 Q2 P o Q E) as [Z1 Z2]. split; [rewrite (next_w_above y Lc M D Rc t t' fl fl' NUM FO FN BW BE BA Wl El TW TE AD' FWh FEl) by assumption; exact Z1|rewrite (next_e_above y Lc M D Rc t t' fl fl' NUM FO FN BW BE BA Wl El TW TE AD' FWh FEl) by assumption; exact Z2].
    + intros o L. destruct (Nat.lt_ge_cases o N) as [Q|Q].
      * rewrite FO, (ss_top_old _ _ _ _ _ _ SS), (A4 o Q) by exact Q. split; intros (B1 & B2 & B3); split; [exact B1| |exact B1|]; split; [exact B2| |exact B2|]; intros x Hx.
        -- apply RSV in Hx. destruct Hx as [[Hx _]|(l0 & v & l1 & _ & _ & ->)]; [apply B3, Hx|]. cbn [py]. fold y. lia.
        -- apply B3, STAY, Hx.
      * split; [intros Ho; specialize (A2 o Ho); lia|]. intros (_ & B & _). rewrite (ss_top_new _ _ _ _ _ _ SS) in B by (split; assumption). lia.
Qed.

Lemma SI_line DN s before s' before' k t R O Wl El fl : tline s' before' -> old_segs before' = new_segs (sw_line s) -> (key (sw_y s) < key (sw_y s'))%Z ->
  TI t R none O none -> (forall i, O i <> None <-> In i (new_segs (sw_line s))) ->
  SI DN s before k (length (sw_line s)) t R O Wl El fl -> SI (DN ++ [s]) s' before' 0 0 t R O Wl El fl.
Proof.
  intros TL EB K I HO [NUM LEN EN ND PTS HTS BW BE BA MO TW TE AD FE FW NOW CFL FLT SLA LOW HIGH SNP].
  pose proof (tl_y _ _ _ _ _ _ _ _ TL) as NUM'.
  assert (CO : cur s before (length (sw_line s)) O = map (val O) (new_segs (sw_line s))). { unfold cur, mixed. rewrite firstn_all, skipn_all2 by lia. cbn. rewrite app_nil_r. reflexivity. }
  assert (CN : cur s' before' 0 O = map (val O) (new_segs (sw_line s))). { unfold cur, mixed. cbn [firstn skipn]. rewrite EB. reflexivity. }
  assert (RN : rest before' 0 O = map (val O) (new_segs (sw_line s))). { unfold rest. cbn [skipn]. rewrite EB. reflexivity. }
  assert (HM : forall i, O i <> None <-> In i (mixed (sw_line s) before (length (sw_line s)))). { intros i. rewrite HO. unfold mixed. rewrite firstn_all, skipn_all2 by lia. cbn. rewrite app_nil_r. reflexivity. }
  assert (OWN : forall o, In o (cur s before (length (sw_line s)) O) -> o < length (t_wind t)). { intros o Ho. apply (open_cur _ _ _ t R O o I HM) in Ho. destruct Ho as (i & E). eapply LI_own_lt; [apply I|eauto]. }
  rewrite CO in *. set (outs := map (val O) (new_segs (sw_line s))) in *.
  assert (UPW : forall raw l, table_ok (sw_y s) raw l -> table_ok (sw_y s') raw l /\ fresh (sw_y s') l).
  { intros raw l (X1 & X2 & X3 & X4). split; [repeat split; try assumption; eapply Forall_impl; [|exact X4]; cbv beta; intros e He; lia|eapply fresh_le; eassumption]. }
  assert (FRW : forall o, In o outs -> fresh (sw_y s') (Wl o)) by (intros o Ho; eapply UPW, TW, OWN, Ho). assert (FRE : forall o, In o outs -> fresh (sw_y s') (El o)) by (intros o Ho; eapply UPW, TE, OWN, Ho).
  assert (PTS' : forall p, In p (t_points t) -> (key (py p) <= key (sw_y s'))%Z) by (intros p Hp; specialize (PTS p Hp); lia).
  constructor; try assumption.
  - eapply tl_len; exact TL.
  - eapply ends_line; eassumption.
  - rewrite CN. exact ND.
  - intros p Hp. destruct (HTS p Hp) as (s1 & H1 & E1). exists s1. split; [apply in_or_app; left; exact H1|exact E1].
  - intros o L. apply UPW, TW, L.
  - intros o L. apply UPW, TE, L.
  - intros h Hh. rewrite CN. apply AD. destruct (fle_nonnan _ _ Hh) as [_ Nh]. fk. zb. lia.
  - intros o Ho. rewrite RN in Ho. apply FRE, Ho.
  - intros o Ho. rewrite RN in Ho. apply FRW. destruct outs; [destruct Ho|right; exact Ho].
  - intros _. split; [intros o Ho; rewrite RN in Ho; apply FRW, hd_in, Ho|]. unfold front. cbn. discriminate.
  - rewrite CN. exact CFL.
  - rewrite CN. exact SLA.
  - intros n s1 s2 H1 H2. destruct (Nat.lt_ge_cases n (length DN)) as [Q|Q].
    + rewrite nth_error_app1 in H1 by exact Q. rewrite nth_error_app1 in H2 by (rewrite app_length; cbn; lia). destruct (SNP n s1 s2 H1 H2) as (K2 & X). split; [lia|exact X].
    + assert (n = length DN) by (assert (n < length (DN ++ [s])) by (apply nth_error_Some; congruence); rewrite app_length in *; cbn in *; lia). subst n. rewrite nth_error_app2, Nat.sub_diag in H1 by lia. injection H1 as <-.
      rewrite nth_error_app2 in H2 by (rewrite app_length; cbn; lia). rewrite app_length in H2. cbn [length] in H2. replace (S (length DN) - (length DN + 1)) with 0 in H2 by lia. injection H2 as <-.
      split; [lia|]. exists outs. split; [|split; [|split]].
      * unfold outs. assert (X : forall i, In i (new_segs (sw_line s)) -> nth_error (t_orig t) (val O i) = Some i). { intros i Hi. apply HO, some_val in Hi. apply (li_own _ _ _ _ _ (proj1 I)). auto. }
        clear - X. induction (new_segs (sw_line s)) as [|i l IH]; constructor; [apply X; left; reflexivity|]. apply IH. intros j Hj. apply X. right. exact Hj.
      * split; [exact ND|exact OWN].
      * intros h H1 _. apply AD, H1.
      * intros o L. destruct (firstv t R _ _ _ o I L) as (x & Hx & ET). split.
        -- intros Ho. split; [apply CFL, Ho|]. split; [rewrite ET; eapply PTS, vertex_in, Hx|]. intros z Hz. exfalso. apply (proj1 (second_closed s before (length (sw_line s)) t R O o I HM L)); [eauto|]. rewrite CO. exact Ho.
        -- intros (B1 & _ & B3). destruct (SLA o L B1) as [Ho|(u & v & _ & Hv & _)]; [exact Ho|]. specialize (B3 v Hv). apply vertex_in, PTS in Hv. lia.
Qed.

Lemma SI_start : SI [] start_line [] 0 0 (topo_new (W := W) (arena_len a)) [] none (fun _ => []) (fun _ => []) (fun _ => false).
Proof.
  assert (N0 : forall o, ~ o < length (t_wind (topo_new (W := W) (arena_len a)))) by (intros o H; inversion H).
  constructor; try (intros; exfalso; eapply N0; eassumption).
  - reflexivity.
  - reflexivity.
  - constructor.
    + constructor.
    + intros o x y (p & r & H & _). destruct p; discriminate H.
    + intros i o x H. discriminate H.
    + intros h x i (p & r & H & _). destruct p; discriminate H.
  - constructor.
  - intros p [].
  - intros p [].
  - intros y w e [].
  - intros h _ A o B E. destruct A; discriminate E.
  - intros o [].
  - intros o [].
  - intros _. split; intros o E; discriminate E.
  - intros o [].
  - intros n s1 s2 H1 H2. destruct n; discriminate H1.
Qed.
End Inv.
