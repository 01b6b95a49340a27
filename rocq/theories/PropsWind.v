(** Property theorems about winding numbers: C32. *)
From Coq Require Import List Bool ZArith Arith Lia Permutation Sorted.
From Verif Require Import F64 F64Arith TreeVecModel GeomModel SegmentsModel SegmentsSpec SegmentsProofs CurveOrderModel CurveOrderProofs SweepModel SweepSpec
  SweepProofs2 SweepProofs8 SweepProofs10 RangeModel RangeSpec RangeProofs3 RangeProofs4 RangeProofs5 PropsSweep PropsRange TopoModel TopoSpec TopoProofs TopoProofs2 TopoProofs3 TopoProofs4
  TopoProofs5 TopoProofs6 TopoProofs7 TopoProofs8 TopoProofs9 TopoProofs10 PropsTopo WindSpec WindProofs WindProofs2 WindProofs3 WindProofs4 WindProofs5.
Import ListNotations.

Lemma cyclic_fst {A} (r : list A) h : In h r -> exists k, In (h, k) (cyclic r).
Proof.
  intros H. apply In_nth_error in H. destruct H as [n H]. assert (L : n < length r) by (apply nth_error_Some; congruence).
  assert (LC : length (tl r ++ firstn 1 r) = length r) by (rewrite app_length, firstn_length; destruct r; cbn in *; lia).
  destruct (nth_error (tl r ++ firstn 1 r) n) as [k|] eqn:E; [|apply nth_error_None in E; lia].
  exists k. apply (nth_error_In (cyclic r) n). unfold cyclic. rewrite SegmentsProofs.combine_nth_error, H, E. reflexivity.
Qed.
Lemma rings_agree {W} (t : topo W) live R : rings t live R -> Forall (fun r => Forall (agree t) (cyclic r)) R -> forall h, live h -> winding_agrees t h.
Proof.
  intros RI AG h L. apply (ri_all _ _ _ RI) in L. apply in_concat in L. destruct L as (r & Hr & Hh). destruct (cyclic_fst r h Hh) as [k Hk].
  rewrite Forall_forall in AG. specialize (AG r Hr). rewrite Forall_forall in AG. destruct (AG _ Hk) as (w & W1 & W2).
  apply In_nth_error in Hr. destruct Hr as [p Hr]. pose proof (ri_linked _ _ _ RI p r Hr) as LK. rewrite Forall_forall in LK. destruct (LK _ Hk) as [C _]. exists k, w. cbn in *. auto.
Qed.

(** ** C54 *)
(** If the contours are closed, none of its ranges contains just one of the two segments that meet at a
    corner at its height. *)
Theorem corners_stay_together : forall (T : Type) (tag : list T) a eps cmp ccmp min_x max_x lower upper at_y pps sort_by l,
  topo_input tag a eps cmp ccmp min_x max_x lower upper at_y pps sort_by l -> closed_contours a tag ->
  forall s c, In s l -> In c (sw_changed s) -> corners_together a s c.
Proof.
  intros T tag a eps cmp ccmp min_x max_x lower upper at_y pps sort_by l IN CC s c Hs Hc. destruct IN as [SET PS TAG ORI (f & n & RUN) BOX].
  destruct (line_post a eps cmp ccmp min_x max_x lower upper pps sort_by SET _ _ _ _ s RUN Hs) as (P & p & TT).
  destruct (step_reach _ _ _ _ _ _ _ _ _ P TT) as [R1 R2].
  apply In_nth_error in Hs. destruct Hs as [t Ht]. destruct (nth_error (sweeper_new a :: l) t) as [s0|] eqn:E0; [|apply nth_error_None in E0; assert (t < length l) by (apply nth_error_Some; congruence); cbn in E0; lia].
  assert (Hs : In s l) by (eapply nth_error_In, Ht).
  destruct (tline_of a eps lower upper at_y sort_by cmp ccmp min_x max_x pps SET PS f n l true RUN t s0 s E0 Ht (BOX s Hs)) as (before & TL & _).
  eapply (corners tag a eps lower upper at_y sort_by (ss_arena _ _ _ _ _ SET) CC s before TL); try eassumption; [|apply BOX, Hs].
  eapply changed_intervals_closed; eassumption.
Qed.

(** ** C32 *)
(** If the contours are closed, then around every point the winding numbers of consecutive half-segments agree, and crossing an output segment changes the winding
    number by one unit of its tag with the sign of its direction. *)
Theorem winding_consistent : forall (W T : Type) (ops : wops W T) tag a eps cmp ccmp min_x max_x lower upper at_y pps sort_by l,
  wops_ok ops -> topo_input tag a eps cmp ccmp min_x max_x lower upper at_y pps sort_by l -> closed_contours a tag ->
  forall fuel buf, 2 * arena_len a < fuel ->
  exists t R, process_lines ops a tag sort_by eps lower upper at_y fuel l buf (topo_new (arena_len a)) = Ok t /\
    rings t (fun h => h_idx h < length (t_wind t)) R /\
    (forall h, h_idx h < length (t_wind t) -> winding_agrees t h) /\
    (forall o, o < length (t_wind t) -> winding_steps ops tag t o).
Proof.
  intros W T ops tag a eps cmp ccmp min_x max_x lower upper at_y pps sort_by l OK IN CC fuel buf F.
  pose proof (ss_arena _ _ _ _ _ (ti_setting _ _ _ _ _ _ _ _ _ _ _ _ _ IN)) as SP. pose proof (ti_tags _ _ _ _ _ _ _ _ _ _ _ _ _ IN) as TAG. pose proof (ti_orient _ _ _ _ _ _ _ _ _ _ _ _ _ IN) as ORI.
  destruct (run_rule ops tag a eps cmp ccmp min_x max_x lower upper at_y pps sort_by l IN (winv ops tag a)
    (fun s => forall c, In c (sw_changed s) -> corners_together a s c) fuel buf)
    as (t & R & O & s & before & E & [LI0 RI] & HO & EN).
  - intros s Hs c Hc. eapply corners_stay_together; eassumption.
  - intros s before p q t R O _ TL L _ G H. eapply winv_gap; eassumption.
  - intros s before c evs vs t R O t' R' O' G RS H. pose proof (G c (rs_in _ _ _ _ _ _ _ _ _ _ _ _ _ _ _ _ _ _ _ RS)) as G3. eapply winv_range; eassumption.
  - intros s before s' before' t R O _ TL E _ _ _ H. eapply winv_line; eassumption.
  - eapply winv_start; eassumption.
  - exact F.
  - assert (NO : forall o, ~ opened none O none o) by (intros o (i & [H|[H|H]]); [discriminate|rewrite HO in H; discriminate|discriminate]).
    assert (RI' : rings t (fun h => h_idx h < length (t_wind t)) R).
    { eapply rings_live; [|exact RI]. intros h. unfold placed_half. split; [tauto|]. intros L. split; [exact L|]. right. apply NO. }
    exists t, R. split; [exact E|]. split; [exact RI'|]. split; [|exact (wv_steps _ _ _ _ _ _ _ _ _ EN)].
    intros h. apply (rings_agree t _ R RI' (wv_rings _ _ _ _ _ _ _ _ _ EN)).
Qed.

(** ** Non-vacuity *)
From Verif Require Import SegmentsProofs4 SweepCheck SweepReach PropsSegments PropsBinOp PolyExample.
Section Check.
Variable a : arena.
Definition ids : list nat := map snd (enter a).
Definition mem (i : nat) (l : list nat) : bool := existsb (Nat.eqb i) l.
Lemma mem_in i l : mem i l = true <-> In i l.
Proof. unfold mem. rewrite existsb_exists. split; [intros (x & H & E); apply Nat.eqb_eq in E; subst; exact H|]. intros H. exists i. split; [exact H|apply Nat.eqb_refl]. Qed.
Definition link_b (l : list (option nat)) (i j : nat) : bool := match nth_error l i with Some (Some k) => k =? j | _ => false end.
Lemma link_ok l i j : link_b l i j = true <-> nth_error l i = Some (Some j).
Proof. unfold link_b. destruct (nth_error l i) as [[k|]|]; try (split; intros; discriminate). rewrite Nat.eqb_eq. split; [intros ->; reflexivity|congruence]. Qed.
Definition follows_b (i j : nat) : bool := link_b (contour_next a) i j && link_b (contour_prev a) j i && point_eq (seg_head a i) (seg_tail a j).
Lemma follows_ok i j : follows_b i j = true <-> follows a i j.
Proof. unfold follows_b, follows. rewrite !andb_true_iff, !link_ok. tauto. Qed.
(** All segments have one tag. *)
Definition closed_b : bool := forallb (fun i => (i <? arena_len a) && existsb (fun j => follows_b i j) ids && existsb (fun j => follows_b j i) ids) ids.
Lemma closed_ok : closed_b = true -> closed_contours a (repeat tt (arena_len a)).
Proof.
  intros H. unfold closed_b in H. rewrite forallb_forall in H.
  assert (L : forall i, registered a i -> nth_error (repeat tt (arena_len a)) i = Some tt) by (intros i Hi; apply nth_error_repeat; apply H in Hi; rewrite !andb_true_iff in Hi; apply Nat.ltb_lt; tauto).
  constructor; intros i Hi; pose proof Hi as X; apply H in X; rewrite !andb_true_iff, !existsb_exists in X; destruct X as ((_ & (j & J1 & J2)) & (k & K1 & K2)).
  - exists j. split; [exact J1|]. split; [apply follows_ok, J2|]. rewrite !L; auto.
  - exists k. split; [exact K1|]. split; [apply follows_ok, K2|]. rewrite !L; auto.
Qed.
Definition corners_b (s : sweeper) (c : cinterval) : bool :=
  forallb (fun i => forallb (fun j => negb (follows_b i j) || negb (feq (py (seg_head a i)) (sw_y s)) || Bool.eqb (mem i (range_members s c)) (mem j (range_members s c))) ids) ids.
Lemma corners_ok s c : corners_b s c = true -> corners_together a s c.
Proof.
  intros H i j Hi Hj FO E. unfold corners_b in H. rewrite forallb_forall in H. specialize (H i Hi). rewrite forallb_forall in H. specialize (H j Hj).
  apply follows_ok in FO. rewrite FO, E in H. cbn in H. apply eqb_prop in H. rewrite <- !mem_in, H. reflexivity.
Qed.
Variable eps : f64.
Variables lower upper : segment -> f64 -> f64 -> f64.
Definition weak_b (s : sweeper) (c : cinterval) : bool :=
  let l := sw_line s in let r := seq (fst (ci_segs c)) (snd (ci_segs c) - fst (ci_segs c)) in
  forallb (fun i => forallb (fun j => match nth_error l i, nth_error l j with
    | Some e, Some f =>
      (negb (origin i e <? origin j f) || fle (band_lo a eps lower (sw_y s) (le_old e)) (band_hi a eps upper (sw_y s) (le_old f))) &&
      (negb (i <? j) || fle (band_lo a eps lower (sw_y s) (le_seg e)) (band_hi a eps upper (sw_y s) (le_seg f)))
    | _, _ => true end) r) r.
Lemma weak_ok s c : weak_b s c = true -> old_weakly_ordered a eps lower upper s c /\ new_weakly_ordered a eps lower upper s c.
Proof.
  intros H. unfold weak_b in H. rewrite forallb_forall in H. split; intros i j e f [I1 I2] [J1 J2] Hi Hj L.
  - specialize (H i ltac:(apply in_seq; lia)). rewrite forallb_forall in H. specialize (H j ltac:(apply in_seq; lia)). rewrite Hi, Hj, andb_true_iff in H.
    destruct H as [H _]. apply Nat.ltb_lt in L. rewrite L in H. exact H.
  - specialize (H i ltac:(apply in_seq; lia)). rewrite forallb_forall in H. specialize (H j ltac:(apply in_seq; lia)). rewrite Hi, Hj, andb_true_iff in H.
    destruct H as [_ H]. apply Nat.ltb_lt in L. rewrite L in H. exact H.
Qed.
End Check.

Example bowtie_winding : exists l, po_sweep bowtie 100 100 = Ok (l, true) /\
  topo_input (po_tags bowtie) (po_arena bowtie) po_eps (po_cmp po_eps (po_arena bowtie)) (po_cmp po_eps (po_arena bowtie)) ex_min ex_max po_lo po_hi po_aty ex_pps (@isort) l /\
  wops_ok i32_wops /\ closed_contours (po_arena bowtie) (po_tags bowtie).
Proof.
  destruct bowtie_input as (l & E & IN). exists l. split; [exact E|]. split; [exact IN|]. split; [exact unary_Z_ok|]. apply closed_ok. vm_compute. reflexivity.
Qed.
(** The ranges of the bow tie are weakly ordered, as the second half of C27 asks. *)
Example bowtie_weak : exists l, po_sweep bowtie 100 100 = Ok (l, true) /\
  forall s c, In s l -> In c (sw_changed s) -> old_weakly_ordered (po_arena bowtie) po_eps po_lo po_hi s c /\ new_weakly_ordered (po_arena bowtie) po_eps po_lo po_hi s c.
Proof.
  destruct bowtie_input as (l & E & IN). exists l. split; [exact E|].
  assert (X : match po_sweep bowtie 100 100 with Ok (l, _) => forallb (fun s => forallb (fun c => weak_b (po_arena bowtie) po_eps po_lo po_hi s c) (sw_changed s)) l | Err _ => false end = true) by (vm_compute; reflexivity).
  rewrite E in X. rewrite forallb_forall in X. intros s c Hs Hc. specialize (X s Hs). rewrite forallb_forall in X. specialize (X c Hc).
  apply weak_ok, X.
Qed.
Example bowtie_numbers : match po_topo bowtie 100 100 with
  | Ok t => (length (t_points t), t_orig t, t_pos t, map (fun w => (wn_cw w, wn_ccw w)) (t_wind t)) =
            (9, [3; 0; 6; 4; 7; 9; 2; 5; 8; 1], [false; true; false; true; true; false; false; true; true; true],
             [(0, -1); (-1, 0); (-1, -2); (-2, -1); (-1, 0); (0, -1); (0, -1); (-2, -1); (-1, 0); (-1, 0)]%Z)
  | Err _ => False end.
Proof. vm_compute. reflexivity. Qed.
Print Assumptions corners_stay_together.
Print Assumptions winding_consistent.
