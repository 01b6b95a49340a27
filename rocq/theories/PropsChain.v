(** Property theorem: contours stay connected (C87). *)
From Coq Require Import List Bool ZArith Arith Lia Permutation Sorted.
From Verif Require Import F64 F64Arith TreeVecModel GeomModel SegmentsModel SegmentsSpec SegmentsProofs SegmentsProofs4 CurveOrderModel CurveOrderProofs SweepModel SweepSpec SweepCheck
  SweepProofs2 SweepProofs8 SweepProofs10 RangeModel RangeSpec RangeProofs3 RangeProofs4 RangeProofs5 PropsSweep PropsRange TopoModel TopoSpec TopoProofs TopoProofs2 TopoProofs3 TopoProofs4 TopoProofs5 TopoProofs6 TopoProofs7
  TopoProofs8 TopoProofs9 WindSpec WindProofs3 WindProofs5 PropsWind CallbackProofs2 ScanProofs2 PropsSegments PropsBinOp PolyExample ChainSpec ChainProofs ChainProofs2.
Import ListNotations.

Lemma trail_way {W} (t : topo W) live R p hs q : rings t live R -> trail R p hs q -> way t p hs q.
Proof.
  intros RI. induction 1 as [p|p h r hs q (r1 & H1 & H2) (r2 & H3 & H4) TR IH]; [constructor|]. apply (way_step t p h r hs q); [apply (ri_at _ _ _ RI p r1 h H1 H2)|apply (ri_at _ _ _ RI r r2 _ H3 H4)|exact IH].
Qed.
Lemma choose {A} (d : A) (P : nat -> A -> Prop) (l : list nat) : (forall i, In i l -> exists x, P i x) -> exists f, forall i, In i l -> P i (f i).
Proof.
  induction l as [|n l IH]; intros H; [exists (fun _ => d); intros i []|]. destruct IH as (f & F); [intros i Hi; apply H; right; exact Hi|]. destruct (H n (or_introl eq_refl)) as (x & X).
  exists (fun i => if i =? n then x else f i). intros i Hi. destruct (Nat.eqb_spec i n) as [->|D]; [exact X|]. destruct Hi as [E|Hi]; [congruence|]. apply F, Hi.
Qed.
Lemma ss_unique {A} (f : A -> Z) l x y : StronglySorted (fun s s' => (f s < f s')%Z) l -> In x l -> In y l -> f x = f y -> x = y.
Proof.
  induction 1 as [|z l S IH F]; [intros []|]. intros [<-|Hx] [<-|Hy] E; try reflexivity; rewrite Forall_forall in F; [specialize (F y Hy); lia|specialize (F x Hx); lia|apply IH; assumption].
Qed.

Section Run.
Context {W T : Type}.
Variable ops : wops W T.
Variables (tag : list T) (a : arena) (eps : f64) (cmp ccmp : nat -> nat -> curve_order) (min_x max_x : segment -> f64)
  (lower upper : segment -> f64 -> f64 -> f64) (at_y : segment -> f64 -> f64)
  (pps : nat -> ((lentry -> bool) -> list lentry -> nat) * ((lentry -> bool) -> list lentry -> nat))
  (sort_by : forall A : Type, (A -> A -> comparison) -> list A -> list A) (l : list sweeper).
Hypothesis IN : topo_input tag a eps cmp ccmp min_x max_x lower upper at_y pps sort_by l.

Lemma line_facts : StronglySorted (fun s s' => (key (sw_y s) < key (sw_y s'))%Z) l /\ forall s, In s l -> intervals_ok a eps lower upper s /\ exists before, tline a eps lower upper at_y sort_by s before.
Proof.
  destruct IN as [SET PN TAG ORI (fuel & n & RUN) BOX]. pose proof (ss_arena _ _ _ _ _ SET) as SP.
  assert (LN : forall s, In s l -> exists before, tline a eps lower upper at_y sort_by s before).
  { intros s Hs. apply In_nth_error in Hs. destruct Hs as [t Hs]. assert (X : exists p, nth_error (sweeper_new a :: l) t = Some p).
    { destruct (nth_error (sweeper_new a :: l) t) as [p|] eqn:E; [eauto|]. apply nth_error_None in E. cbn [length] in E. assert (t < length l) by (apply nth_error_Some; congruence). lia. }
    destruct X as (p & X). destruct (tline_of a eps lower upper at_y sort_by cmp ccmp min_x max_x pps SET PN fuel n l true RUN t p s X Hs) as (before & TL & _); [apply BOX; eapply nth_error_In, Hs|]. exists before. exact TL. }
  split.
  - assert (HT : StronglySorted (fun s s' => flt (sw_y s) (sw_y s') = true) l).
    { eapply (sweep_heights_increase a eps cmp ccmp min_x max_x lower upper pps sort_by); [apply (sp_enter_sorted _ SP)|apply (sp_exit_sorted _ SP)| | |exact RUN].
      - apply Forall_forall. intros [y i] H. destruct (sp_enter _ SP y i H) as (L & ->). apply (sp_finite _ SP i L).
      - apply Forall_forall. intros [y i] H. apply (sp_exit _ SP) in H. destruct H as (R & _ & ->). apply (sp_finite _ SP i (registered_lt _ SP _ R)). }
    assert (NL : forall s, In s l -> nan (sw_y s) = false) by (intros s Hs; destruct (LN s Hs) as (b & TL); apply (tl_y _ _ _ _ _ _ _ _ TL)).
    clear - HT NL. induction HT as [|s l S IH F]; constructor; [apply IH; intros s' H; apply NL; right; exact H|]. rewrite Forall_forall in *. intros s' H. specialize (F s' H). pose proof (NL s (or_introl eq_refl)). pose proof (NL s' (or_intror H)). fk. zb. lia.
  - intros s Hs. split; [|apply LN, Hs]. apply (changed_intervals_closed a eps cmp ccmp min_x max_x lower upper pps sort_by SET fuel n l true RUN s Hs).
Qed.

(** The points where the segment starts and ends. *)
Definition at_corner (t : topo W) (L : list (sweeper * cinterval)) (i : nat) (p q : nat) : Prop := corner_at t L i (seg_start (seg_def a i)) p /\ corner_at t L i (seg_end (seg_def a i)) q.

(** ** C87 *)
(** The output segments of a segment form a way from a point at the height of its start to one at the height of its end, and each says whether it runs in its direction.
    If the contours are closed, these ways join: where one segment follows another, the way of the one ends at the point where the way of the other begins. *)
Theorem contours_stay_connected : forall fuel buf, 2 * arena_len a < fuel ->
  exists t From Way To, process_lines ops a tag sort_by eps lower upper at_y fuel l buf (topo_new (arena_len a)) = Ok t /\
    (forall i, registered a i -> way_of a t i (From i) (Way i) (To i)) /\
    (closed_contours a tag -> forall i j, registered a i -> registered a j -> follows a i j ->
       (if orient a i then To i else From i) = (if orient a j then From j else To j)).
Proof.
  intros fuel buf F. destruct line_facts as [HT LF]. pose proof (fun CC => corners_stay_together T tag a eps cmp ccmp min_x max_x lower upper at_y pps sort_by l IN CC) as CT.
  pose proof IN as [SET PN TAG ORI (f & n & RUN) BOX]. pose proof (ss_arena _ _ _ _ _ SET) as SP.
  destruct (run_rule2 ops tag a eps cmp ccmp min_x max_x lower upper at_y pps sort_by l IN
    (fun D s before k pos t R O => exists L, chains a D s k t R O L) (intervals_ok a eps lower upper) fuel buf) as (t & R & O & D & s & before & E & TT & ON & ED & _ & L & CH).
  - intros s Hs. apply LF, Hs.
  - intros D s before k p q t R O _ _ _ _ _ _ H. exact H.
  - intros D s before k c evs vs t R O t' R' O' IV RS HK (L & H). exists (L ++ repeat (s, c) (length vs)). exact (chains_range ops a tag eps lower upper at_y sort_by SP TAG ORI D s before k c evs vs t R O t' R' O' L IV RS HK H).
  - intros D s before s' before' t R O _ _ _ K _ _ (L & H). exists L. exact (chains_line a D s s' t R O L K H).
  - exists []. apply chains_start.
  - exact F.
  - destruct CH as [CL CI CJ CA]. pose proof (proj2 TT) as RI.
    assert (LB : forall p s0 c0, nth_error L p = Some (s0, c0) -> In s0 l /\ In c0 (sw_changed s0)).
    { intros p s0 c0 H. assert (X : In s0 (D ++ [s]) /\ In c0 (sw_changed s0)).
      { apply CI in H. destruct H as [(H1 & H2 & _)|(-> & k' & _ & H)]; [split; [apply in_or_app; left; exact H1|exact H2]|]. split; [apply in_or_app; right; left; reflexivity|eapply nth_error_In, H]. }
      rewrite ED in X. destruct X as [[<-|X] Y]; [destruct Y|]. auto. }
    assert (HORZ : forall i s0 c0, In s0 l -> In c0 (sw_changed s0) -> In i (range_members s0 c0) -> slanted a i = false -> lone c0 = false).
    { intros i s0 c0 Hs Hc Hi SL. destruct (LF s0 Hs) as (_ & b & TL). unfold range_members in Hi. apply in_app_iff in Hi. destruct Hi as [Hi|Hi].
      - exfalso. assert (X : In i (members (sw_line s0))).
        { unfold range_entries in Hi. fold (piece (sw_line s0) (fst (ci_segs c0)) (snd (ci_segs c0))) in Hi. unfold members in *. rewrite in_flat_map in *. destruct Hi as (e & He & Hi). exists e. split; [eapply in_piece_in, He|exact Hi]. }
        apply (tl_all _ _ _ _ _ _ _ _ TL) in X. destruct X as (_ & X & _). congruence.
      - unfold range_horizontals, lone in *. destruct (ci_hor c0); [apply andb_false_r|destruct Hi]. }
    assert (NUM : forall s0, In s0 l -> nan (sw_y s0) = false) by (intros s0 Hs; destruct (LF s0 Hs) as (_ & b & TL); apply (tl_y _ _ _ _ _ _ _ _ TL)).
    assert (CORN : forall i x p, nan (py x) = false -> nan (px x) = false -> corner_at t L i x p -> exists z, nth_error (t_points t) p = Some z /\ feq (py z) (py x) = true /\ (slanted a i = false -> feq (px z) (px x) = true)).
    { intros i x p N1 N2 (s0 & c0 & z & H1 & H2 & (Z1 & Z2) & H4 & H5 & H6 & H7). destruct (LB p s0 c0 H1) as [Hs Hc]. exists z. split; [exact H2|]. split; [fk; zb; congruence|]. intros SL. specialize (H7 (HORZ i s0 c0 Hs Hc H6 SL)). fk. zb. exact H7. }
    assert (FIN : forall i, registered a i -> exists p hs q, at_corner t L i p q /\ way_of a t i p hs q).
    { intros i RG. destruct (CA i RG) as [((F1 & F2) & _)|[(_ & p & hs & q & o & _ & H & _)|(_ & p & hs & q & C1 & C2 & _ & TR & (ND & PC) & DR)]].
      - exfalso. destruct (segments_enter_once a eps cmp ccmp min_x max_x lower upper pps sort_by SET f n l RUN i RG) as (k & s0 & Hs & _ & EY & _). apply nth_error_In in Hs. destruct (LF s0 Hs) as (IV & b & TL).
        destruct (reg_num a SP i RG) as (N1 & N2 & _). pose proof (tl_y _ _ _ _ _ _ _ _ TL) as NY.
        destruct (end_in_range a eps lower upper at_y sort_by SP s0 b TL IV (S (2 * arena_len a)) (Nat.lt_succ_diag_r _) i RG) as (d & Hd & Hi); [left; fk; zb; lia|].
        assert (X : In s0 (D ++ [s])) by (rewrite ED; right; exact Hs). apply in_app_iff in X. destruct X as [X|[<-|[]]]; [exact (F1 s0 d X Hd Hi)|]. apply In_nth_error in Hd. destruct Hd as (k' & Hd). apply (F2 k' d); [apply nth_error_Some; congruence|exact Hd|exact Hi].
      - exfalso. rewrite ON in H. discriminate.
      - exists p, hs, q. split; [split; assumption|]. destruct (reg_num a SP i RG) as (N1 & N2 & N3 & N4). constructor; [eapply trail_way; eassumption|exact ND|exact PC|exact DR| |].
        + apply CORN in C1; assumption.
        + apply CORN in C2; assumption. }
    destruct (choose (0, [], 0) (fun i x => at_corner t L i (fst (fst x)) (snd x) /\ way_of a t i (fst (fst x)) (snd (fst x)) (snd x)) (map snd (enter a))) as (g & G).
    { intros i RG. destruct (FIN i RG) as (p & hs & q & H1 & H2). exists (p, hs, q). auto. }
    exists t, (fun i => fst (fst (g i))), (fun i => snd (fst (g i))), (fun i => snd (g i)). split; [exact E|]. split; [intros i RG; apply G, RG|].
    intros CC i j Ri Rj FO. destruct (G i Ri) as ([Ci1 Ci2] & _). destruct (G j Rj) as ([Cj1 Cj2] & _).
    set (p := if orient a i then snd (g i) else fst (fst (g i))). set (q := if orient a j then fst (fst (g j)) else snd (g j)).
    assert (Cp : corner_at t L i (seg_head a i) p) by (unfold p, seg_head; destruct (orient a i); assumption).
    assert (Cq : corner_at t L j (seg_tail a j) q) by (unfold q, seg_tail; destruct (orient a j); assumption).
    destruct Cp as (s0 & c0 & z & H1 & H2 & _ & H4 & H5 & H6 & H7). destruct Cq as (s1 & c1 & z' & K1 & K2 & _ & K4 & K5 & K6 & K7).
    destruct (LB p s0 c0 H1) as [Hs Hc]. destruct (LB q s1 c1 K1) as [Ks Kc].
    destruct (point_eq_keys _ _ (proj2 (proj2 FO))) as [KX KY].
    assert (s1 = s0) as -> by (apply (ss_unique (fun s => key (sw_y s)) l); [exact HT|exact Ks|exact Hs|congruence]).
    assert (X : In j (range_members s0 c0)).
    { apply (CT CC s0 c0 Hs Hc i j Ri Rj FO); [|exact H6]. destruct (reg_num a SP i Ri) as (N1 & N2 & N3 & N4). pose proof (NUM s0 Hs). unfold start_y, end_y, seg_head in *. destruct (orient a i); fk; zb; congruence. }
    destruct (LF s0 Hs) as (IV & b & TL).
    assert (c1 = c0) as -> by (eapply (one_range a eps lower upper at_y sort_by SP s0 b TL IV (S (2 * arena_len a)) (Nat.lt_succ_diag_r _)); eassumption).
    eapply CJ; [exact H1|exact K1|exact H2|exact K2|]. destruct (lone c0) eqn:LO; [left; reflexivity|]. right. rewrite (H7 eq_refl), (K7 eq_refl). exact KX.
Qed.
End Run.

(** ** Non-vacuity *)
(** A square with a triangle hanging from its upper side. *)
Definition hung : list (list point) := map (map (fun p => mkPoint (f64_of_Z (snd p)) (f64_of_Z (fst p)))) [[(0, 0); (8000, 0); (8000, 8000); (0, 8000)]; [(4000, 0); (6000, 4000); (2000, 4000)]]%Z.
Example hung_input : exists l, po_sweep hung 100 100 = Ok (l, true) /\
  topo_input (po_tags hung) (po_arena hung) po_eps (po_cmp po_eps (po_arena hung)) (po_cmp po_eps (po_arena hung)) ex_min ex_max po_lo po_hi po_aty ex_pps (@isort) l /\
  closed_contours (po_arena hung) (po_tags hung) /\ map snd (enter (po_arena hung)) <> [] /\ 2 * arena_len (po_arena hung) < 100.
Proof.
  destruct (po_input hung 100 100) as (l & E & IN); [vm_compute; reflexivity|vm_compute; reflexivity|]. exists l. split; [exact E|]. split; [exact IN|]. split; [apply closed_ok; vm_compute; reflexivity|].
  assert (X : (length (map snd (enter (po_arena hung))) =? 7) && (2 * arena_len (po_arena hung) <? 100) = true) by (vm_compute; reflexivity). apply andb_true_iff in X. destruct X as [X Y].
  split; [intros N; rewrite N in X; discriminate X|apply Nat.ltb_lt, Y].
Qed.
(** The upper side, segment 0, is cut in two, and its ways lead over the corner of the triangle; the triangle's sides, segments 4 and 6, start there. *)
Example hung_ways : match po_topo hung 100 100 with
  | Ok t => t_orig t = [3; 0; 6; 4; 0; 1; 5; 2] /\ way t 0 [first_half 1; first_half 4] 2 /\ way t 2 [second_half 4; second_half 1] 0 /\ way t 1 [first_half 3; second_half 6; second_half 2] 1
  | Err _ => False end.
Proof.
  assert (X : match po_topo hung 100 100 with Ok t => (t_orig t, t_pidx t) | Err _ => ([], []) end =
    ([3; 0; 6; 4; 0; 1; 5; 2], [(Some 0, Some 5); (Some 0, Some 1); (Some 1, Some 3); (Some 1, Some 4); (Some 1, Some 2); (Some 2, Some 6); (Some 3, Some 4); (Some 5, Some 6)])) by (vm_compute; reflexivity).
  destruct (po_topo hung 100 100) as [t|]; [|discriminate X]. injection X as X1 X2. split; [exact X1|].
  split; [|split]; (repeat first [apply way_here|eapply way_step; [unfold TopoSpec.pt; rewrite X2; reflexivity|unfold TopoSpec.pt; rewrite X2; reflexivity|]]).
Qed.
Print Assumptions contours_stay_connected.
