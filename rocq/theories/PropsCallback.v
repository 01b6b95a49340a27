(** Property theorem about the calls of [sweep]: C80. *)
From Coq Require Import List Bool ZArith Arith Lia Permutation Sorted.
From Verif Require Import F64 F64Arith TreeVecModel GeomModel SegmentsModel SegmentsSpec SegmentsProofs SegmentsProofs4 CurveOrderModel CurveOrderSpec CurveOrderProofs SweepModel SweepSpec
  SweepProofs2 SweepProofs8 SweepProofs10 SweepCheck PropsSweep RangeModel RangeSpec RangeProofs3 RangeProofs4 RangeProofs5 PropsRange TopoModel TopoSpec TopoProofs6 TopoProofs7 TopoProofs9 PolyExample
  CallbackModel CallbackSpec CallbackProofs CallbackProofs2.
Import ListNotations.

(** ** C80 *)
(** On a sweep that ends and whose lines are weakly ordered (up to twice the tolerance), the function [sweep] calls the callback without panic, at heights that never go down,
    and only about segments taking part.  The calls about any segment make up its visits: one at the height of its start, one at the height of its end, in between any number,
    each at a height of its own and an unbroken way along this height, joined to the segment's part above and below exactly where there is one. *)
Theorem sweep_reports : forall a eps cmp ccmp min_x max_x lower upper at_y pps sort_by,
  sound_setting a cmp ccmp pps sort_by -> positions_numbers a eps lower upper at_y ->
  forall fuel n l, sweep a eps cmp ccmp min_x max_x lower upper pps sort_by fuel n 0 (sweeper_new a) = Ok (l, true) ->
  (forall s, In s l -> boxes_ordered a eps lower upper (sw_y s) (sw_line s)) -> 2 * arena_len a < fuel ->
  exists calls, sweep_calls a eps cmp ccmp min_x max_x lower upper at_y pps sort_by fuel n = Ok calls /\
    StronglySorted (fun c d => fle (fst c) (fst d) = true) calls /\
    (forall c, In c calls -> registered a (ev_seg (snd c))) /\
    forall i, registered a i -> exists vs, about i calls = concat (map (fun v => map (pair (fst v)) (snd v)) vs) /\ visits a at_y i vs.
Proof.
  intros a eps cmp ccmp min_x max_x lower upper at_y pps sort_by SET PN fuel n l RUN BOX FUEL. pose proof (ss_arena _ _ _ _ _ SET) as SP. pose proof (ss_sort _ _ _ _ _ SET) as SORT.
  assert (HT : StronglySorted (fun s s' => flt (sw_y s) (sw_y s') = true) l).
  { eapply (sweep_heights_increase a eps cmp ccmp min_x max_x lower upper pps sort_by); [apply (sp_enter_sorted _ SP)|apply (sp_exit_sorted _ SP)| | |exact RUN].
    - apply Forall_forall. intros [y i] H. destruct (sp_enter _ SP y i H) as (L & ->). apply (sp_finite _ SP i L).
    - apply Forall_forall. intros [y i] H. apply (sp_exit _ SP) in H. destruct H as (R & _ & ->). apply (sp_finite _ SP i (registered_lt _ SP _ R)). }
  assert (LN : forall s, In s l -> exists before, tline a eps lower upper at_y sort_by s before).
  { intros s Hs. apply In_nth_error in Hs. destruct Hs as [t Hs]. assert (X : exists p, nth_error (sweeper_new a :: l) t = Some p).
    { destruct (nth_error (sweeper_new a :: l) t) as [p|] eqn:E; [eauto|]. apply nth_error_None in E. cbn [length] in E. assert (t < length l) by (apply nth_error_Some; congruence). lia. }
    destruct X as (p & X). destruct (tline_of a eps lower upper at_y sort_by cmp ccmp min_x max_x pps SET PN fuel n l true RUN t p s X Hs) as (before & TL & _); [apply BOX; eapply nth_error_In, Hs|]. exists before. exact TL. }
  assert (IV : forall s, In s l -> intervals_ok a eps lower upper s) by (apply (changed_intervals_closed a eps cmp ccmp min_x max_x lower upper pps sort_by SET fuel n l true RUN)).
  destruct (lines_total a eps cmp ccmp min_x max_x lower upper at_y pps sort_by fuel (line_ok a at_y) n 0 (sweeper_new a) l RUN) with (buf := @nil lentry) as (cs & C1 & C2).
  { intros s Hs buf. destruct (LN s Hs) as (before & TL). apply (line_total a eps lower upper at_y sort_by SP SORT s before TL (IV s Hs) fuel FUEL). }
  exists (concat cs). split; [exact C1|]. destruct (calls_climb a eps lower upper at_y l cs C2) as (K1 & K2); [intros s Hs; destruct (LN s Hs) as (before & TL); apply (tl_y _ _ _ _ _ _ _ _ TL)|exact HT|]. split; [exact K1|]. split.
  - intros c Hc. apply in_concat in Hc. destruct Hc as (c' & Hc' & Hc). clear - C2 Hc' Hc. induction C2 as [|s d l cs [D _] F IH]; [destruct Hc'|]. destruct Hc' as [->|Hc']; [|apply IH, Hc']. rewrite Forall_forall in D. apply (D c Hc).
  - intros i R. apply (visits_all a eps cmp ccmp lower upper at_y pps i l cs SP R C2 HT).
    + destruct (segments_enter_once a eps cmp ccmp min_x max_x lower upper pps sort_by SET fuel n l RUN i R) as (t & s & Hs & _ & E & _). exists s. split; [eapply nth_error_In, Hs|exact E].
    + destruct (slanted a i) eqn:SL.
      * destruct (segments_exit_once a eps cmp ccmp min_x max_x lower upper pps sort_by SET fuel n l RUN i R SL) as (t & s & Hs & _ & E & _). exists s. split; [eapply nth_error_In, Hs|exact E].
      * destruct (segments_enter_once a eps cmp ccmp min_x max_x lower upper pps sort_by SET fuel n l RUN i R) as (t & s & Hs & _ & E & _). exists s. split; [eapply nth_error_In, Hs|].
        destruct (WindProofs5.reg_num a SP i R) as (N1 & N2 & _). pose proof (WindProofs5.down a SP i R). destruct (feq_nonnan _ _ E) as [NS _]. unfold slanted in SL. fk. zb. lia.
Qed.

Definition po_calls (pss : list (list point)) (f n : nat) : res (list call) :=
  let a := po_arena pss in sweep_calls a po_eps (po_cmp po_eps a) (po_cmp po_eps a) ex_min ex_max po_lo po_hi po_aty ex_pps (@isort) f n.
Example bowtie_calls_input : exists l, po_sweep bowtie 100 100 = Ok (l, true) /\
  sound_setting (po_arena bowtie) (po_cmp po_eps (po_arena bowtie)) (po_cmp po_eps (po_arena bowtie)) ex_pps (@isort) /\
  positions_numbers (po_arena bowtie) po_eps po_lo po_hi po_aty /\
  (forall s, In s l -> boxes_ordered (po_arena bowtie) po_eps po_lo po_hi (sw_y s) (sw_line s)) /\ 2 * arena_len (po_arena bowtie) < 100.
Proof.
  destruct bowtie_input as (l & E & IN). exists l. split; [exact E|]. destruct IN as [S N _ _ _ B]. split; [exact S|]. split; [exact N|]. split; [exact B|].
  assert (X : (2 * arena_len (po_arena bowtie) <? 100) = true) by (vm_compute; reflexivity). apply Nat.ltb_lt, X.
Qed.
(** A square with a triangle hanging from its upper side. *)
Definition pennant : list (list point) := map (map (fun p => mkPoint (f64_of_Z (snd p)) (f64_of_Z (fst p)))) [[(0, 0); (8000, 0); (8000, 8000); (0, 8000)]; [(4000, 0); (6000, 4000); (2000, 4000)]]%Z.
(** The calls: the sign of the height, the segment, connected above, connected below. *)
Definition show (c : call) : Z * nat * bool * bool := (Z.sgn (key (fst c)), ev_seg (snd c), ev_above (snd c), ev_below (snd c)).
(** The upper side, segment 0, is reported in two pieces. *)
Example pennant_calls : po_ok pennant = true /\ match po_calls pennant 100 100 with Ok c => map show c | Err _ => [] end =
  [(0%Z, 3, false, true); (0%Z, 0, false, false); (0%Z, 6, false, true); (0%Z, 4, false, true); (0%Z, 0, false, false); (0%Z, 1, false, true);
   (1%Z, 6, true, false); (1%Z, 5, false, false); (1%Z, 4, true, false); (1%Z, 3, true, false); (1%Z, 2, false, false); (1%Z, 1, true, false)].
Proof. split; vm_compute; reflexivity. Qed.
Print Assumptions sweep_reports.
