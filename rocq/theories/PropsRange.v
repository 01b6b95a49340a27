(** Property theorems about the positions on a sweep line: C27 - C29. *)
From Coq Require Import List Bool ZArith Arith Lia Permutation Sorted.
From Verif Require Import F64 F64Arith TreeVecModel TreeVecSpec GeomModel SegmentsModel SegmentsSpec SegmentsProofs SegmentsProofs4
  CurveOrderModel CurveOrderSpec CurveOrderProofs SweepModel SweepSpec SweepProofs2 SweepProofs8 SweepProofs10 PropsSweep
  RangeModel RangeSpec RangeProofs RangeProofs3 RangeProofs4 RangeProofs5 RangeProofs6.
Import ListNotations.

(** ** C27 *)
(** Whatever the buffers contain, every changed interval of every line of a sweep is reported without panic as
    described by [range_report] if the line is weakly ordered (up to twice the tolerance); the reported positions follow the order of the line
    above and below; and if the segments just above / below the line are weakly ordered, each position is in the band of its segment. *)
Theorem range_positions : forall a eps cmp ccmp min_x max_x lower upper at_y pps sort_by,
  sound_setting a cmp ccmp pps sort_by -> positions_numbers a eps lower upper at_y ->
  forall fuel n l done, sweep a eps cmp ccmp min_x max_x lower upper pps sort_by fuel n 0 (sweeper_new a) = Ok (l, done) ->
  forall s, In s l -> boxes_ordered a eps lower upper (sw_y s) (sw_line s) ->
  forall k c buf, nth_error (sw_changed s) k = Some c ->
  exists evs buf', next_range a eps lower upper at_y sort_by s buf k = Ok (Some (evs, c, buf')) /\ range_report a s c evs /\
    old_positions_ordered evs /\ new_positions_ordered evs /\
    (positions_sound a eps lower upper at_y -> old_weakly_ordered a eps lower upper s c -> old_positions_close a eps lower upper s evs) /\
    (positions_sound a eps lower upper at_y -> new_weakly_ordered a eps lower upper s c -> new_positions_close a eps lower upper s evs).
Proof.
  intros a eps cmp ccmp min_x max_x lower upper at_y pps sort_by SET PS fuel n l done H s HI BOX k c buf HC.
  pose proof (ss_arena _ _ _ _ _ SET) as SP. pose proof (ss_sort _ _ _ _ _ SET) as SORT.
  destruct (line_post a eps cmp ccmp min_x max_x lower upper pps sort_by SET _ _ _ _ _ H HI) as (P & p & T).
  pose proof (changed_intervals_closed a eps cmp ccmp min_x max_x lower upper pps sort_by SET _ _ _ _ H s HI) as IV.
  destruct (report a eps cmp lower upper at_y sort_by SORT SP PS _ s P IV) with (c := c) (buf := buf) as (evs & buf' & E1 & E2 & E3).
  { intros i Hi. apply (step_horiz _ _ _ _ _ _ _ _ _ _ T) in Hi. exact Hi. } { exact BOX. } { eapply nth_error_In, HC. }
  exists evs, buf'. unfold next_range. rewrite HC, E1. auto.
Qed.

(** ** C28 *)
(** Calling [events] until it returns nothing stops after at most two calls per event, at strictly increasing
    positions, which are exactly the ends of events; each batch consists of the pieces between the last and the
    present position of the events that cover both, and the point events at the present position. *)
Theorem range_batches : forall sort_by, (forall A, sort_spec (sort_by A)) ->
  forall evs, Forall ev_numbers evs -> ev_sorted evs ->
  exists l, walk_events sort_by (S (2 * length evs)) (rg_new evs) = Ok l /\
    StronglySorted (fun x z => flt x z = true) (map fst l) /\
    (forall x, stop evs x <-> exists z, In z (map fst l) /\ feq z x = true) /\
    batches_ok evs None l.
Proof. intros sort_by SORT evs NUM SRT. apply walk_events_complete; assumption. Qed.
(** The same for the other way of walking, with [increase_x]: at each position, the horizontals coming from the left, the
    segments connected up and down, sorted by their positions above and below the line, and the horizontals that go on. *)
Theorem range_views : forall sort_by, (forall A, sort_spec (sort_by A)) ->
  forall evs, Forall ev_numbers evs -> ev_sorted evs ->
  (forall e, In e evs -> ev_above e = true -> ev_old e <> None) -> (forall e, In e evs -> ev_below e = true -> ev_sweep e <> None) ->
  exists l, walk_x sort_by (S (2 * length evs)) (rg_new evs) = Ok l /\
    StronglySorted (fun x z => flt x z = true) (map vw_x l) /\
    (forall x, stop evs x <-> exists z, In z (map vw_x l) /\ feq z x = true) /\
    Forall (sees evs) l /\ (forall v l', l = v :: l' -> vw_in v = []) /\
    (forall i v v', nth_error l i = Some v -> nth_error l (S i) = Some v' -> vw_out v = vw_in v').
Proof. intros sort_by SORT evs NUM SRT OLD NEW. apply walk_x_complete; assumption. Qed.

(** ** C29 *)
(** [increase_x] and [events] cannot be combined: [events] after [increase_x] panics if an event with different ends
    begins at the first position, and never otherwise ... *)
Theorem mixed_range_use_panics : forall sort_by, (forall A, sort_spec (sort_by A)) ->
  forall evs, Forall ev_numbers evs -> ev_sorted evs -> forall x, rg_x (rg_new evs) = Some x ->
  (rg_events_step sort_by (increase_x sort_by (rg_new evs)) = Err ELastX <->
     exists e, In e evs /\ pointlike e = false /\ feq (ev_lo e) x = true) /\
  (forall e, rg_events_step sort_by (increase_x sort_by (rg_new evs)) = Err e -> e = ELastX).
Proof. intros sort_by SORT evs NUM SRT x X. apply mixed_panics; assumption. Qed.

(** Everything in a batch ends at its position. *)
Lemma batch_ends evs u x b e : Forall ev_numbers evs -> nan x = false -> (forall u', u = Some u' -> flt u' x = true) ->
  (exists b', Permutation b b' /\ Forall2 ev_same b' (batch_at evs u x)) -> In e b -> feq (ev_hi e) x = true.
Proof.
  intros NUM Nx LT (b' & P & F) He. rewrite P in He.
  assert (G : exists f, In f (batch_at evs u x) /\ ev_same e f).
  { clear - F He. induction F as [|e' f l m S F IH]; [destruct He|]. destruct He as [->|He]; [exists f; split; [left; reflexivity|exact S]|].
    destruct (IH He) as (g & Hg & Sg). exists g. split; [right; exact Hg|exact Sg]. }
  destruct G as (f & Hf & (S1 & S2 & _)). destruct (feq_nonnan _ _ S1) as [A1 A2]. destruct (feq_nonnan _ _ S2) as [B1 B2].
  destruct (fmax_nonnan _ _ A1 B1) as [C1 C2]. change (fmax (ev_x0 e) (ev_x1 e)) with (ev_hi e) in C1, C2. fk. zb. rewrite C2, S1, S2.
  unfold batch_at in Hf. apply in_app_iff in Hf. destruct Hf as [Hf|Hf].
  - destruct u as [u|]; [|destruct Hf]. specialize (LT u eq_refl). destruct (flt_nonnan _ _ LT) as [Nu _]. fk. zb. apply in_map_iff in Hf. destruct Hf as (g & <- & _).
    unfold cut in *. destruct (flt (ev_x0 g) (ev_x1 g)); cbn [ev_x0 ev_x1] in *; lia.
  - apply filter_In in Hf. destruct Hf as [_ Q]. unfold pointlike in Q. apply andb_true_iff in Q. fk. zb. lia.
Qed.
(** ... and then the events at the first position are lost. *)
Theorem mixed_range_use_loses : forall sort_by, (forall A, sort_spec (sort_by A)) ->
  forall evs, Forall ev_numbers evs -> ev_sorted evs -> forall x, rg_x (rg_new evs) = Some x ->
  (forall e, In e evs -> feq (ev_lo e) x = true -> pointlike e = true) ->
  exists l, walk_events sort_by (S (2 * length evs)) (increase_x sort_by (rg_new evs)) = Ok l /\
    (exists e, In e evs /\ feq (ev_hi e) x = true) /\
    forall z b e, In (z, b) l -> In e b -> flt x (ev_hi e) = true.
Proof.
  intros sort_by SORT evs NUM SRT x X PT. destruct (new_inv evs) as (T & I & G). pose proof (head_min evs NUM SRT T _ I) as HM. rewrite X in HM. destruct HM as [Nx NS].
  destruct (increase_inv sort_by SORT evs NUM SRT T _ x I X) as [I' L'].
  assert (AC : rg_active (increase_x sort_by (rg_new evs)) = []).
  { destruct (rg_active (increase_x sort_by (rg_new evs))) as [|h hs] eqn:Q; [reflexivity|]. exfalso.
    assert (Hi : In h (flat_map fr (span evs (key x)))) by (rewrite <- (ai_act _ _ _ I'), Q; left; reflexivity). destruct (span_in evs _ _ Hi) as (e & He & F & L).
    pose proof (num_in evs NUM e He) as [N0 N1]. destruct (lo_kl e (conj N0 N1)) as [A B]. destruct NS as (Lt & _ & M). destruct (G e He). destruct (M e He) as [M1 _]. specialize (M1 ltac:(lia)).
    assert (PL : pointlike e = true) by (apply PT; [exact He|]; fk; zb; lia). unfold pointlike in PL. fk. zb. unfold kl, kh in *. lia. }
  destruct (walk_events_ok sort_by SORT evs NUM SRT (S (2 * length evs)) (key x) _ I') as (l & E1 & E2 & E3 & _ & E5).
  { pose proof (ahead_bound evs (key x)). lia. } { rewrite L'. exact AC. }
  exists l. split; [exact E1|]. split.
  { destruct NS as (_ & (e & He & K) & M). exists e. split; [exact He|]. pose proof (num_in evs NUM e He) as [N0 N1]. destruct (hi_kh e (conj N0 N1)) as [A B].
    fk. zb. rewrite B. destruct K as [K|K]; [|congruence].
    assert (PL : pointlike e = true) by (apply PT; [exact He|]; destruct (lo_kl e (conj N0 N1)); fk; zb; congruence). unfold pointlike in PL. fk. zb. unfold kl, kh in *. lia. }
  intros z b e Hz He.
  assert (KZ : nan z = false /\ (key x < key z)%Z).
  { rewrite Forall_forall in E3. destruct (E3 z) as (A & B & _); [apply in_map_iff; exists (z, b); auto|]. auto. }
  destruct KZ as [Nz KZ].
  assert (FE : feq (ev_hi e) z = true).
  { assert (GEN : forall l u, batches_ok evs u l -> StronglySorted (fun x z => flt x z = true) (map fst l) -> (forall u', u = Some u' -> Forall (fun w => flt u' w = true) (map fst l)) ->
      In (z, b) l -> feq (ev_hi e) z = true).
    { clear - NUM He Nz. induction l as [|[w d] l IH]; intros u B S U H; [destruct H|]. cbn [batches_ok] in B. destruct B as [B1 B2]. cbn [map fst] in *. inversion S as [|? ? S1 S2]; subst.
      destruct H as [H|H].
      - injection H as -> ->. eapply batch_ends; try eassumption. intros u' ->. specialize (U u' eq_refl). inversion U; assumption.
      - eapply IH; [exact B2|exact S1| |exact H]. intros u' Q. injection Q as <-. exact S2. }
    apply (GEN l _ E5 E2); [|exact Hz]. rewrite L'. discriminate. }
  destruct (feq_nonnan _ _ FE) as [Nh _]. fk. zb. lia.
Qed.

(** ** Non-vacuity *)
From Verif Require Import PropsSegments SweepReach SweepCheck.

(** Straight lines, clamped into the bounding box. *)
Definition ex_aty (s : segment) (y : f64) : f64 :=
  let p := seg_start s in let q := seg_end s in
  fmin (fmax (fadd (px p) (fmul (fsub (px q) (px p)) (fdiv (fsub y (py p)) (fsub (py q) (py p))))) (ex_min s)) (ex_max s).
Definition ex_lo (s : segment) (_ _ : f64) : f64 := ex_min s.
Definition ex_hi (s : segment) (_ _ : f64) : f64 := ex_max s.
Lemma clamped p lo hi : nan lo = false -> nan hi = false -> fle lo hi = true -> fle lo (fmin (fmax p lo) hi) = true /\ fle (fmin (fmax p lo) hi) hi = true.
Proof.
  intros N1 N2 L. assert (M : nan (fmax p lo) = false /\ (key lo <= key (fmax p lo))%Z).
  { destruct (nan p) eqn:Np; [unfold fmax; rewrite Np; split; [exact N1|lia]|]. destruct (fmax_nonnan p lo Np N1). split; [assumption|lia]. }
  destruct M as [M1 M2]. destruct (fmin_nonnan _ hi M1 N2) as [Q1 Q2]. fk. zb. lia.
Qed.
Example ex_positions : positions_sound ex_arena (f64_of_Z 0) ex_lo ex_hi ex_aty.
Proof.
  split.
  - intros y i _ (R & _). pose proof (registered_lt _ ex_sweepable _ R) as L. destruct (sp_finite _ ex_sweepable _ L) as [[F1 _] [F3 _]]. apply fin_nonnan in F1, F3.
    unfold in_band, band_lo, band_hi, ex_lo, ex_hi, ex_aty. destruct (fmin_nonnan _ _ F1 F3) as [A1 A2]. destruct (fmax_nonnan _ _ F1 F3) as [B1 B2].
    fold (ex_min (seg_def ex_arena i)) in *. fold (ex_max (seg_def ex_arena i)) in *. apply clamped; try assumption. fk. zb. lia.
  - intros y i p (R & _) _ SPV K1 K2.
    assert (IP : i = 4 /\ p = 3).
    { pose proof (registered_lt _ ex_sweepable _ R) as L. change (i < 5) in L. destruct i as [|[|[|[|[|i]]]]]; try lia; vm_compute in SPV; try discriminate SPV. injection SPV as <-. split; reflexivity. }
    destruct IP as [-> ->]. assert (Y : y = z 5).
    { destruct (feq_nonnan _ _ K1) as [A B]. assert (KK : key y = key (z 5)).
      { assert (Q : key (start_y ex_arena 4) = key (z 5)) by (vm_compute; reflexivity). fk. zb. congruence. }
      destruct (key_inj y (z 5) B eq_refl KK) as [Q|(u & v & _ & Q)]; [exact Q|]. apply (f_equal key) in Q. vm_compute in Q. discriminate Q. }
    subst y. unfold in_band. split; vm_compute; reflexivity.
Qed.

(** Sound positions are numbers. *)
Lemma sound_numbers a eps lower upper at_y : positions_sound a eps lower upper at_y -> positions_numbers a eps lower upper at_y.
Proof. intros PS y i N L. destruct (ps_band _ _ _ _ _ PS y i N L) as [A B]. apply fle_nonnan in A, B. tauto. Qed.
Example ex_numbers : positions_numbers ex_arena (f64_of_Z 0) ex_lo ex_hi ex_aty.
Proof. apply sound_numbers, ex_positions. Qed.

Definition boxes_b (a : arena) (eps : f64) (lower upper : segment -> f64 -> f64 -> f64) (y : f64) (l : list lentry) : bool :=
  forallb (fun i => forallb (fun j => (j <? i) || match nth_error l i, nth_error l j with
    | Some e, Some f => fle (fsub (lower (seg_def a (le_seg e)) y eps) eps) (fadd (upper (seg_def a (le_seg f)) y eps) eps) | _, _ => true end) (seq 0 (length l))) (seq 0 (length l)).
Lemma boxes_b_ok a eps lower upper y l : boxes_b a eps lower upper y l = true -> boxes_ordered a eps lower upper y l.
Proof.
  intros H i j e f L Hi Hj. unfold boxes_b in H. rewrite forallb_forall in H.
  assert (I : In i (seq 0 (length l))) by (apply in_seq; split; [lia|]; apply nth_error_Some; congruence).
  specialize (H i I). rewrite forallb_forall in H.
  assert (J : In j (seq 0 (length l))) by (apply in_seq; split; [lia|]; apply nth_error_Some; congruence).
  specialize (H j J). rewrite Hi, Hj in H. apply orb_true_iff in H. destruct H as [H|H]; [apply Nat.ltb_lt in H; lia|exact H].
Qed.
(** Every line of the example is weakly ordered, so that [range_positions] applies to all of them; the events of the ranges. *)
Example ex_lines_ordered : exists l, ex_sweep 100 100 = Ok (l, true) /\ length l = 4 /\
  Forall (fun s => boxes_ordered ex_arena (f64_of_Z 0) ex_lo ex_hi (sw_y s) (sw_line s)) l.
Proof.
  assert (X : match ex_sweep 100 100 with Ok (l, d) => d && (length l =? 4) && forallb (fun s => boxes_b ex_arena (f64_of_Z 0) ex_lo ex_hi (sw_y s) (sw_line s)) l | Err _ => false end = true) by (vm_compute; reflexivity).
  destruct (ex_sweep 100 100) as [[l d]|]; [|discriminate]. apply andb_true_iff in X. destruct X as [X X3]. apply andb_true_iff in X. destruct X as [X1 X2].
  exists l. split; [rewrite X1; reflexivity|]. split; [apply Nat.eqb_eq, X2|]. rewrite forallb_forall in X3. apply Forall_forall. intros s Hs. apply boxes_b_ok, X3, Hs.
Qed.
Definition ex_view (e : oevent) : nat * list bool * bool * bool * option nat * option nat :=
  (ev_seg e, map (fun q => feq (ev_x0 e) (z q)) [0; 2; 3; 5; 7; 8; 10; 20]%Z, ev_above e, ev_below e, ev_sweep e, ev_old e).
Example ex_ranges :
  match ex_sweep 100 100 with
  | Ok (l, _) => map (fun s => match next_range ex_arena (f64_of_Z 0) ex_lo ex_hi ex_aty (@isort) s [] 0 with
                               | Ok (Some (evs, _, _)) => map ex_view evs | _ => [] end) (firstn 3 l) =
     [ [ (0, [true; false; false; false; false; false; false; false], false, true, Some 0, Some 0);
         (1, [false; false; false; false; false; false; true; false], false, true, Some 1, Some 1);
         (3, [false; false; false; false; false; false; false; true], false, true, Some 2, Some 2) ];
       [ (2, [false; true; false; false; false; false; false; false], false, false, None, None);
         (0, [false; false; true; false; false; false; false; false], true, true, Some 0, Some 0);
         (1, [false; false; false; false; true; false; false; false], true, true, Some 1, Some 1) ];
       [ (0, [false; false; false; true; false; false; false; false], true, true, Some 1, Some 0);
         (1, [false; false; false; true; false; false; false; false], true, true, Some 0, Some 1);
         (3, [false; false; false; false; false; false; false; true], true, false, Some 2, Some 2);
         (4, [false; false; false; false; false; false; false; true], false, true, Some 2, None) ] ]
  | Err _ => False
  end.
Proof. vm_compute. reflexivity. Qed.

(** A range with two overlapping horizontals, one of them going left. *)
Definition ex_events : list oevent :=
  [ mkEv (z 1) true (z 5) true 0 (Some 0) (Some 0); mkEv (z 2) true (z 2) true 1 (Some 1) (Some 1); mkEv (z 7) true (z 3) true 2 (Some 2) (Some 2) ].
Definition ex_ev_view (e : oevent) := (ev_seg e, map (fun q => (feq (ev_x0 e) (z q), feq (ev_x1 e) (z q))) [1; 2; 3; 5; 7]%Z, ev_above e, ev_below e).
Example ex_events_ok : Forall ev_numbers ex_events /\ ev_sorted ex_events.
Proof.
  unfold ev_sorted, ex_events. split.
  - repeat (apply Forall_cons; [split; vm_compute; reflexivity|]). apply Forall_nil.
  - repeat (apply SSorted_cons; [|repeat (apply Forall_cons; [intros H; vm_compute in H; discriminate H|]); apply Forall_nil]). apply SSorted_nil.
Qed.
Example ex_batches :
  match walk_events (@isort) (S (2 * length ex_events)) (rg_new ex_events) with
  | Ok l => map (fun p => map (fun q => feq (fst p) (z q)) [1; 2; 3; 5; 7]%Z) l =
      [[true; false; false; false; false]; [false; true; false; false; false]; [false; false; true; false; false]; [false; false; false; true; false]; [false; false; false; false; true]] /\
      map (fun p => length (snd p)) l = [0; 2; 1; 2; 1] /\
      map (fun p => map (fun e => (ev_seg e, ev_above e, ev_below e)) (snd p)) l =
      [[]; [(0, true, false); (1, true, true)]; [(0, false, false)]; [(0, false, true); (2, false, true)]; [(2, true, false)]]
  | Err _ => False
  end.
Proof. vm_compute. repeat split. Qed.
Example ex_mixed : rg_events_step (@isort) (increase_x (@isort) (rg_new ex_events)) = Err ELastX.
Proof. vm_compute. reflexivity. Qed.
(** And one where the first event is silently lost. *)
Example ex_lost : match walk_events (@isort) 10 (increase_x (@isort) (rg_new [mkEv (z 1) true (z 1) true 0 (Some 0) (Some 0); mkEv (z 2) true (z 2) true 1 (Some 1) (Some 1)])) with
  | Ok l => map (fun p => map ev_seg (snd p)) l = [[1]] | Err _ => False end.
Proof. vm_compute. reflexivity. Qed.

Print Assumptions range_positions.
Print Assumptions range_batches.
Print Assumptions range_views.
Print Assumptions mixed_range_use_panics.
Print Assumptions mixed_range_use_loses.
