(** Property theorems about the sweep: C21 - C26, C48 - C50. *)
From Coq Require Import List Bool ZArith Arith Lia Permutation Sorted.
From Verif Require Import F64 F64Arith TreeVecModel TreeVecSpec TreeVecProofs TreeVecRefine TreeVecMono GeomModel SegmentsModel SegmentsSpec
  SegmentsProofs SegmentsProofs3 SegmentsProofs4 CurveOrderModel CurveOrderSpec CurveOrderProofs CurveOrderProofs2 CurveOrderProofs3
  SweepModel SweepSpec SweepProofs SweepProofs2 SweepProofs3 SweepProofs4 SweepProofs5 SweepProofs6 SweepProofs7 SweepProofs8
  SweepProofs9 SweepProofs10.
Import ListNotations.

Section Oracles.
Variable a : arena.
Variable eps : f64.
Variables cmp ccmp : nat -> nat -> curve_order.
Variables min_x max_x : segment -> f64.
Variables lower upper : segment -> f64 -> f64 -> f64.
Variable pps : nat -> ((lentry -> bool) -> list lentry -> nat) * ((lentry -> bool) -> list lentry -> nat).
Variable sort_by : forall A : Type, (A -> A -> comparison) -> list A -> list A.
Notation sweep := (SweepModel.sweep a eps cmp ccmp min_x max_x lower upper pps sort_by).

(** ** C21 *)
(** Whatever the comparisons, searches and sorting do: the heights strictly increase. *)
Theorem sweep_heights_increase : forall fuel n l done,
  StronglySorted (fun p q => fle (fst p) (fst q) = true) (enter a) -> StronglySorted (fun p q => fle (fst p) (fst q) = true) (exit_ a) ->
  Forall (fun p => fin (fst p) = true) (enter a) -> Forall (fun p => fin (fst p) = true) (exit_ a) ->
  sweep fuel n 0 (sweeper_new a) = Ok (l, done) ->
  StronglySorted (fun s s' => flt (sw_y s) (sw_y s') = true) l.
Proof.
  intros fuel n l done SE SX FE FX H.
  assert (S : StronglySorted (fun x y => flt x y = true) (fneginf :: map sw_y l)).
  { eapply sweep_increasing; [| | |exact H].
    - split; [exact SE|]. eapply Forall_impl; [|exact FE]. intros p. apply fin_nonnan.
    - split; [exact SX|]. eapply Forall_impl; [|exact FX]. intros p. apply fin_nonnan.
    - split; [reflexivity|]. unfold sweeper_new. cbn [sw_next_enter sw_next_exit sw_int skipn]. split; [|split].
      + eapply Forall_impl; [|exact FE]. intros p. apply neginf_key.
      + eapply Forall_impl; [|exact FX]. intros p. apply neginf_key.
      + split; [constructor|]. split; constructor. }
  inversion S as [|? ? S' _]; subst. clear -S'. induction l as [|s l IH]; [constructor|]. inversion S' as [|? ? S'' F]; subst. constructor; [apply IH, S''|].
  rewrite Forall_map in F. exact F.
Qed.

(** From here on the environment is sound. *)
Hypothesis SET : sound_setting a cmp ccmp pps sort_by.

Lemma run_result fuel n : safe (consistent a cmp) (sweep fuel n 0 (sweeper_new a))
  (fun '(l, done) => chain a eps cmp lower upper (consistent a cmp) fneginf (sweeper_new a) l done).
Proof.
  destruct SET. apply run_chain; try assumption; [intros [H _]; exact H|intros [_ H]; exact H|].
  apply POST_init; assumption.
Qed.
Lemma run_ok fuel n l done : sweep fuel n 0 (sweeper_new a) = Ok (l, done) ->
  chain a eps cmp lower upper (consistent a cmp) fneginf (sweeper_new a) l done.
Proof. intros H. pose proof (run_result fuel n) as R. rewrite H in R. exact R. Qed.
Lemma init_post : POST a cmp (consistent a cmp) fneginf (sweeper_new a).
Proof. apply POST_init, SET. Qed.
Lemma line_post fuel n l done s : sweep fuel n 0 (sweeper_new a) = Ok (l, done) -> In s l ->
  POST a cmp (consistent a cmp) (sw_y s) s /\ exists p, STEP a eps cmp lower upper (consistent a cmp) p (sw_y s) s.
Proof. intros H HI. apply run_ok in H. destruct (chain_in _ _ _ _ _ _ _ _ _ _ _ H HI) as (_ & P & T). auto. Qed.

(** ** C22 *)
(** In a complete sweep, every segment taking part enters in exactly one line, which is at its
    start height; every non-horizontal one exits in exactly one line, at its end height. *)
Theorem segments_enter_once : forall fuel n l, sweep fuel n 0 (sweeper_new a) = Ok (l, true) ->
  forall i, registered a i ->
  exists t s, nth_error l t = Some s /\ enters_in a s i /\ feq (sw_y s) (start_y a i) = true /\
    forall t' s', nth_error l t' = Some s' -> enters_in a s' i -> t' = t.
Proof.
  intros fuel n l H i R. pose proof (run_ok _ _ _ _ H) as C. pose proof (ss_arena _ _ _ _ _ SET) as SP.
  pose proof (registered_lt _ SP _ R) as Lt. destruct (sp_finite _ SP _ Lt) as [[_ F] _].
  destruct (chain_enter a eps cmp lower upper SP (consistent a cmp) _ _ _ i C init_post R (neginf_key _ F)) as (t & s & Ht & K).
  assert (HE : forall t' s', nth_error l t' = Some s' -> (enters_in a s' i <-> registered a i /\ key (start_y a i) = key (sw_y s'))).
  { intros t' s' Ht'. destruct (line_post _ _ _ _ _ H (nth_error_In _ _ Ht')) as (P & p & T).
    eapply step_enters; eassumption. }
  exists t, s. split; [exact Ht|]. split; [apply (HE _ _ Ht); auto|]. split.
  - assert (Ns : nan (sw_y s) = false).
    { destruct (line_post _ _ _ _ _ H (nth_error_In _ _ Ht)) as (P & _). apply (po_ahead _ _ _ _ _ P). }
    apply fin_nonnan in F. fold (start_y a i) in F. fk. apply Z.eqb_eq, K.
  - intros t' s' Ht' E. apply (HE _ _ Ht') in E. destruct E as [_ E].
    eapply sorted_unique; [eapply chain_heights; exact C|exact Ht'|exact Ht|congruence].
Qed.

Theorem segments_exit_once : forall fuel n l, sweep fuel n 0 (sweeper_new a) = Ok (l, true) ->
  forall i, registered a i -> slanted a i = true ->
  exists t s, nth_error l t = Some s /\ exits_in s i /\ feq (sw_y s) (end_y a i) = true /\
    forall t' s', nth_error l t' = Some s' -> exits_in s' i -> t' = t.
Proof.
  intros fuel n l H i R S. pose proof (run_ok _ _ _ _ H) as C. pose proof (ss_arena _ _ _ _ _ SET) as SP.
  pose proof (registered_lt _ SP _ R) as Lt. destruct (sp_finite _ SP _ Lt) as [_ [_ F]].
  destruct (chain_exit a eps cmp lower upper SP (consistent a cmp) _ _ _ i C init_post R S (neginf_key _ F)) as (t & s & Ht & K).
  assert (HE : forall t' s', nth_error l t' = Some s' -> (exits_in s' i <-> registered a i /\ slanted a i = true /\ key (end_y a i) = key (sw_y s'))).
  { intros t' s' Ht'. destruct (line_post _ _ _ _ _ H (nth_error_In _ _ Ht')) as (P & p & T).
    eapply post_exits; eassumption. }
  exists t, s. split; [exact Ht|]. split; [apply (HE _ _ Ht); auto|]. split.
  - assert (Ns : nan (sw_y s) = false).
    { destruct (line_post _ _ _ _ _ H (nth_error_In _ _ Ht)) as (P & _). apply (po_ahead _ _ _ _ _ P). }
    apply fin_nonnan in F. fold (end_y a i) in F. fk. apply Z.eqb_eq, K.
  - intros t' s' Ht' E. apply (HE _ _ Ht') in E. destruct E as (_ & _ & E).
    eapply sorted_unique; [eapply chain_heights; exact C|exact Ht'|exact Ht|congruence].
Qed.

(** ** C23 *)
(** Every line lists, without repetition, exactly the segments meeting its height: those that go on
    below, those that come from above, and all together; and its horizontals are exactly the
    horizontal segments at its height. *)
Theorem line_holds_active_segments : forall fuel n l done, sweep fuel n 0 (sweeper_new a) = Ok (l, done) ->
  forall s, In s l ->
  (forall i, In i (new_segs (sw_line s)) <->
     registered a i /\ fle (start_y a i) (sw_y s) = true /\ flt (sw_y s) (end_y a i) = true) /\
  (forall i, In i (old_segs (sw_line s)) <->
     registered a i /\ flt (start_y a i) (sw_y s) = true /\ fle (sw_y s) (end_y a i) = true) /\
  (forall i, In i (members (sw_line s)) <->
     registered a i /\ slanted a i = true /\ fle (start_y a i) (sw_y s) = true /\ fle (sw_y s) (end_y a i) = true) /\
  (forall i, In i (sw_horiz s) <-> registered a i /\ slanted a i = false /\ feq (start_y a i) (sw_y s) = true) /\
  NoDup (new_segs (sw_line s)) /\ NoDup (old_segs (sw_line s)) /\ NoDup (members (sw_line s)) /\ NoDup (sw_horiz s).
Proof.
  intros fuel n l done H s HI. pose proof (ss_arena _ _ _ _ _ SET) as SP.
  destruct (line_post _ _ _ _ _ H HI) as (P & p & T).
  assert (Ns : nan (sw_y s) = false) by (apply (po_ahead _ _ _ _ _ P)).
  assert (NN : forall i, registered a i -> nan (start_y a i) = false /\ nan (end_y a i) = false).
  { intros i R. pose proof (registered_lt _ SP _ R) as Lt. destruct (sp_finite _ SP _ Lt) as [[_ F1] [_ F2]]. split; apply fin_nonnan; assumption. }
  assert (SL : forall i, registered a i -> (slanted a i = true <-> (key (start_y a i) < key (end_y a i))%Z)).
  { intros i R. destruct (NN i R). unfold slanted. fk. apply Z.ltb_lt. }
  split; [|split; [|split; [|split; [|split; [|split; [|split]]]]]].
  - intros i. rewrite (post_new _ _ SP _ _ _ _ P). unfold live. split.
    + intros ((R & S & L) & K). destruct (NN i R). split; [exact R|]. fk. split; [apply Z.leb_le|apply Z.ltb_lt]; lia.
    + intros (R & L1 & L2). destruct (NN i R). fk. zb. split; [|lia]. split; [exact R|]. split; [apply (SL i R); lia|lia].
  - intros i. rewrite (post_old _ _ _ _ _ _ P). unfold live. split.
    + intros ((R & S & L) & K). destruct (NN i R). split; [exact R|]. fk. split; [apply Z.ltb_lt|apply Z.leb_le]; lia.
    + intros (R & L1 & L2). destruct (NN i R). fk. zb. split; [|lia]. split; [exact R|]. split; [apply (SL i R); lia|lia].
  - intros i. rewrite (post_members _ _ _ _ _ _ P). unfold live. split.
    + intros (R & S & L). destruct (NN i R). split; [exact R|]. split; [exact S|]. fk. split; apply Z.leb_le; lia.
    + intros (R & S & L1 & L2). destruct (NN i R). fk. zb. split; [exact R|]. split; [exact S|]. lia.
  - intros i. rewrite (step_horiz _ _ _ _ _ _ _ _ _ _ T). split.
    + intros (R & S & K). destruct (NN i R). split; [exact R|]. split; [exact S|]. fk. apply Z.eqb_eq, K.
    + intros (R & S & K). destruct (NN i R). fk. zb. auto.
  - apply new_nodup, P.
  - apply old_nodup, P.
  - apply P.
  - eapply step_horiz_nodup; exact T.
Qed.

(** ** C26 *)
Theorem changed_intervals_closed : forall fuel n l done, sweep fuel n 0 (sweeper_new a) = Ok (l, done) ->
  forall s, In s l -> intervals_ok a eps lower upper s.
Proof.
  intros fuel n l done H s HI. destruct (line_post _ _ _ _ _ H HI) as (P & p & T).
  eapply step_intervals; [exact P|exact T|reflexivity].
Qed.

(** ** C48 *)
(** No sweep panics: the only failures of the model are running out of its loop bound, and, if the
    comparisons are not consistent, the panic of [entry_at] in [handle_intersection]. *)
Theorem sweep_never_panics : forall fuel n e, sweep fuel n 0 (sweeper_new a) = Err e ->
  e = EFuel \/ (e = EEntryAt /\ ~ consistent a cmp).
Proof. intros fuel n e H. pose proof (run_result fuel n) as R. rewrite H in R. exact R. Qed.

(** ** C50 *)
(** Each line, listed in the order before the crossings at its height, has above it exactly what the previous line
    has below it, in the same order (the first line has nothing above). *)
Theorem lines_continue : forall fuel n l done, sweep fuel n 0 (sweeper_new a) = Ok (l, done) ->
  forall t s s', nth_error (sweeper_new a :: l) t = Some s -> nth_error (sweeper_new a :: l) (S t) = Some s' ->
  exists before, length before = length (sw_line s') /\
    (forall k e, nth_error (sw_line s') k = Some e -> nth_error before (origin k e) = Some (unmark e)) /\
    old_segs before = new_segs (sw_line s).
Proof.
  intros fuel n l done H t s s' H1 H2. apply run_ok in H. eapply step_continues. eapply chain_next; eassumption.
Qed.
End Oracles.

(** ** C24 *)
(** A crossing event that is handled without panic reorders the line as described by [handled]. *)
Theorem crossing_handled : forall a eps cmp ccmp min_x max_x s left right s',
  nan (sw_y s) = false -> Forall (fun ev => nan (ie_y ev) = false) (sw_int s) ->
  handle_intersection a eps cmp ccmp min_x max_x s left right = Ok s' -> handled cmp s left right s'.
Proof. intros a eps cmp ccmp min_x max_x s left right s'. apply handle_intersection_handled. Qed.

Lemma unmark_set_old k e : unmark (set_old_idx k e) = unmark e.
Proof. unfold set_old_idx, unmark. destruct (le_old_idx e); reflexivity. Qed.
Lemma has_seg_set_old i k e : has_seg i (set_old_idx k e) = has_seg i e.
Proof. unfold set_old_idx, has_seg. destruct (le_old_idx e); reflexivity. Qed.
Lemma split_by_perm {A} (p q : A -> Prop) l k m : split_by p q l k m -> Permutation l (k ++ m).
Proof.
  induction 1; [constructor|cbn; constructor; assumption|].
  etransitivity; [constructor; exact IHsplit_by|]. apply Permutation_middle.
Qed.

(** Nothing is lost, duplicated or invented, entries outside the range between the two segments stay as they were, and
    unless the event is postponed [right] now stands to the left of [left]. *)
Theorem crossing_permutes : forall a eps cmp ccmp min_x max_x s left right s', left <> right ->
  nan (sw_y s) = false -> Forall (fun ev => nan (ie_y ev) = false) (sw_int s) ->
  handle_intersection a eps cmp ccmp min_x max_x s left right = Ok s' ->
  Permutation (map unmark (sw_line s)) (map unmark (sw_line s')) /\
  (sw_line s' = sw_line s \/
   exists A M M' B, sw_line s = A ++ M ++ B /\ sw_line s' = A ++ M' ++ B /\ Permutation (map unmark M) (map unmark M') /\
     (exists M0 er, M = M0 ++ [er] /\ has_seg right er = true) /\ (exists el M0, M = el :: M0 /\ has_seg left el = true)) /\
  ((exists ri li er el, ri <= li /\ nth_error (sw_line s') ri = Some er /\ nth_error (sw_line s') li = Some el /\
      has_seg right er = true /\ has_seg left el = true) \/
   (exists ev, In ev (sw_int s') /\ ie_left ev = left /\ ie_right ev = right /\ flt (sw_y s) (ie_y ev) = true)).
Proof.
  intros a eps cmp ccmp min_x max_x s left right s' D Ny NQ H.
  destruct (crossing_handled _ _ _ _ _ _ _ _ _ _ Ny NQ H) as
    [A el mid er B mid' km pm L HL HR F2 SB L' ND|li ri el er NL NR HL HR LE L' ND|A el m1 e m2 er B ev L HL HR RX O1 O2 L' ND HI E1 E2 LT].
  - assert (MM : map unmark mid' = map unmark mid).
    { clear -F2. induction F2 as [|x y l l' (k & -> & _) F IH]; cbn; [reflexivity|]. rewrite unmark_set_old. f_equal. exact IH. }
    set (N := set_old_idx (length A + S (length mid)) er) in *. set (Z := set_old_idx (length A) el) in *.
    assert (PM : Permutation (map unmark (el :: mid ++ [er])) (map unmark (km ++ N :: Z :: pm))).
    { transitivity (map unmark (Z :: mid' ++ [N])).
      - cbn [map]. rewrite !map_app, MM. unfold Z, N. cbn [map]. rewrite !unmark_set_old. reflexivity.
      - apply Permutation_map. apply split_by_perm in SB. transitivity (Z :: N :: mid').
        + constructor. symmetry. apply Permutation_cons_append.
        + transitivity (Z :: N :: (km ++ pm)); [do 2 constructor; exact SB|].
          transitivity (N :: Z :: (km ++ pm)); [constructor|].
          transitivity (N :: km ++ Z :: pm); [constructor; apply Permutation_middle|]. apply Permutation_middle. }
    split; [|split].
    + rewrite L, L'. replace (A ++ el :: mid ++ er :: B) with (A ++ (el :: mid ++ [er]) ++ B) by (cbn; rewrite <- app_assoc; reflexivity).
      replace (A ++ km ++ N :: Z :: pm ++ B) with (A ++ (km ++ N :: Z :: pm) ++ B) by (rewrite <- app_assoc; reflexivity).
      rewrite !(map_app unmark A), !(map_app unmark _ B). apply Permutation_app_head, Permutation_app_tail, PM.
    + right. exists A, (el :: mid ++ [er]), (km ++ N :: Z :: pm), B. split; [rewrite L; cbn; rewrite <- app_assoc; reflexivity|].
      split; [rewrite L', <- app_assoc; reflexivity|]. split; [exact PM|]. split.
      * exists (el :: mid), er. auto.
      * exists el, (mid ++ [er]). auto.
    + left. exists (length A + length km), (S (length A + length km)), N, Z. split; [lia|].
      assert (NN : forall k, nth_error (sw_line s') (length A + length km + k) = nth_error (N :: Z :: pm ++ B) k).
      { intros k. rewrite L', app_assoc, nth_error_app2; rewrite app_length; [f_equal; lia|lia]. }
      split; [rewrite <- (Nat.add_0_r (_ + _)), NN; reflexivity|]. split; [replace (S (length A + length km)) with (length A + length km + 1) by lia; rewrite NN; reflexivity|].
      unfold N, Z. rewrite !has_seg_set_old. auto.
  - rewrite L'. split; [reflexivity|]. split; [left; reflexivity|]. left. exists ri, li, er, el. auto.
  - rewrite L'. split; [reflexivity|]. split; [left; reflexivity|]. right. exists ev. auto.
Qed.

(** ** C25 *)
(** Merging intervals sorted by their start: the result is sorted with gaps, covers exactly the same indices, and each
    interval (with its horizontals) lies in one of the result. *)
Theorem merging_loses_nothing : forall l,
  Forall (fun c => fst (ci_segs c) <= snd (ci_segs c)) l ->
  StronglySorted (fun c d => fst (ci_segs c) <= fst (ci_segs d)) l ->
  StronglySorted (fun c d => snd (ci_segs c) < fst (ci_segs d)) (merge_adjacent l) /\
  (forall k, (exists c, In c (merge_adjacent l) /\ in_interval k c) <-> (exists c, In c l /\ in_interval k c)) /\
  (forall c, In c l -> exists d, In d (merge_adjacent l) /\ fst (ci_segs d) <= fst (ci_segs c) /\ snd (ci_segs c) <= snd (ci_segs d) /\
     forall r, ci_hor c = Some r -> exists q, ci_hor d = Some q /\ fst q <= fst r /\ snd r <= snd q) /\
  (forall d q, In d (merge_adjacent l) -> ci_hor d = Some q -> exists b c rb rc, In b l /\ In c l /\
     ci_hor b = Some rb /\ ci_hor c = Some rc /\ fst rb = fst q /\ snd rc = snd q).
Proof.
  intros l W S. destruct (merge_adjacent_spec l W S) as (A1 & A2 & A3 & A4 & A5). split; [exact A2|]. split; [|split].
  - intros k. specialize (A3 k). rewrite !Exists_exists in A3. exact A3.
  - intros c Hc. destruct (A4 c Hc) as (d & D1 & D2). exists d. split; [exact D1|exact D2].
  - intros d q Hd Hq. destruct (A5 d Hd) as [_ X]. destruct (X q Hq) as (b & c & rb & rc & B1 & B2 & _ & _ & B3 & B4 & B5 & B6).
    exists b, c, rb, rc. auto 10.
Qed.

(** ** C49 *)
(** Between structural changes of a TreeVec its searches are one function of the predicate and the elements, which always finds
    a boundary and never goes down when more elements satisfy the predicate: what [sound_setting] asks of searches. *)
Theorem treevec_search_function : forall (T : Type) (B : nat) (pp : slice_pp) ops (t : node T), 4 <= B ->
  pp = @std_pp_old \/ pp = @std_pp_new -> snd (TreeVecSpec.run (tree_step B) tv_new ops) = Some t ->
  exists f : (T -> bool) -> list T -> nat, search_ok f /\ search_mono f /\
    (forall ws t' p, Forall is_write ws -> snd (TreeVecSpec.run (tree_step B) t ws) = Some t' ->
       tv_partition_point pp p t' = Some (f p (elems t'))).
Proof.
  intros T B pp ops t HB HP R.
  assert (PP : pp_ok pp /\ pp_mono pp) by (destruct HP as [->| ->]; [split; [apply std_pp_old_ok|apply std_pp_old_mono]|split; [apply std_pp_new_ok|apply std_pp_new_mono]]).
  destruct PP as [P1 P2]. destruct (search_function B HB pp ops t P1 P2 R) as (f & F1 & F2 & F3). exists f. auto.
Qed.

(** ** Non-vacuity *)
From Verif Require Import PropsSegments SweepReach SweepCheck.

(** Two crossing segments, a horizontal one through the crossing lines, and a polyline of two pieces, the second of which
    replaces the first at height 5. *)
Definition ex_input : list seg_op :=
  [OpPoints [pt 0 0; pt 10 10]; OpPoints [pt 10 0; pt 0 10]; OpPoints [pt 2 3; pt 8 3]; OpPoints [pt 20 0; pt 20 5; pt 25 10]].
Definition ex_arena : arena := match ex_run arena_default ex_input with Some (a, _) => a | None => arena_default end.
Definition ex_table (l : list (Z * order)) : curve_order := mkCO fzero (map (fun '(h, o) => mkEntry (z h) o) l).
Definition ex_cmp (i j : nat) : curve_order :=
  match i, j with
  | 0, 1 => ex_table [(4, Left); (6, Ish); (10, Right)]%Z
  | 1, 0 => ex_table [(4, Right); (6, Ish); (10, Left)]%Z
  | 3, 4 => mkCO (z 5) [mkEntry (z 5) Ish]
  | 4, 3 => mkCO (z 5) [mkEntry (z 5) Ish]
  | 3, _ => ex_table [(5, Right)]%Z
  | _, 3 => ex_table [(5, Left)]%Z
  | 4, _ => mkCO (z 5) [mkEntry (z 10) Right]
  | _, 4 => mkCO (z 5) [mkEntry (z 10) Left]
  | _, _ => ex_table [(10, Ish)]%Z
  end.
Definition ex_min (s : segment) : f64 := fmin (px (seg_start s)) (px (seg_end s)).
Definition ex_max (s : segment) : f64 := fmax (px (seg_start s)) (px (seg_end s)).
Definition ex_pps (t : nat) : ((lentry -> bool) -> list lentry -> nat) * ((lentry -> bool) -> list lentry -> nat) := (scan_pp, scan_pp).
Definition ex_sweep (fuel n : nat) : res (list sweeper * bool) :=
  SweepModel.sweep ex_arena (f64_of_Z 0) ex_cmp ex_cmp ex_min ex_max (fun s _ _ => ex_min s) (fun s _ _ => ex_max s) ex_pps (@isort) fuel n 0 (sweeper_new ex_arena).

(** What happens: the lines at heights 0, 3, 5, 10; the crossing is handled at height 5, in the middle of the interval
    where the two segments are close. *)
Example ex_sweep_result :
  match ex_sweep 100 100 with
  | Ok (l, done) => done = true /\
      map (fun s => map (fun h => feq (sw_y s) (z h)) [0; 3; 5; 10]%Z) l =
        [[true; false; false; false]; [false; true; false; false]; [false; false; true; false]; [false; false; false; true]] /\
      map (fun s => map le_seg (sw_line s)) l = [[0; 1; 3]; [0; 1; 3]; [1; 0; 4]; [1; 0; 4]] /\
      map (fun s => map le_old_seg (sw_line s)) l = [[None; None; None]; [None; None; None]; [None; None; Some 3]; [None; None; None]] /\
      map sw_horiz l = [[]; [2]; []; []] /\
      map sw_changed l = [[mkCI (0, 3) None]; [mkCI (0, 2) (Some (0, 1))]; [mkCI (0, 3) None]; [mkCI (0, 3) None]]
  | Err _ => False
  end.
Proof. vm_compute. repeat split. Qed.

(** It is a sound setting, with consistent comparisons. *)
Lemma ex_reachable : reachable_ok ex_eval ex_ctrl ex_monic ex_quad ex_at_y isort ex_input ex_arena.
Proof.
  unfold reachable_ok, ex_arena, ex_run.
  destruct (SegmentsSpec.run ex_eval ex_ctrl ex_monic ex_quad ex_at_y isort arena_default ex_input) as [[a oks]|] eqn:E.
  - assert (X : match SegmentsSpec.run ex_eval ex_ctrl ex_monic ex_quad ex_at_y isort arena_default ex_input with Some (_, o) => o | None => [] end = [true; true; true; true]) by (vm_compute; reflexivity).
    rewrite E in X. rewrite X. reflexivity.
  - assert (X : match SegmentsSpec.run ex_eval ex_ctrl ex_monic ex_quad ex_at_y isort arena_default ex_input with Some (_, o) => true | None => false end = true) by (vm_compute; reflexivity).
    rewrite E in X. discriminate.
Qed.
Lemma ex_sweepable : sweepable ex_arena.
Proof.
  apply (reachable_sweepable ex_eval ex_ctrl ex_monic ex_quad ex_at_y isort isort_spec ex_input ex_arena).
  - intros p [H|[H|[H|[H|[]]]]]; discriminate.
  - intros op [<-|[<-|[<-|[<-|[]]]]]; exact I.
  - assert (N : forall l, forallb (fun p => negb (nan (px p)) && negb (nan (py p))) l = true -> Forall point_nonnan l).
    { intros l H. rewrite forallb_forall in H. apply Forall_forall. intros p Hp. apply H in Hp. apply andb_true_iff in Hp. destruct Hp as [H1 H2].
      split; [destruct (nan (px p))|destruct (nan (py p))]; try reflexivity; discriminate. }
    intros op [<-|[<-|[<-|[<-|[]]]]]; cbn [op_nonnan]; apply N; vm_compute; reflexivity.
  - exact ex_reachable.
  - assert (X : forallb (fun s => fin (px (seg_start s)) && fin (py (seg_start s)) && fin (px (seg_end s)) && fin (py (seg_end s))) (segs ex_arena) = true) by (vm_compute; reflexivity).
    rewrite forallb_forall in X. intros s Hs. apply X in Hs. rewrite !andb_true_iff in Hs. destruct Hs as (((A & B) & C) & D).
    split; [split; assumption|]. split; [split; assumption|]. intros y _. unfold ex_at_y. split; [apply fin_nonnan, A|]. apply fin_nonnan in A. fk. apply Z.eqb_refl.
Qed.
Example ex_sound : sound_setting ex_arena ex_cmp ex_cmp ex_pps (@isort).
Proof.
  assert (CO : comparer_ok ex_arena ex_cmp) by (apply comparer_b_ok; vm_compute; reflexivity).
  split; [exact ex_sweepable|exact CO|exact CO| |intros A; apply isort_spec].
  intros t. split; [intros p l; apply scan_pp_boundary|]. split; [intros p l; apply scan_pp_boundary|]. intros p q l l' F. apply scan_pp_mono, F.
Qed.
Example ex_consistent : consistent ex_arena ex_cmp.
Proof.
  split.
  - intros [|[|[|[|[|i]]]]] [|[|[|[|[|j]]]]] D; try reflexivity; exfalso; apply D; reflexivity.
  - intros y i j k Ny Li Lj Lk.
    assert (B : forall i, live ex_arena y i -> i < 5 /\ i <> 2).
    { intros n (R & S & _). split; [apply (registered_lt _ ex_sweepable) in R; exact R|]. intros ->.
      assert (X : slanted ex_arena 2 = false) by (vm_compute; reflexivity). congruence. }
    apply B in Li, Lj, Lk. unfold eorder, co_entry_at.
    assert (G : (fgt (z 4) y = true -> fgt (z 5) y = true) /\ (fgt (z 5) y = true -> fgt (z 6) y = true) /\ (fgt (z 6) y = true -> fgt (z 10) y = true)).
    { assert (N4 : nan (z 4) = false) by reflexivity. assert (N5 : nan (z 5) = false) by reflexivity. assert (N6 : nan (z 6) = false) by reflexivity. assert (N10 : nan (z 10) = false) by reflexivity.
      assert (K4 : (key (z 4) < key (z 5) < key (z 6))%Z) by (vm_compute; split; reflexivity). assert (K6 : (key (z 6) < key (z 10))%Z) by (vm_compute; reflexivity).
      fk. rewrite !Z.ltb_lt. lia. }
    destruct G as (G1 & G2 & G3).
    destruct i as [|[|[|[|[|i]]]]]; try lia; destruct j as [|[|[|[|[|j]]]]]; try lia; destruct k as [|[|[|[|[|k]]]]]; try lia;
      cbn [ex_cmp ex_table map co_iter co_iter_from co_start co_cmps e_end e_order find option_map snd];
      destruct (fgt (z 4) y), (fgt (z 5) y), (fgt (z 6) y), (fgt (z 10) y); cbn; try congruence; intuition congruence.
Qed.

Print Assumptions sweep_heights_increase.
Print Assumptions segments_enter_once.
Print Assumptions segments_exit_once.
Print Assumptions line_holds_active_segments.
Print Assumptions crossing_handled.
Print Assumptions crossing_permutes.
Print Assumptions merging_loses_nothing.
Print Assumptions changed_intervals_closed.
Print Assumptions sweep_never_panics.
Print Assumptions treevec_search_function.
Print Assumptions lines_continue.
