(** The calls of one line, and of all lines. *)
From Coq Require Import List Bool ZArith Arith Lia Permutation Sorted.
From Verif Require Import F64 F64Arith TreeVecModel GeomModel SegmentsModel SegmentsSpec SegmentsProofs CurveOrderModel CurveOrderProofs SweepModel SweepSpec
  SweepProofs2 SweepProofs8 SweepProofs10 RangeModel RangeSpec RangeProofs3 RangeProofs4 RangeProofs5 PropsSweep PropsRange TopoModel TopoSpec TopoProofs6 TopoProofs7 TopoProofs9 TopoProofs WindSpec WindProofs5
  CallbackModel CallbackSpec CallbackProofs.
Import ListNotations.

Lemma skipn_S {A} d (rest : list A) : forall k l, skipn k l = d :: rest -> skipn (S k) l = rest.
Proof. induction k as [|k IH]; intros [|x l] H; try discriminate H; [cbn in H; injection H as _ H; exact H|]. exact (IH l H). Qed.

Section Line.
Variable a : arena.
Variable eps : f64.
Variables lower upper : segment -> f64 -> f64 -> f64.
Variable at_y : segment -> f64 -> f64.
Variable sort_by : forall A : Type, (A -> A -> comparison) -> list A -> list A.
Hypothesis SP : sweepable a.
Hypothesis SORT : forall A, sort_spec (sort_by A).
Variable s : sweeper.
Variable before : list lentry.
Hypothesis TL : tline a eps lower upper at_y sort_by s before.
Hypothesis IV : intervals_ok a eps lower upper s.
Variable fuel : nat.
Hypothesis FUEL : 2 * arena_len a < fuel.
Notation y := (sw_y s).
Notation line := (sw_line s).

Lemma evs_length c evs : In c (sw_changed s) -> range_report a s c evs -> length evs <= arena_len a.
Proof.
  intros HC REP. pose proof (segs_nodup a eps lower upper at_y sort_by s before TL c evs REP) as ND. rewrite <- (map_length ev_seg evs), <- (seq_length (arena_len a) 0). apply NoDup_incl_length; [exact ND|].
  intros i H. apply in_map_iff in H. destruct H as (e & <- & H). apply in_seq. pose proof (seg_registered a eps lower upper at_y sort_by s before TL c evs REP e H) as R. apply (registered_lt _ SP) in R. lia.
Qed.

Lemma in_members_range c i : In c (sw_changed s) -> forall evs, range_report a s c evs -> In i (map ev_seg evs) <-> In i (range_members s c).
Proof. intros HC evs REP. unfold range_members. pose proof (rr_segs _ _ _ _ REP) as P. split; intros H; [apply (Permutation_in _ P), H|apply (Permutation_in _ (Permutation_sym P)), H]. Qed.

(** Members meet the height. *)
Lemma member_meets c i : In c (sw_changed s) -> In i (range_members s c) -> registered a i /\ fle (start_y a i) y = true /\ fle y (end_y a i) = true.
Proof.
  intros HC H. unfold range_members in H. apply in_app_iff in H. destruct H as [H|H].
  - assert (X : In i (members line)). { unfold range_entries in H. fold (piece line (fst (ci_segs c)) (snd (ci_segs c))) in H. unfold members in *. rewrite in_flat_map in *. destruct H as (e & He & H). exists e. split; [eapply in_piece_in, He|exact H]. }
    apply (tl_all _ _ _ _ _ _ _ _ TL) in X. tauto.
  - assert (X : In i (sw_horiz s)). { unfold range_horizontals in H. destruct (ci_hor c) as [[p q]|]; [|destruct H]. cbn [fst snd] in H. fold (piece (sw_horiz s) p q) in H. eapply in_piece_in, H. }
    apply (tl_hor _ _ _ _ _ _ _ _ TL) in X. destruct X as (R & S & Q). split; [exact R|]. destruct (reg_num a SP i R) as (N1 & N2 & _). pose proof (tl_y _ _ _ _ _ _ _ _ TL) as NY. pose proof (down a SP i R). unfold slanted in S. fk. zb. lia.
Qed.

Lemma one_interval' c d k : In c (sw_changed s) -> In d (sw_changed s) -> in_interval k c -> in_interval k d -> c = d.
Proof. intros H1 H2. eapply sorted_apart; try eassumption; apply (iv_apart _ _ _ _ _ IV). Qed.
Lemma slot_range' i k c : slot s i k -> In c (sw_changed s) -> (In i (range_members s c) <-> in_interval k c).
Proof.
  intros SL Hc. pose proof (slot_slanted a eps lower upper at_y sort_by s before TL i k SL) as SI. destruct SL as (e & He & Hi). pose proof (iv_bounds _ _ _ _ _ IV c Hc) as B. unfold range_members. rewrite in_app_iff. unfold in_interval. split.
  - intros [H|H].
    + apply in_flat_map in H. destruct H as (f & Hf & Hf'). apply In_nth_error in Hf. destruct Hf as [n Hn]. unfold range_entries in Hn.
      assert (n < snd (ci_segs c) - fst (ci_segs c)). { assert (X : n < length (firstn (snd (ci_segs c) - fst (ci_segs c)) (skipn (fst (ci_segs c)) line))) by (apply nth_error_Some; congruence). rewrite firstn_length in X. lia. }
      rewrite nth_error_firstn in Hn by assumption. rewrite nth_error_skipn in Hn. assert (fst (ci_segs c) + n = k). { eapply (mem_pos a eps lower upper at_y sort_by s before TL); eassumption. } lia.
    + exfalso. assert (X : In i (sw_horiz s)). { unfold range_horizontals in H. destruct (ci_hor c) as [q|]; [|destruct H]. apply in_firstn in H. destruct H as (k' & _ & H). apply nth_error_In in H. apply in_skipn in H. destruct H as (k2 & _ & H). apply nth_error_In in H. exact H. }
      apply (tl_hor _ _ _ _ _ _ _ _ TL) in X. destruct X as (_ & X & _). congruence.
  - intros H. left. apply in_flat_map. exists e. split; [|exact Hi]. apply (nth_error_In _ (k - fst (ci_segs c))). unfold range_entries. rewrite nth_error_firstn, nth_error_skipn by lia. rewrite <- He. f_equal. lia.
Qed.

(** A member is in one range only. *)
Lemma one_range c d i : In c (sw_changed s) -> In d (sw_changed s) -> In i (range_members s c) -> In i (range_members s d) -> c = d.
Proof.
  intros HC HD H1 H2. destruct (slanted a i) eqn:SL.
  - assert (X : exists k, slot s i k).
    { destruct (member_meets c i HC H1) as (R & L1 & L2). assert (X : In i (members line)) by (apply (tl_all _ _ _ _ _ _ _ _ TL); auto). apply in_flat_map in X. destruct X as (e & He & Hi). apply In_nth_error in He. destruct He as [k He]. exists k, e. auto. }
    destruct X as (k & X). apply (slot_range' i k c X HC) in H1. apply (slot_range' i k d X HD) in H2.
    eapply (one_interval'); eassumption.
  - assert (G : forall c, In c (sw_changed s) -> In i (range_members s c) -> exists n q, ci_hor c = Some q /\ fst q <= n < snd q /\ nth_error (sw_horiz s) n = Some i).
    { intros c' HC' H. unfold range_members in H. apply in_app_iff in H. destruct H as [H|H].
      - exfalso. assert (X : In i (members line)). { unfold range_entries in H. fold (piece line (fst (ci_segs c')) (snd (ci_segs c'))) in H. unfold members in *. rewrite in_flat_map in *. destruct H as (e & He & H). exists e. split; [eapply in_piece_in, He|exact H]. }
        apply (tl_all _ _ _ _ _ _ _ _ TL) in X. destruct X as (_ & X & _). congruence.
      - unfold range_horizontals in H. destruct (ci_hor c') as [[p q]|] eqn:CH; [|destruct H]. cbn [fst snd] in H. fold (piece (sw_horiz s) p q) in H. apply in_piece in H. destruct H as (n & L & H). exists n, (p, q). auto. }
    destruct (G c HC H1) as (n & q & C1 & C2 & C3). destruct (G d HD H2) as (n' & q' & D1 & D2 & D3).
    assert (n = n') as <-. { assert (Ln : n < length (sw_horiz s)) by (apply nth_error_Some; congruence). eapply (proj1 (NoDup_nth_error _) (tl_horiz _ _ _ _ _ _ _ _ TL)); [exact Ln|congruence]. }
    assert (Ln : n < length (sw_horiz s)) by (apply nth_error_Some; congruence). destruct (iv_hor _ _ _ _ _ IV n Ln) as (z & qz & _ & _ & _ & U). rewrite (U c q HC C1 C2), (U d q' HD D1 D2). reflexivity.
Qed.
Lemma changed_nodup : NoDup (sw_changed s).
Proof.
  pose proof (iv_apart _ _ _ _ _ IV) as S. pose proof (iv_bounds _ _ _ _ _ IV) as B. induction S as [|c l S IH F]; [constructor|]. constructor; [|apply IH; intros d Hd; apply B; right; exact Hd].
  intros H. rewrite Forall_forall in F. apply F in H. pose proof (B c (or_introl eq_refl)). lia.
Qed.

(** The ends of the events of a lone entry. *)
Lemma lone_at c buf evs buf' E : In c (sw_changed s) -> range_events a eps lower upper at_y sort_by s buf c = Ok (evs, buf') -> lone c = true -> In E evs ->
  ev_x0 E = ev_x1 E /\ exists k, ev_x0 E = at_y (seg_def a k) y /\ (k = ev_seg E \/ (feq (end_y a (ev_seg E)) y = true /\ sweep_prev a k = Ok (Some (ev_seg E)))).
Proof.
  intros HC H L HE. unfold range_events in H. unfold lone in L. rewrite L in H. unfold single_seg in H.
  destruct (line_get line (fst (ci_segs c))) as [e|e] eqn:G; cbn [rbind] in H; [|discriminate]. destruct (seg_at a (le_seg e)) as [g|e'] eqn:SG; cbn [rbind] in H; [|discriminate].
  unfold x_at in H. destruct (_ && _); cbn [rbind] in H; [|discriminate].
  assert (EG : g = seg_def a (le_seg e)). { unfold seg_at in SG. unfold seg_def. destruct (nth_error (segs a) (le_seg e)) as [g'|] eqn:NE; cbn in SG; [injection SG as <-; symmetry; apply nth_error_nth, NE|discriminate]. }
  assert (HN : nth_error line (fst (ci_segs c)) = Some e). { unfold line_get in G. destruct (nth_error line (fst (ci_segs c))); cbn in G; [injection G as <-; reflexivity|discriminate]. }
  pose proof (tl_ok _ _ _ _ _ _ _ _ TL) as OK. rewrite Forall_forall in OK. specialize (OK e (nth_error_In _ _ HN)). unfold SweepProofs8.post_ok in OK.
  injection H as <- _. subst g. destruct (le_old_seg e) as [p|] eqn:EO.
  - destruct OK as (_ & _ & _ & _ & (RP & _) & _ & K & SV). destruct HE as [<-|[<-|[]]]; cbn [ev_x0 ev_x1 ev_seg]; (split; [reflexivity|]); exists (le_seg e); (split; [reflexivity|]); [right|left; reflexivity].
    split; [|exact SV]. destruct (reg_num a SP p RP) as (_ & N2 & _). pose proof (tl_y _ _ _ _ _ _ _ _ TL). fk. zb. lia.
  - destruct HE as [<-|[]]. cbn [ev_x0 ev_x1 ev_seg]. split; [reflexivity|]. exists (le_seg e). auto.
Qed.

Lemma range_visit c buf evs buf' E l : In c (sw_changed s) -> range_events a eps lower upper at_y sort_by s buf c = Ok (evs, buf') -> range_report a s c evs -> In E evs ->
  (stretch feq (ev_x0 E) (ev_above E) (ev_x1 E) (ev_below E) l /\ length l = 1) \/ stretch flt (ev_x0 E) (ev_above E) (ev_x1 E) (ev_below E) l \/ stretch fgt (ev_x0 E) (ev_above E) (ev_x1 E) (ev_below E) (rev l) ->
  visit a at_y (ev_seg E) y l.
Proof.
  intros HC RE REP HE ST. assert (HM : In (ev_seg E) (range_members s c)) by (apply (in_members_range c _ HC evs REP), in_map, HE). destruct (member_meets c _ HC HM) as (R & L1 & L2).
  split; [exact L1|]. split; [exact L2|]. cbv zeta. rewrite <- (rr_above _ _ _ _ REP E HE), <- (rr_below _ _ _ _ REP E HE). exists (ev_x0 E), (ev_x1 E). split; [exact ST|].
  destruct (lone c) eqn:LC.
  - right. eapply lone_at; eassumption.
  - left. split; intros X; [apply (rr_start _ _ _ _ REP E HE LC X)|apply (rr_end _ _ _ _ REP E HE LC X)].
Qed.

Definition told (rest : list cinterval) (c : list call) (i : nat) : Prop :=
  ((forall d, In d rest -> ~ In i (range_members s d)) /\ about i c = []) \/
  ((exists d, In d rest /\ In i (range_members s d)) /\ exists l, about i c = map (pair y) l /\ visit a at_y i y l).

Lemma about_app i c c' : about i (c ++ c') = about i c ++ about i c'. Proof. apply filter_app. Qed.
Lemma about_none i c : (forall p, In p c -> ev_seg (snd p) <> i) -> about i c = [].
Proof. induction c as [|p c IH]; intros H; [reflexivity|]. unfold about. cbn [filter]. replace (ev_seg (snd p) =? i) with false by (symmetry; apply Nat.eqb_neq, H; left; reflexivity). apply IH. intros q Hq. apply H. right. exact Hq. Qed.

Lemma line_told : forall n k buf rest, skipn k (sw_changed s) = rest -> length rest < n ->
  exists buf' c, line_calls a eps lower upper at_y sort_by fuel s n k buf = Ok (buf', c) /\ Forall (fun p => fst p = y /\ registered a (ev_seg (snd p))) c /\ forall i, told rest c i.
Proof.
  induction n as [|n IH]; intros k buf rest HR L; [lia|]. cbn [line_calls]. destruct rest as [|d rest].
  - assert (HN : nth_error (sw_changed s) k = None). { apply nth_error_None. assert (X : length (skipn k (sw_changed s)) = 0) by (rewrite HR; reflexivity). rewrite skipn_length in X. lia. }
    unfold next_range. rewrite HN. cbn [rbind]. exists buf, []. split; [reflexivity|]. split; [constructor|]. intros i. left. split; [intros d []|reflexivity].
  - assert (HN : nth_error (sw_changed s) k = Some d). { replace k with (k + 0) by lia. rewrite <- nth_error_skipn, HR. reflexivity. }
    assert (HR' : skipn (S k) (sw_changed s) = rest). { apply skipn_S with (1 := HR). }
    destruct (tl_rep _ _ _ _ _ _ _ _ TL k d buf HN) as (evs & buf1 & E1 & REP & _). rewrite E1. cbn [rbind]. assert (HD : In d (sw_changed s)) by (eapply nth_error_In, HN).
    assert (RE : range_events a eps lower upper at_y sort_by s buf d = Ok (evs, buf1)). { unfold next_range in E1. rewrite HN in E1. destruct (range_events _ _ _ _ _ _ s buf d) as [[evs' b']|e]; cbn [rbind] in E1; [injection E1 as <- <-; reflexivity|discriminate]. }
    pose proof (segs_nodup a eps lower upper at_y sort_by s before TL d evs REP) as ND. pose proof (evs_length d evs HD REP) as LE.
    destruct (range_trace sort_by SORT fuel y evs (rr_num _ _ _ _ REP) (rr_sorted _ _ _ _ REP) ND) as (c & C1 & C2 & C3); [lia|]. rewrite C1. cbn [rbind].
    destruct (IH (S k) buf1 rest HR') as (buf2 & c2 & D1 & D2 & D3); [cbn in L; lia|]. rewrite D1. cbn [rbind]. exists buf2, (c ++ c2). split; [reflexivity|]. split.
    + apply Forall_app. split; [|exact D2]. eapply Forall_impl; [|exact C2]. intros p [P1 P2]. split; [exact P1|]. apply in_map_iff in P2. destruct P2 as (e & <- & P2). apply (seg_registered a eps lower upper at_y sort_by s before TL d evs REP e P2).
    + intros i. pose proof changed_nodup as NDC. assert (NR : ~ In d rest). { intros X. rewrite <- (firstn_skipn k (sw_changed s)), HR in NDC. apply nodup_app in NDC. destruct NDC as (_ & NDC & _). inversion NDC; contradiction. }
      assert (SUB : forall z, In z rest -> In z (sw_changed s)). { intros z Hz. rewrite <- (firstn_skipn k (sw_changed s)), HR. apply in_or_app. right. right. exact Hz. }
      unfold told. rewrite about_app. destruct (in_dec Nat.eq_dec i (map ev_seg evs)) as [HI|HI].
      * right. pose proof (proj1 (in_members_range d i HD evs REP) HI) as HM. split; [exists d; split; [left; reflexivity|exact HM]|].
        assert (Z : about i c2 = []). { destruct (D3 i) as [[_ Z]|[(z & Z1 & Z2) _]]; [exact Z|]. exfalso. apply NR. rewrite (one_range d z i HD (SUB z Z1) HM Z2). exact Z1. }
        rewrite Z, app_nil_r. apply in_map_iff in HI. destruct HI as (E & <- & HE). destruct (C3 E HE) as (l & A & ST). exists l. split; [exact A|]. eapply range_visit; eassumption.
      * assert (Z : about i c = []). { apply about_none. intros p Hp X. rewrite Forall_forall in C2. apply C2 in Hp. destruct Hp as [_ Hp]. rewrite X in Hp. contradiction. }
        rewrite Z. cbn [app]. assert (NM : ~ In i (range_members s d)) by (intros X; apply HI, (in_members_range d i HD evs REP), X).
        destruct (D3 i) as [[Z1 Z2]|[(z & Z1 & Z2) (l & Z3 & Z4)]]; [left|right].
        -- split; [|exact Z2]. intros z [<-|Hz]; [exact NM|apply Z1, Hz].
        -- split; [exists z; split; [right; exact Z1|exact Z2]|]. exists l. auto.
Qed.

(** A segment with an end at this height is in a range. *)
Lemma end_in_range i : registered a i -> key (start_y a i) = key y \/ key (end_y a i) = key y -> exists d, In d (sw_changed s) /\ In i (range_members s d).
Proof.
  intros R K. destruct (reg_num a SP i R) as (N1 & N2 & _). pose proof (tl_y _ _ _ _ _ _ _ _ TL) as NY. pose proof (down a SP i R) as DN. destruct (slanted a i) eqn:SL.
  - assert (X : In i (members line)) by (apply (tl_all _ _ _ _ _ _ _ _ TL); split; [exact R|]; split; [exact SL|]; split; fk; zb; lia).
    apply in_flat_map in X. destruct X as (e & He & Hi). apply In_nth_error in He. destruct He as [k He]. pose proof (tl_ok _ _ _ _ _ _ _ _ TL) as OK. rewrite Forall_forall in OK. specialize (OK e (nth_error_In _ _ He)). unfold SweepProofs8.post_ok in OK.
    assert (X : le_enter e = true \/ le_exit e = true \/ origin k e <> k).
    { destruct (le_old_seg e) as [p|]; [destruct OK as (_ & OK & _); auto|]. destruct Hi as [<-|[]]. destruct OK as (_ & O1 & O2). destruct K as [K|K]; [left; apply O2, K|right; left; apply O1, K]. }
    destruct (iv_cover _ _ _ _ _ IV k e He X) as (d & Hd & Hk). exists d. split; [exact Hd|]. apply (slot_range' i k d); [exists e; auto|exact Hd|exact Hk].
  - assert (X : In i (sw_horiz s)) by (apply (tl_hor _ _ _ _ _ _ _ _ TL); split; [exact R|]; split; [exact SL|]; unfold slanted in SL; fk; zb; lia).
    apply In_nth_error in X. destruct X as (n & X). assert (Ln : n < length (sw_horiz s)) by (apply nth_error_Some; congruence). destruct (iv_hor _ _ _ _ _ IV n Ln) as (d & q & Hd & Hq & Hn & _). exists d. split; [exact Hd|].
    unfold range_members. apply in_or_app. right. unfold range_horizontals. rewrite Hq. fold (piece (sw_horiz s) (fst q) (snd q)). apply in_piece. exists n. auto.
Qed.

Definition line_ok (c : list call) : Prop :=
  Forall (fun p => fst p = y /\ registered a (ev_seg (snd p))) c /\
  forall i, registered a i -> (about i c = [] /\ key (start_y a i) <> key y /\ key (end_y a i) <> key y) \/ exists l, about i c = map (pair y) l /\ visit a at_y i y l.
Lemma line_total buf : exists buf' c, line_calls a eps lower upper at_y sort_by fuel s (S (length (sw_changed s))) 0 buf = Ok (buf', c) /\ line_ok c.
Proof.
  destruct (line_told (S (length (sw_changed s))) 0 buf (sw_changed s)) as (buf' & c & C1 & C2 & C3); [reflexivity|lia|]. exists buf', c. split; [exact C1|]. split; [exact C2|]. intros i R.
  destruct (C3 i) as [[Z1 Z2]|[_ Z]]; [left|right; exact Z]. split; [exact Z2|]. split; intros K; destruct (end_in_range i R) as (d & D1 & D2); auto; apply (Z1 d D1 D2).
Qed.
End Line.

(** *** All lines *)
Section Lines.
Variable a : arena.
Variable eps : f64.
Variables cmp ccmp : nat -> nat -> curve_order.
Variables min_x max_x : segment -> f64.
Variables lower upper : segment -> f64 -> f64 -> f64.
Variable at_y : segment -> f64 -> f64.
Variable pps : nat -> ((lentry -> bool) -> list lentry -> nat) * ((lentry -> bool) -> list lentry -> nat).
Variable sort_by : forall A : Type, (A -> A -> comparison) -> list A -> list A.
Notation sweep := (SweepModel.sweep a eps cmp ccmp min_x max_x lower upper pps sort_by).

Lemma lines_total fuel (Q : sweeper -> list call -> Prop) : forall n t s l, sweep fuel n t s = Ok (l, true) ->
  (forall z, In z l -> forall buf, exists buf' c, line_calls a eps lower upper at_y sort_by fuel z (S (length (sw_changed z))) 0 buf = Ok (buf', c) /\ Q z c) ->
  forall buf, exists cs, lines_calls a eps cmp ccmp min_x max_x lower upper at_y pps sort_by fuel n t s buf = Ok (concat cs) /\ Forall2 Q l cs.
Proof.
  induction n as [|n IH]; intros t s l H HQ buf; [discriminate|]. cbn [SweepModel.sweep lines_calls] in *.
  destruct (next_line _ _ _ _ _ _ _ _ _ _ _ fuel s) as [[s'|]|e]; cbn [rbind] in *; [|injection H as <-; exists []; split; [reflexivity|constructor]|discriminate].
  destruct (sweep fuel n (S t) s') as [[l' b]|e] eqn:R; cbn [rbind] in H; [|discriminate]. injection H as <- ->.
  destruct (HQ s' (or_introl eq_refl) buf) as (buf' & c & C1 & C2). rewrite C1. cbn [rbind].
  destruct (IH (S t) s' l' R) with (buf := buf') as (cs & D1 & D2); [intros z Hz; apply HQ; right; exact Hz|]. rewrite D1. cbn [rbind]. exists (c :: cs). split; [reflexivity|]. constructor; assumption.
Qed.

(** The visits of one segment. *)
Lemma visits_of i l cs : registered a i -> Forall2 (fun s c => line_ok a at_y s c) l cs -> StronglySorted (fun s s' => flt (sw_y s) (sw_y s') = true) l ->
  exists vs, about i (concat cs) = concat (map (fun v => map (pair (fst v)) (snd v)) vs) /\ Forall (fun v => visit a at_y i (fst v) (snd v)) vs /\
    (forall v, In v vs -> exists s, In s l /\ fst v = sw_y s) /\ StronglySorted (fun v v' => flt (fst v) (fst v') = true) vs /\
    forall s, In s l -> key (start_y a i) = key (sw_y s) \/ key (end_y a i) = key (sw_y s) -> exists v, In v vs /\ fst v = sw_y s.
Proof.
  intros R F. induction F as [|s c l cs [_ HC] F IH]; intros S.
  - exists []. split; [reflexivity|]. split; [constructor|]. split; [intros v []|]. split; [constructor|intros s []].
  - apply StronglySorted_inv in S. destruct S as [S FS]. destruct (IH S) as (vs & V1 & V2 & V3 & V4 & V5). cbn [concat]. rewrite about_app.
    destruct (HC i R) as [(Z & K1 & K2)|(e & Z & V)].
    + rewrite Z. exists vs. split; [exact V1|]. split; [exact V2|]. split; [|split; [exact V4|]].
      * intros v Hv. destruct (V3 v Hv) as (z & Z1 & Z2). exists z. split; [right; exact Z1|exact Z2].
      * intros z [<-|Hz] [K|K]; try contradiction; apply (V5 z Hz); auto.
    + rewrite Z, V1. exists ((sw_y s, e) :: vs). split; [reflexivity|]. split; [constructor; assumption|]. split; [|split].
      * intros v [<-|Hv]; [exists s; split; [left; reflexivity|reflexivity]|]. destruct (V3 v Hv) as (z & Z1 & Z2). exists z. split; [right; exact Z1|exact Z2].
      * constructor; [exact V4|]. apply Forall_forall. intros v Hv. destruct (V3 v Hv) as (z & Z1 & Z2). cbn [fst]. rewrite Z2. rewrite Forall_forall in FS. apply FS, Z1.
      * intros z [<-|Hz] K; [exists (sw_y s, e); split; [left; reflexivity|reflexivity]|]. destruct (V5 z Hz K) as (v & Hv & E). exists v. split; [right; exact Hv|exact E].
Qed.
Lemma sorted_step {A} (R : A -> A -> Prop) l : StronglySorted R l -> forall k x y, nth_error l k = Some x -> nth_error l (S k) = Some y -> R x y.
Proof.
  induction 1 as [|z l S IH F]; intros k x y H1 H2; [destruct k; discriminate|]. rewrite Forall_forall in F. destruct k as [|k]; [|exact (IH k x y H1 H2)].
  cbn in H1. injection H1 as <-. apply F. apply (nth_error_In l 0). exact H2.
Qed.
Lemma last_split {A} (l : list A) x : In x l -> exists l' y, l = l' ++ [y].
Proof. intros H. destruct (exists_last (l := l)) as (l' & y & E); [intros ->; destruct H|eauto]. Qed.

Lemma visits_all i l cs : sweepable a -> registered a i -> Forall2 (fun s c => line_ok a at_y s c) l cs -> StronglySorted (fun s s' => flt (sw_y s) (sw_y s') = true) l ->
  (exists s, In s l /\ feq (sw_y s) (start_y a i) = true) -> (exists s, In s l /\ feq (sw_y s) (end_y a i) = true) ->
  exists vs, about i (concat cs) = concat (map (fun v => map (pair (fst v)) (snd v)) vs) /\ visits a at_y i vs.
Proof.
  intros SP R F S (s1 & H1 & E1) (s2 & H2 & E2). destruct (visits_of i l cs R F S) as (vs & V1 & V2 & V3 & V4 & V5). exists vs. split; [exact V1|].
  destruct (reg_num a SP i R) as (N1 & N2 & _). destruct (feq_nonnan _ _ E1) as [M1 _], (feq_nonnan _ _ E2) as [M2 _].
  assert (K1 : key (start_y a i) = key (sw_y s1)) by (fk; zb; lia). assert (K2 : key (end_y a i) = key (sw_y s2)) by (fk; zb; lia).
  destruct (V5 s1 H1 (or_introl K1)) as (v1 & I1 & F1). destruct (V5 s2 H2 (or_intror K2)) as (v2 & I2 & F2).
  pose proof V2 as V2'. rewrite Forall_forall in V2'.
  split; [|split; [|split; [|exact V2]]].
  - destruct vs as [|v vs]; [destruct I1|]. exists v, vs. split; [reflexivity|]. destruct I1 as [->|I1]; [rewrite F1; exact E1|].
    apply StronglySorted_inv in V4. destruct V4 as [_ V4]. rewrite Forall_forall in V4. specialize (V4 v1 I1). destruct (V2' v (or_introl eq_refl)) as (L & _). rewrite F1 in V4. destruct (flt_nonnan _ _ V4). fk. zb. lia.
  - destruct (last_split vs v2 I2) as (vs' & v & ->). exists vs', v. split; [reflexivity|]. apply in_app_iff in I2. destruct I2 as [I2|[->|[]]]; [|rewrite F2; exact E2].
    destruct (V2' v) as (_ & L & _); [apply in_or_app; right; left; reflexivity|].
    assert (G : flt (fst v2) (fst v) = true). { clear - V4 I2. induction vs' as [|w vs' IH]; [destruct I2|]. cbn [app] in V4. apply StronglySorted_inv in V4. destruct V4 as [S F]. destruct I2 as [->|I2]; [|apply IH; assumption]. rewrite Forall_forall in F. apply F. apply in_or_app. right. left. reflexivity. }
    rewrite F2 in G. destruct (flt_nonnan _ _ G). fk. zb. lia.
  - apply (sorted_step _ _ V4).
Qed.
Lemma calls_climb l cs : Forall2 (fun s c => line_ok a at_y s c) l cs -> (forall s, In s l -> nan (sw_y s) = false) -> StronglySorted (fun s s' => flt (sw_y s) (sw_y s') = true) l ->
  StronglySorted (fun p q => fle (fst p) (fst q) = true) (concat cs) /\ (forall p, In p (concat cs) -> exists s, In s l /\ fst p = sw_y s).
Proof.
  intros F. induction F as [|s c l cs [HC _] F IH]; intros N S; [split; [constructor|intros p []]|]. apply StronglySorted_inv in S. destruct S as [S FS].
  destruct IH as [I1 I2]; [intros z Hz; apply N; right; exact Hz|exact S|]. cbn [concat]. assert (Ns := N s (or_introl eq_refl)). split.
  - induction HC as [|p c [P _] HC IHc]; [exact I1|]. cbn [app]. constructor; [exact IHc|]. apply Forall_forall. intros q Hq. rewrite P. apply in_app_iff in Hq. destruct Hq as [Hq|Hq].
    + rewrite Forall_forall in HC. apply HC in Hq. destruct Hq as [-> _]. fk. apply Z.leb_refl.
    + destruct (I2 q Hq) as (z & Z1 & ->). rewrite Forall_forall in FS. specialize (FS z Z1). destruct (flt_nonnan _ _ FS). fk. zb. lia.
  - intros p Hp. apply in_app_iff in Hp. destruct Hp as [Hp|Hp]; [rewrite Forall_forall in HC; apply HC in Hp; destruct Hp as [E _]; exists s; split; [left; reflexivity|exact E]|].
    destruct (I2 p Hp) as (z & Z1 & Z2). exists z. split; [right; exact Z1|exact Z2].
Qed.
End Lines.
