(** C62: the segments of a sweep line stay in order until the next line, up to the tolerance.
    C63: this is false if crossings are handled at a height where a segment leaves the line. *)
From Coq Require Import List Bool ZArith Arith Lia Reals Lra.
From Flocq Require Import Core IEEE754.BinarySingleNaN.
From Verif Require Import F64 F64Arith TreeVecModel TreeVecSpec TreeVecMono GeomModel SegmentsModel SegmentsSpec SegmentsProofs4
  CurveOrderModel CurveOrderSpec CurveOrderProofs SweepModel SweepSpec SweepProofs4 SweepProofs8 PropsSegments SweepReach SweepCheck PropsSweep PropsLivelock
  OrderSpec OrderAbs OrderScan OrderProofs OrderProofs2 OrderProofs3.
Import ListNotations.

Section S.
Variable a : arena.
Variable eps : f64.
Variables cmp ccmp : nat -> nat -> curve_order.
Variables min_x max_x : segment -> f64.
Variables lower upper : segment -> f64 -> f64 -> f64.
Variable pps : nat -> ((lentry -> bool) -> list lentry -> nat) * ((lentry -> bool) -> list lentry -> nat).
Variable sort_by : forall A, (A -> A -> comparison) -> list A -> list A.
Variable X : nat -> f64 -> R.
Variable t : R.
Hypothesis SET : sound_setting a cmp ccmp pps sort_by.
Hypothesis CONS : consistent a cmp.
Hypothesis SE : sees a eps cmp ccmp min_x max_x X t.
Notation sweep := (SweepModel.sweep a eps cmp ccmp min_x max_x lower upper pps sort_by).
Let TF : True -> forall i j, i <> j -> cmp j i = co_flip (cmp i j) := fun _ => proj1 CONS.
Let TT : True -> forall y i j k, nan y = false -> live a y i -> live a y j -> live a y k ->
  eorder (cmp i j) y = Some Left -> eorder (cmp j k) y = Some Left -> eorder (cmp i k) y = Some Left := fun _ => proj2 CONS.

Lemma INVS_init b : INVS a X t b [] [].
Proof. intros z _ _ l1 j M k l2 E. destruct l1; discriminate. Qed.

Lemma sweep_invs fuel n : forall q0 b p l done, POST a cmp True b p -> INVS a X t b (sw_int p) (new_segs (sw_line p)) ->
  sweep fuel n q0 p = Ok (l, done) ->
  forall m s, nth_error l m = Some s ->
  (forall q r, q <= m -> nth_error (p :: l) q = Some r -> no_exit_at_crossing a eps cmp ccmp min_x max_x (fst (pps (q0 + q))) r) ->
  POST a cmp True (sw_y s) s /\ INVS a X t (sw_y s) (sw_int s) (new_segs (sw_line s)).
Proof.
  destruct SET as [SP CO CC SS SB].
  induction n as [|n IH]; intros q0 b p l done HP HI H m s Hm NE; cbn [SweepModel.sweep] in H.
  - injection H as <- _. destruct m; discriminate.
  - destruct (SS q0) as (S1 & S2 & S3).
    pose proof (next_line_full a eps cmp ccmp min_x max_x lower upper (fst (pps q0)) (snd (pps q0)) sort_by SP CO CC S1 S2 S3 SB True TF TT fuel b p HP) as [EN|(y & EY & LY & HS)].
    + assert (E : next_line a eps cmp ccmp min_x max_x lower upper (fst (pps q0)) (snd (pps q0)) sort_by fuel p = Ok None) by (unfold next_line; rewrite EN; reflexivity).
      rewrite E in H. cbn [rbind] in H. injection H as <- _. destruct m; discriminate.
    + destruct (next_line a eps cmp ccmp min_x max_x lower upper (fst (pps q0)) (snd (pps q0)) sort_by fuel p) as [r|e] eqn:EL; cbn [rbind] in H; [|discriminate].
      unfold SweepProofs2.safe in HS. destruct HS as (s' & -> & SY & (HP' & ST) & sa & s1 & s2 & s3 & PT).
      destruct (sweep fuel n (S q0) s') as [[l' b']|e] eqn:ER; cbn [rbind] in H; [|discriminate]. injection H as <- _.
      assert (N0 : no_exit_at_crossing a eps cmp ccmp min_x max_x (fst (pps q0)) p).
      { replace q0 with (q0 + 0) by lia. apply (NE 0); [lia|reflexivity]. }
      assert (HI' : INVS a X t y (sw_int s') (new_segs (sw_line s'))).
      { exact (step_order a eps cmp ccmp min_x max_x lower upper (fst (pps q0)) X t SP CO CC S1 SE True TF TT I fuel b p y s' sa s1 s2 s3 HP ST LY EY PT N0 HI). }
      destruct m as [|m].
      * injection Hm as <-. rewrite SY. split; assumption.
      * cbn [nth_error] in Hm. refine (IH (S q0) y s' l' b' HP' HI' ER m s Hm _).
        intros q r Lq Hq. replace (S q0 + q) with (q0 + S q) by lia. apply (NE (S q)); [lia|exact Hq].
Qed.

(** ** C62 *)
Theorem order_until_next_line fuel n l done m s j k z :
  sweep fuel n 0 (sweeper_new a) = Ok (l, done) -> nth_error l m = Some s ->
  (forall q r, q <= m -> nth_error (sweeper_new a :: l) q = Some r -> no_exit_at_crossing a eps cmp ccmp min_x max_x (fst (pps q)) r) ->
  comes_before (new_segs (sw_line s)) j k -> until_next a s z ->
  (X j z <= X k z + 2 * t)%R.
Proof.
  intros H Hm NE HB HZ. destruct SET as [SP CO CC SS SB].
  destruct (sweep_invs fuel n 0 fneginf (sweeper_new a) l done (POST_init a cmp SP True) (INVS_init _) H m s Hm NE) as [HP HI].
  exact (order_until a cmp X t SP True TF TT I s z HP HI HZ j k HB).
Qed.
End S.
Print Assumptions order_until_next_line.

(** ** The examples *)
(** Four straight segments, from left to right at height 0: [0] goes from -40 to 40 and [2] from 60 to 140 over the heights 0 to 80,
    [3] goes from 140 to -100, crossing [2] at height 20 and [0] at height 45, and [1] stands at 0 from height 0 to height [h]. *)
Definition or_input (h : Z) : list seg_op := [OpPoints [pt (-40) 0; pt 40 80]; OpPoints [pt 0 0; pt 0 h]; OpPoints [pt 60 0; pt 140 80]; OpPoints [pt 140 0; pt (-100) 80]].
Definition or_arena (h : Z) : arena := match ex_run arena_default (or_input h) with Some (a, _) => a | None => arena_default end.
Definition or_X (i : nat) (v : f64) : R :=
  match i with 0 => -40 + B2R v | 1 => 0 | 2 => 60 + B2R v | _ => 140 - 3 * B2R v end.
(** Exact comparisons with the tolerance 4. *)
Definition or_cmp (h : Z) (i j : nat) : curve_order :=
  match i, j with
  | 0, 1 | 1, 2 | 1, 3 => tb [(h, Left)]%Z
  | 1, 0 | 2, 1 | 3, 1 => co_flip (tb [(h, Left)]%Z)
  | 0, 2 => tb [(80, Left)]%Z
  | 2, 0 => co_flip (tb [(80, Left)]%Z)
  | 0, 3 => tb [(44, Left); (46, Ish); (80, Right)]%Z
  | 3, 0 => co_flip (tb [(44, Left); (46, Ish); (80, Right)]%Z)
  | 2, 3 => tb [(19, Left); (21, Ish); (80, Right)]%Z
  | 3, 2 => co_flip (tb [(19, Left); (21, Ish); (80, Right)]%Z)
  | _, _ => tb [(80, Ish)]%Z
  end.
Notation or_sweep h fuel n :=
  (SweepModel.sweep (or_arena h) (f64_of_Z 1) (or_cmp h) (or_cmp h) ex_min ex_max (fun s _ _ => ex_min s) (fun s _ _ => ex_max s)
    ex_pps (@isort) fuel n 0 (sweeper_new (or_arena h))).
Definition two (h : Z) : Prop := h = 20%Z \/ h = 30%Z.

Lemma or_runs h : two h -> match SegmentsSpec.run ex_eval ex_ctrl ex_monic ex_quad ex_at_y isort arena_default (or_input h) with Some (_, o) => o = [true; true; true; true] | None => False end.
Proof. intros [-> | ->]; vm_compute; reflexivity. Qed.
Lemma or_reachable h : two h -> reachable_ok ex_eval ex_ctrl ex_monic ex_quad ex_at_y isort (or_input h) (or_arena h).
Proof.
  intros T. apply or_runs in T. unfold reachable_ok, or_arena, ex_run.
  destruct (SegmentsSpec.run ex_eval ex_ctrl ex_monic ex_quad ex_at_y isort arena_default (or_input h)) as [[a oks]|]; [subst; reflexivity|contradiction].
Qed.
Lemma or_sweepable h : two h -> sweepable (or_arena h).
Proof.
  intros T. apply (reachable_sweepable ex_eval ex_ctrl ex_monic ex_quad ex_at_y isort isort_spec (or_input h) (or_arena h)).
  - intros p [H|[H|[H|[H|[]]]]]; discriminate.
  - intros op [<-|[<-|[<-|[<-|[]]]]]; exact I.
  - assert (N : forall l, forallb (fun p => negb (nan (px p)) && negb (nan (py p))) l = true -> Forall point_nonnan l).
    { intros l H. rewrite forallb_forall in H. apply Forall_forall. intros p Hp. apply H in Hp. apply andb_true_iff in Hp. destruct Hp as [H1 H2].
      split; [destruct (nan (px p))|destruct (nan (py p))]; try reflexivity; discriminate. }
    intros op [<-|[<-|[<-|[<-|[]]]]]; cbn [SegmentsProofs4.op_nonnan]; apply N; destruct T as [-> | ->]; vm_compute; reflexivity.
  - exact (or_reachable h T).
  - assert (Y : forallb (fun s => fin (px (seg_start s)) && fin (py (seg_start s)) && fin (px (seg_end s)) && fin (py (seg_end s))) (segs (or_arena h)) = true) by (destruct T as [-> | ->]; vm_compute; reflexivity).
    rewrite forallb_forall in Y. intros s Hs. apply Y in Hs. rewrite !andb_true_iff in Hs. destruct Hs as (((A & B) & C) & D).
    split; [split; assumption|]. split; [split; assumption|]. intros y _. unfold ex_at_y. split; [apply fin_nonnan, A|]. apply fin_nonnan in A. fk. apply Z.eqb_refl.
Qed.
Lemma or_sound h : two h -> sound_setting (or_arena h) (or_cmp h) (or_cmp h) ex_pps (@isort).
Proof.
  intros T. assert (CO : comparer_ok (or_arena h) (or_cmp h)) by (destruct T as [-> | ->]; apply comparer_b_ok; vm_compute; reflexivity).
  split; [exact (or_sweepable h T)|exact CO|exact CO| |intros A; apply isort_spec].
  intros q. split; [intros p l; apply scan_pp_boundary|]. split; [intros p l; apply scan_pp_boundary|]. intros p r l l' F. apply scan_pp_mono, F.
Qed.

(** Heights as real numbers. *)
Lemma pow_one : (IZR (2 ^ 1074) * bpow radix2 (-1074) = 1)%R.
Proof. change (2 ^ 1074)%Z with (Z.pow (radix_val radix2) 1074). rewrite (IZR_Zpower radix2 1074) by lia. rewrite <- bpow_plus. reflexivity. Qed.
Lemma z_R n : fin (z n) = true -> key (z n) = (n * 2 ^ 1074)%Z -> B2R (z n) = IZR n.
Proof. intros F K. rewrite (B2R_key _ F), K, mult_IZR, Rmult_assoc, pow_one. lra. Qed.
Lemma fgt_R x v : fin x = true -> fin v = true -> if fgt x v then (B2R v < B2R x)%R else (B2R x <= B2R v)%R.
Proof.
  intros Fx Fv. pose proof (fin_nonnan _ Fx) as Nx. pose proof (fin_nonnan _ Fv) as Nv. destruct (fgt x v) eqn:E; fk.
  - apply Z.ltb_lt in E. apply Rnot_le_lt. intros L. apply (key_le_R _ _ Fx Fv) in L. lia.
  - apply Z.ltb_ge in E. apply (key_le_R _ _ Fx Fv), E.
Qed.
(** What the heights of the example mean. *)
Lemma or_live h v i : two h -> nan v = false -> goes_on (or_arena h) v i ->
  i < 4 /\ fin v = true /\ (0 <= B2R v < 80)%R /\ (i = 1 -> (B2R v < IZR h)%R).
Proof.
  intros T Nv [(R & S & L1) L2]. apply (SweepProofs2.registered_lt _ (or_sweepable h T)) in R.
  assert (Li : i < 4) by (destruct T as [-> | ->]; exact R).
  assert (K : forall n, In n [0; 20; 30; 80]%Z -> fin (z n) = true /\ key (z n) = (n * 2 ^ 1074)%Z /\ nan (z n) = false).
  { intros n [<-|[<-|[<-|[<-|[]]]]]; vm_compute; repeat split; reflexivity. }
  assert (B : key (start_y (or_arena h) i) = key (z 0) /\ key (end_y (or_arena h) i) = key (z (if i =? 1 then h else 80))).
  { destruct i as [|[|[|[|i]]]]; [| | | |lia]; destruct T as [-> | ->]; vm_compute; split; reflexivity. }
  destruct B as [B1 B2].
  assert (Fv : fin v = true).
  { destruct v as [s|s| |s m e Hb]; try reflexivity; [|discriminate]. exfalso. destruct s.
    - rewrite B1 in L1. destruct L1 as [L1 _]. vm_compute in L1. apply L1; reflexivity.
    - rewrite B2 in L2. clear - L2 T. destruct (i =? 1); destruct T as [-> | ->]; vm_compute in L2; discriminate L2. }
  destruct (K 0%Z ltac:(cbn; tauto)) as (F0 & K0 & _). destruct (K 80%Z ltac:(cbn; tauto)) as (F8 & K8 & _).
  destruct (K h) as (Fh & Kh & _); [destruct T as [-> | ->]; cbn; tauto|].
  split; [exact Li|]. split; [exact Fv|].
  assert (LO : (0 <= B2R v)%R). { rewrite <- (z_R 0 F0 K0). apply (key_le_R _ _ F0 Fv). rewrite <- B1. apply L1. }
  assert (HI : forall n, fin (z n) = true -> key (z n) = (n * 2 ^ 1074)%Z -> (key v < key (z n))%Z -> (B2R v < IZR n)%R).
  { intros n Fn Kn Ln. rewrite <- (z_R n Fn Kn). apply Rnot_le_lt. intros Q. apply (key_le_R _ _ Fn Fv) in Q. lia. }
  assert (H8 : (B2R v < IZR (if Nat.eqb i 1 then h else 80))%R).
  { rewrite B2 in L2. destruct (i =? 1); apply HI; assumption. }
  split.
  - split; [exact LO|]. destruct (i =? 1); [|exact H8]. destruct T as [-> | ->]; lra.
  - intros ->. exact H8.
Qed.
Lemma or_table v n : fin v = true -> In n [19; 20; 21; 30; 44; 46; 80]%Z -> if fgt (z n) v then (B2R v < IZR n)%R else (IZR n <= B2R v)%R.
Proof.
  intros Fv Hn.
  assert (K : fin (z n) = true /\ key (z n) = (n * 2 ^ 1074)%Z) by (destruct Hn as [<-|[<-|[<-|[<-|[<-|[<-|[<-|[]]]]]]]]; vm_compute; repeat split; reflexivity).
  destruct K as [Fn Kn]. rewrite <- (z_R n Fn Kn). apply fgt_R; assumption.
Qed.
Ltac or_heights v Fv :=
  pose proof (or_table v 19 Fv ltac:(cbn; tauto)); pose proof (or_table v 20 Fv ltac:(cbn; tauto)); pose proof (or_table v 21 Fv ltac:(cbn; tauto));
  pose proof (or_table v 30 Fv ltac:(cbn; tauto)); pose proof (or_table v 44 Fv ltac:(cbn; tauto)); pose proof (or_table v 46 Fv ltac:(cbn; tauto));
  pose proof (or_table v 80 Fv ltac:(cbn; tauto));
  destruct (fgt (z 19) v), (fgt (z 20) v), (fgt (z 21) v), (fgt (z 30) v), (fgt (z 44) v), (fgt (z 46) v), (fgt (z 80) v).
Ltac or_red := unfold eorder, co_entry_at;
  cbn [or_cmp tb co_flip entry_flip order_flip map co_iter co_iter_from co_start co_cmps e_end e_order find option_map snd].
Lemma or_sees h : two h -> sees (or_arena h) (f64_of_Z 1) (or_cmp h) (or_cmp h) ex_min ex_max or_X 4.
Proof.
  intros T. split.
  - lra.
  - intros i k v Nv D Gi Gk HX. destruct (or_live h v i T Nv Gi) as (Li & Fv & B & Bi). destruct (or_live h v k T Nv Gk) as (Lk & _ & _ & Bk).
    destruct i as [|[|[|[|i]]]]; try lia; destruct k as [|[|[|[|k]]]]; try lia; unfold or_X in HX;
      try (specialize (Bi eq_refl)); try (specialize (Bk eq_refl)); destruct T as [-> | ->]; try lra; or_red; or_heights v Fv; cbv iota; try reflexivity; lra.
  - intros i k v Nv D Gi Gk HX. destruct (or_live h v i T Nv Gi) as (Li & Fv & B & Bi). destruct (or_live h v k T Nv Gk) as (Lk & _ & _ & Bk).
    destruct i as [|[|[|[|i]]]]; try lia; destruct k as [|[|[|[|k]]]]; try lia; unfold or_X;
      try (specialize (Bi eq_refl)); try (specialize (Bk eq_refl)); destruct T as [-> | ->]; try lra; revert HX; or_red; or_heights v Fv; cbv iota; intros HX; try discriminate HX; lra.
  - intros i k v Nv D Gi Gk HX. destruct (or_live h v i T Nv Gi) as (Li & Fv & B & Bi). destruct (or_live h v k T Nv Gk) as (Lk & _ & _ & Bk).
    destruct i as [|[|[|[|i]]]]; try lia; destruct k as [|[|[|[|k]]]]; try lia; unfold or_X; try lra; exfalso;
      destruct T as [-> | ->]; vm_compute in HX; discriminate.
  - intros i k v Nv D Gi Gk HX. destruct (or_live h v i T Nv Gi) as (Li & Fv & B & Bi). destruct (or_live h v k T Nv Gk) as (Lk & _ & _ & Bk).
    destruct i as [|[|[|[|i]]]]; try lia; destruct k as [|[|[|[|k]]]]; try lia; unfold or_X; try lra; exfalso;
      destruct T as [-> | ->]; vm_compute in HX; discriminate.
Qed.
Lemma or_consistent h : two h -> consistent (or_arena h) (or_cmp h).
Proof.
  intros T. split.
  - intros [|[|[|[|i]]]] [|[|[|[|j]]]] D; try reflexivity; exfalso; apply D; reflexivity.
  - intros v i j k Nv Li Lj Lk.
    assert (B : forall i, live (or_arena h) v i -> i < 4).
    { intros n (R & S & _). apply (SweepProofs2.registered_lt _ (or_sweepable h T)) in R. destruct T as [-> | ->]; exact R. }
    assert (BI : forall i, live (or_arena h) v i -> i = 1 -> (key v <= key (z h))%Z).
    { intros n (_ & _ & _ & L) ->. destruct T as [-> | ->]; exact L. }
    assert (Bi := BI i Li). assert (Bj := BI j Lj). assert (Bk := BI k Lk). clear BI.
    apply B in Li, Lj, Lk. clear B. unfold eorder, co_entry_at.
    assert (G : (fgt (z 19) v = true -> fgt (z 21) v = true) /\ (fgt (z 21) v = true -> fgt (z 44) v = true) /\ (fgt (z 44) v = true -> fgt (z 46) v = true) /\
      (fgt (z 46) v = true -> fgt (z 80) v = true) /\ (fgt (z h) v = true -> fgt (z 44) v = true)).
    { assert (N : forall n, In n [19; 21; h; 44; 46; 80]%Z -> nan (z n) = false) by (intros n Hn; destruct T as [-> | ->]; destruct Hn as [<-|[<-|[<-|[<-|[<-|[<-|[]]]]]]]; reflexivity).
      assert (K1 : (key (z 19) < key (z 21) < key (z 44))%Z) by (vm_compute; split; reflexivity).
      assert (K2 : (key (z 44) < key (z 46) < key (z 80))%Z) by (vm_compute; split; reflexivity).
      assert (K3 : (key (z h) < key (z 44))%Z) by (destruct T as [-> | ->]; vm_compute; reflexivity).
      pose proof (N 19%Z ltac:(cbn; tauto)). pose proof (N 21%Z ltac:(cbn; tauto)). pose proof (N 44%Z ltac:(cbn; tauto)). pose proof (N 46%Z ltac:(cbn; tauto)). pose proof (N 80%Z ltac:(cbn; tauto)). pose proof (N h ltac:(cbn; tauto)).
      fk. rewrite !Z.ltb_lt. lia. }
    destruct G as (G1 & G2 & G3 & G4 & G5). clear T Bi Bj Bk.
    destruct i as [|[|[|[|i]]]]; try lia; destruct j as [|[|[|[|j]]]]; try lia; destruct k as [|[|[|[|k]]]]; try lia;
      cbn [or_cmp tb co_flip entry_flip order_flip map co_iter co_iter_from co_start co_cmps e_end e_order find option_map snd];
      destruct (fgt (z 19) v), (fgt (z 21) v), (fgt (z h) v), (fgt (z 44) v), (fgt (z 46) v), (fgt (z 80) v); cbn; try congruence; intuition congruence.
Qed.

Definition nxb (a : arena) (eps : f64) (cmp ccmp : nat -> nat -> curve_order) (min_x max_x : segment -> f64)
  (pp : (lentry -> bool) -> list lentry -> nat) (s : sweeper) : bool :=
  match next_y a s with
  | None => true
  | Some y => match up_to_crossings a eps cmp ccmp min_x max_x pp s y with
              | Ok m => forallb (fun e => negb (really_exits e)) (sw_line m) || forallb (fun ev => flt y (ie_y ev)) (sw_int m)
              | Err _ => true
              end
  end.
Lemma nxb_ok a eps cmp ccmp min_x max_x pp s : nxb a eps cmp ccmp min_x max_x pp s = true -> no_exit_at_crossing a eps cmp ccmp min_x max_x pp s.
Proof.
  unfold nxb. intros H y m E1 E2. rewrite E1, E2 in H. apply orb_true_iff in H. rewrite !forallb_forall in H. destruct H as [H|H]; [left|right; exact H].
  intros e He. apply H in He. destruct (really_exits e); [discriminate|reflexivity].
Qed.

(** With [h = 30] every hypothesis of [order_until_next_line] is met, on every line. *)
Definition or_lines (h : Z) : list sweeper := match or_sweep h 20 10 with Ok (l, _) => l | Err _ => [] end.
Example or_thirty : or_sweep 30 20 10 = Ok (or_lines 30, true) /\
  map (fun s => new_segs (sw_line s)) (or_lines 30) = [[0; 1; 2; 3]; [0; 1; 3; 2]; [0; 3; 2]; [3; 0; 2]; []] /\
  forall q r, nth_error (sweeper_new (or_arena 30) :: or_lines 30) q = Some r ->
    no_exit_at_crossing (or_arena 30) (f64_of_Z 1) (or_cmp 30) (or_cmp 30) ex_min ex_max (fst (ex_pps q)) r.
Proof.
  split; [|split].
  - assert (Y : match or_sweep 30 20 10 with Ok (_, d) => d = true | Err _ => False end) by (vm_compute; reflexivity).
    unfold or_lines. destruct (or_sweep 30 20 10) as [[l d]|]; [subst; reflexivity|contradiction].
  - vm_compute. reflexivity.
  - assert (Y : forallb (nxb (or_arena 30) (f64_of_Z 1) (or_cmp 30) (or_cmp 30) ex_min ex_max scan_pp) (sweeper_new (or_arena 30) :: or_lines 30) = true) by (vm_compute; reflexivity).
    rewrite forallb_forall in Y. intros q r Hq. apply nth_error_In in Hq. apply nxb_ok, Y, Hq.
Qed.
(** What the theorem says about it: on the line at height 20, segment 0 stays to the left of segment 3 up to height 30. *)
Example or_thirty_order s v : nth_error (or_lines 30) 1 = Some s -> until_next (or_arena 30) s v -> (or_X 0 v <= or_X 3 v + 2 * 4)%R.
Proof.
  intros Hs Hv. destruct or_thirty as (H1 & H2 & H3). assert (T : two 30) by (right; reflexivity).
  revert Hs H1 H2 H3. generalize (or_lines 30). intros l Hs H1 H2 H3.
  refine (order_until_next_line _ _ _ _ _ _ _ _ _ _ or_X 4 (or_sound 30 T) (or_consistent 30 T) (or_sees 30 T) 20 10 _ _ 1 s 0 3 v H1 Hs _ _ Hv).
  - intros q r _ Hq. apply H3, Hq.
  - assert (E : new_segs (sw_line s) = [0; 1; 3; 2]).
    { apply (map_nth_error (fun s => new_segs (sw_line s))) in Hs. rewrite H2 in Hs. cbn [nth_error] in Hs. congruence. }
    rewrite E. exists [], [1], [2]. reflexivity.
Qed.

(** ** C63 *)
(** Without the condition on the heights at which segments leave, a line can keep two segments in the wrong order although they have
    crossed long before its end: there are an arena of four straight segments and comparison tables meeting every other hypothesis of
    [order_until_next_line] with the tolerance 4, whose sweep runs to its end without an error, such that between two
    consecutive lines two segments are out of order by 60. *)
Definition straight (a : arena) (X : nat -> f64 -> R) : Prop :=
  forall i v, nan v = false -> goes_on a v i ->
    exists p q, seg_def a i = SLine p q /\
      (X i v * (B2R (py q) - B2R (py p)) = B2R (px p) * (B2R (py q) - B2R v) + B2R (px q) * (B2R v - B2R (py p)))%R.
Theorem order_until_next_line_needs_condition : exists a eps cmp ccmp min_x max_x lower upper pps sort_by X,
  sound_setting a cmp ccmp pps sort_by /\ consistent a cmp /\ sees a eps cmp ccmp min_x max_x X 4 /\ straight a X /\
  exists fuel n l m s j k v, SweepModel.sweep a eps cmp ccmp min_x max_x lower upper pps sort_by fuel n 0 (sweeper_new a) = Ok (l, true) /\
    nth_error l m = Some s /\ comes_before (new_segs (sw_line s)) j k /\ until_next a s v /\ goes_on a v j /\ goes_on a v k /\
    (X j v = X k v + 60)%R.
Proof.
  assert (T : two 20) by (left; reflexivity).
  exists (or_arena 20), (f64_of_Z 1), (or_cmp 20), (or_cmp 20), ex_min, ex_max, (fun s _ _ => ex_min s), (fun s _ _ => ex_max s), ex_pps, (@isort), or_X.
  split; [exact (or_sound 20 T)|]. split; [exact (or_consistent 20 T)|]. split; [exact (or_sees 20 T)|]. split.
  { intros i v Nv G. destruct (or_live 20 v i T Nv G) as (Li & _).
    assert (K : forall x n, fin x = true -> key x = (n * 2 ^ 1074)%Z -> B2R x = IZR n).
    { intros x n F K. rewrite (B2R_key _ F), K, mult_IZR, Rmult_assoc, pow_one. lra. }
    assert (KK : match nth i [(-40, 0, 40, 80); (0, 0, 0, 20); (60, 0, 140, 80); (140, 0, -100, 80)]%Z (0, 0, 0, 0)%Z with (((a0, b0), c0), d0) =>
      match seg_def (or_arena 20) i with SLine p q => fin (px p) && fin (py p) && fin (px q) && fin (py q) && (key (px p) =? a0 * 2 ^ 1074)%Z && (key (py p) =? b0 * 2 ^ 1074)%Z && (key (px q) =? c0 * 2 ^ 1074)%Z && (key (py q) =? d0 * 2 ^ 1074)%Z | _ => false end end = true).
    { destruct i as [|[|[|[|i]]]]; [| | | |lia]; vm_compute; reflexivity. }
    destruct (seg_def (or_arena 20) i) as [p q|]; [|destruct (nth i _ _) as (((a0 & b0) & c0) & d0); discriminate].
    exists p, q. split; [reflexivity|]. destruct i as [|[|[|[|i]]]]; [| | | |lia]; cbn [nth] in KK; rewrite !andb_true_iff, !Z.eqb_eq in KK; destruct KK as (((((((F1 & F2) & F3) & F4) & K1) & K2) & K3) & K4);
      rewrite (K _ _ F1 K1), (K _ _ F2 K2), (K _ _ F3 K3), (K _ _ F4 K4); unfold or_X; lra. }
  assert (E : or_sweep 20 20 10 = Ok (or_lines 20, true)).
  { assert (Y : match or_sweep 20 20 10 with Ok (_, d) => d = true | Err _ => False end) by (vm_compute; reflexivity).
    unfold or_lines. destruct (or_sweep 20 20 10) as [[l d]|]; [subst; reflexivity|contradiction]. }
  exists 20, 10, (or_lines 20), 1, (nth 1 (or_lines 20) (sweeper_new (or_arena 20))), 0, 3, (z 60).
  split; [exact E|]. split; [apply nth_error_nth'; vm_compute; lia|]. split.
  { assert (Y : new_segs (sw_line (nth 1 (or_lines 20) (sweeper_new (or_arena 20)))) = [0; 3; 2]) by (vm_compute; reflexivity).
    rewrite Y. exists [], [], [2]. reflexivity. }
  split.
  { split; [reflexivity|]. split; [vm_compute; reflexivity|].
    assert (Y : match next_y (or_arena 20) (nth 1 (or_lines 20) (sweeper_new (or_arena 20))) with Some y' => flt (z 60) y' | None => false end = true) by (vm_compute; reflexivity).
    intros y' H. rewrite H in Y. exact Y. }
  assert (G : forall i, i = 0 \/ i = 3 -> goes_on (or_arena 20) (z 60) i).
  { intros i Hi. split; [split; [|split]|].
    - destruct Hi as [-> | ->]; vm_compute; tauto.
    - destruct Hi as [-> | ->]; vm_compute; reflexivity.
    - destruct Hi as [-> | ->]; vm_compute; split; discriminate.
    - destruct Hi as [-> | ->]; vm_compute; reflexivity. }
  split; [apply G; tauto|]. split; [apply G; tauto|].
  unfold or_X. rewrite (z_R 60); [lra|reflexivity|vm_compute; reflexivity].
Qed.
Print Assumptions order_until_next_line_needs_condition.

(** The same happens for closed polygons, with comparisons computed from the segments: four triangles whose edges meet as above.
    Between the heights 4000 and 8000 there is a line with the edges 0 and 9 in this order, although 9 is to the left of 0 by more than 1000 (the tolerance is 1). *)
From Verif Require Import PolyExample.
Definition or_polygons : list (list point) :=
  [[pt (-4000) 0; pt 4000 8000; pt (-20000) 4000]; [pt 1000 (-100); pt 2000 2000; pt 3000 (-50)];
   [pt 6000 0; pt 14000 8000; pt 40000 4000]; [pt 14000 0; pt (-10000) 8000; pt 60000 3000]].
Definition or_bad_line (s : sweeper) : bool :=
  let a := or_polygons in
  flt (z 4000) (sw_y s) && flt (sw_y s) (z 8000) &&
  match filter (fun i => (i =? 0) || (i =? 9)) (new_segs (sw_line s)) with
  | [0; 9] => flt (fadd (po_aty (seg_def (po_arena a) 9) (sw_y s)) (z 1000)) (po_aty (seg_def (po_arena a) 0) (sw_y s))
  | _ => false
  end.
Example or_polygons_missed : po_ok or_polygons = true /\
  match po_sweep or_polygons 100 100 with Ok (l, done) => done && existsb or_bad_line l | Err _ => false end = true.
Proof. split; vm_compute; reflexivity. Qed.
