(** Proofs about one position of a range, put together. *)
From Coq Require Import List Bool ZArith Arith Lia Permutation Sorted.
From Verif Require Import F64 F64Arith TreeVecModel GeomModel SegmentsModel SegmentsSpec SegmentsProofs CurveOrderModel SweepModel SweepSpec RangeModel RangeSpec TopoModel TopoSpec TopoProofs TopoProofs2 TopoProofs3.
Import ListNotations.

Section View.
Context {W T : Type}.
Variable ops : wops W T.
Variable a : arena.
Variable tag : list T.
Implicit Types t : topo W.
Notation n := (arena_len a).
Notation gain := (gain ops a tag).
Notation wlist := (wlist ops).
Notation wend := (wend ops).
Notation TI := (TI a).

Definition view_step (y : f64) (v : view) (winding : W) (west ld : option nat) t : res (W * option nat * option nat * topo W) :=
  let p := length (t_points t) in
  let t := with_points t (t_points t ++ [mkPoint y (vw_x v)]) in
  do! (hs, t) := second_halves (map fst (vw_in v)) t in
  do! (first, last, t) := add_cw None None hs p t in
  do! (hs, t) := second_halves (vw_up v) t in
  do! (first, last, t) := add_cw first last hs p t in
  do! (hs, winding, west, last_down, t) := downs_loop ops a tag (vw_down v) p winding west ld t in
  do! (first, last, t) := add_ccw first last hs p t in
  do! (hs, t) := houts_loop ops a tag (vw_out v) p winding west t in
  do! (first, last, t) := add_ccw first last hs p t in
  Ok (winding, west, last_down, t).
Fixpoint views_loop (y : f64) (l : list view) (winding : W) (west ld : option nat) t : res (option nat * topo W) :=
  match l with
  | [] => Ok (ld, t)
  | v :: l => do! (winding, west, ld, t) := view_step y v winding west ld t in views_loop y l winding west ld t
  end.

Lemma process_views sort_by y : forall fuel r l winding west ld t, walk_x sort_by fuel r = Ok l ->
  process_loop ops a tag sort_by fuel y r winding west ld t = views_loop y l winding west ld t.
Proof.
  induction fuel as [|fuel IH]; intros r l winding west ld t H; [discriminate|]. cbn [walk_x process_loop] in *.
  destruct (rg_x r) as [x|]; [|injection H as <-; reflexivity].
  destruct (segments_at_x sort_by r) as [[up down]|e]; [|discriminate]. cbn [rbind] in H.
  destruct (walk_x sort_by fuel (increase_x sort_by r)) as [l'|e] eqn:E; [|discriminate]. cbn [rbind] in H. injection H as <-.
  cbn [views_loop]. unfold view_step. cbn [vw_x vw_in vw_up vw_down vw_out]. unfold horizontals at 1. rewrite map_map. cbn [fst].
  destruct (second_halves (map hf_seg (rg_active r)) _) as [[hs t1]|e]; cbn [rbind]; [|reflexivity].
  destruct (add_cw None None hs _ t1) as [[[f1 l1] t2]|e]; cbn [rbind]; [|reflexivity].
  destruct (second_halves up t2) as [[hs2 t3]|e]; cbn [rbind]; [|reflexivity].
  destruct (add_cw f1 l1 hs2 _ t3) as [[[f2 l2] t4]|e]; cbn [rbind]; [|reflexivity].
  destruct (downs_loop ops a tag down _ winding west ld t4) as [[[[[hs3 w3] we3] ld3] t5]|e]; cbn [rbind]; [|reflexivity].
  destruct (add_ccw f2 l2 hs3 _ t5) as [[[f3 l3] t6]|e]; cbn [rbind]; [|reflexivity]. unfold horizontals.
  destruct (houts_loop ops a tag (map (fun h => (hf_seg h, hf_first h)) (rg_active (increase_x sort_by r))) (length (t_points t)) w3 we3 t6) as [[hs4 t7]|e]; cbn [rbind]; [|reflexivity].
  destruct (add_ccw f3 l3 hs4 _ t7) as [[[f4 l4] t8]|e]; cbn [rbind]; [|reflexivity]. apply IH, E.
Qed.

(** [t'] extends [t]. *)
Record grown t t' (ws : list (wpair W)) (we : list (option nat)) (og : list nat) (po : list bool) (ps : list point) : Prop := {
  gr_wind : t_wind t' = t_wind t ++ ws;
  gr_west : t_west t' = t_west t ++ we;
  gr_orig : t_orig t' = t_orig t ++ og;
  gr_pos : t_pos t' = t_pos t ++ po;
  gr_points : t_points t' = t_points t ++ ps;
  gr_after : t_after t' = t_after t;
  gr_east : t_east t' = t_east t ++ repeat None (length ws) }.

Definition usable (s : nat) : Prop := s < n /\ s < length tag /\ s < length (orientation a).
Lemma opens_head hz old nw s o : hz s = Some o -> opens hz old nw s = o :: opens (fun _ => None) old nw s.
Proof. intros H. unfold opens. rewrite H. reflexivity. Qed.

Definition ring_of (oin oup odown oout : list nat) : list half :=
  rev (map first_half oout) ++ rev (map first_half odown) ++ map second_half oin ++ map second_half oup.

Lemma view_ok y v w west ld t R H old nw OU :
  let kd := length (vw_down v) in let ko := length (vw_out v) in let N := length (t_wind t) in
  TI t R (assoc H) old nw -> map fst H = map fst (vw_in v) -> NoDup (map fst H) ->
  NoDup (vw_up v) -> Forall2 (fun s o => old s = Some o) (vw_up v) OU ->
  NoDup (vw_down v) -> (forall s, In s (vw_down v) -> nw s = None /\ usable s) ->
  NoDup (map fst (vw_out v)) -> (forall s, In s (map fst (vw_out v)) -> usable s) ->
  exists t', view_step y v w west ld t = Ok (wend w (map (fun s => gain s true) (vw_down v)), lastw west N kd, lastw ld N kd, t') /\
    TI t' (R ++ [ring_of (map snd H) OU (seq N kd) (seq (N + kd) ko)]) (assoc (combine (map fst (vw_out v)) (seq (N + kd) ko)))
       (drop_f old (vw_up v)) (add_f nw (combine (vw_down v) (seq N kd))) /\
    grown t t' (wlist w (map (fun s => gain s true) (vw_down v)) ++ wlist (wend w (map (fun s => gain s true) (vw_down v))) (map (fun q => gain (fst q) (snd q)) (vw_out v)))
       (wests west N kd ++ repeat (lastw west N kd) ko) (vw_down v ++ map fst (vw_out v))
       (map (orient a) (vw_down v) ++ map (fun q => Bool.eqb (snd q) (orient a (fst q))) (vw_out v)) [mkPoint y (vw_x v)].
Proof.
  intros kd ko N I HF NDH NDU FU NDD HD NDO HO. unfold view_step.
  set (t0 := with_points t (t_points t ++ [mkPoint y (vw_x v)])).
  assert (LP : length (t_points t) = length R) by (symmetry; apply (ri_points _ _ _ (proj2 I))). rewrite LP.
  assert (I0 : TI t0 (R ++ [[]]) (assoc H) old nw).
  { destruct I as [I RI]. split; [destruct I; constructor; assumption|]. eapply rings_live; [|apply rings_point, RI]. intros h. reflexivity. }
  (* horizontals from the left *)
  destruct (close_some a t0 R [] (assoc H) old nw (fun _ => None) old nw (map fst H) (fun s => match assoc H s with Some o => o | None => 0 end)
     (map second_half (map snd H)) I0 NDH) as (t1 & t2 & E1 & E2 & I2 & K2).
  { intros s Hs. destruct (assoc H s) as [o|] eqn:E; [|apply assoc_none in E; contradiction]. split; [|apply opens_head, E].
    apply (li_own _ _ _ _ _ (proj1 I0) s o). left. exact E. }
  { intros s Hs. unfold opens. rewrite (proj2 (assoc_none H s) Hs). reflexivity. }
  { rewrite map_map, map_map. apply map_ext_in. intros [s o] Hs. cbn [fst snd]. rewrite (assoc_nodup _ _ _ NDH Hs). reflexivity. }
  rewrite <- HF, E1. cbn [rbind]. change (add_cw None None) with (add_cw (W := W) (hd_error []) (lastof [])). rewrite E2. cbn [rbind app] in *. clear E1 E2.
  set (r1 := map second_half (map snd H)) in *.
  (* segments from above *)
  assert (UPV : forall s, In s (vw_up v) -> exists o, old s = Some o).
  { intros s Hs. clear - FU Hs. induction FU as [|s' o l m E F IH]; [destruct Hs|]. destruct Hs as [<-|Hs]; [eauto|apply IH, Hs]. }
  destruct (close_some a t2 R r1 (fun _ => None) old nw (fun _ => None) (drop_f old (vw_up v)) nw (vw_up v) (fun s => match old s with Some o => o | None => 0 end)
     (map second_half OU) I2 NDU) as (t3 & t4 & E1 & E2 & I4 & K4).
  { intros s Hs. destruct (UPV s Hs) as [o E]. rewrite E. split.
    - apply (li_own _ _ _ _ _ (proj1 I2) s o). right. left. exact E.
    - unfold opens, drop_f. rewrite E, (proj2 (memn_spec s (vw_up v)) Hs). reflexivity. }
  { intros s Hs. unfold opens, drop_f. rewrite (proj2 (memn_false s (vw_up v)) Hs). reflexivity. }
  { clear - FU. induction FU as [|s o l m E F IH]; [reflexivity|]. cbn. rewrite E, IH. reflexivity. }
  rewrite E1. cbn [rbind]. rewrite E2. cbn [rbind]. clear E1 E2. set (r2 := r1 ++ map second_half OU) in *.
  (* the queue of a segment going down ends with the new output segment *)
  assert (W2 : t_wind t2 = t_wind t) by (rewrite (k_wind _ _ K2); reflexivity). assert (W4 : t_wind t4 = t_wind t) by (rewrite (k_wind _ _ K4); cbn [with_open t_wind]; exact W2).
  assert (KN4 : forall s, usable s -> known a tag t4 s). { intros s (U1 & U2 & U3). split; [rewrite (li_nopen _ _ _ _ _ (proj1 I4)); exact U1|auto]. }
  destruct (downs_loop_spec ops a tag (vw_down v) (length R) w west ld t4 NDD) as (t5 & E5 & A5).
  { apply Forall_forall. intros s Hs. apply KN4, HD, Hs. } { apply (li_west _ _ _ _ _ (proj1 I4)). }
  assert (N4 : length (t_wind t4) = N) by (rewrite W4; reflexivity). rewrite N4 in E5. fold kd in E5. rewrite E5. cbn [rbind].
  assert (A5' : alloc t4 t5 (vw_down v) (wlist w (map (fun s => gain s true) (vw_down v))) (wests west N kd) (map (orient a) (vw_down v)) false (length R)) by (rewrite <- N4; exact A5).
  clear A5 E5. rename A5' into A5.
  destruct (open_some a t4 t5 R r2 (fun _ => None) (drop_f old (vw_up v)) nw (fun _ => None) (drop_f old (vw_up v)) (add_f nw (combine (vw_down v) (seq N kd)))
     (vw_down v) _ _ _ false (length R) (map first_half (seq N kd)) I4 A5) as (t6 & E6 & I6 & K6).
  { exact NDD. } { rewrite wests_length. reflexivity. } { rewrite map_length. reflexivity. }
  { apply Forall_forall. intros s Hs. apply HD, Hs. }
  { intros s. rewrite N4. fold kd. unfold opens, add_f. destruct (assoc (combine (vw_down v) (seq N kd)) s) as [o|] eqn:E; [|reflexivity].
    assert (Hs : In s (vw_down v)). { destruct (in_dec Nat.eq_dec s (vw_down v)) as [X|X]; [exact X|]. exfalso. assert (Y : assoc (combine (vw_down v) (seq N kd)) s = None). { apply assoc_none. rewrite map_fst_combine by apply seq_length. exact X. } congruence. }
    rewrite (proj1 (HD s Hs)). cbn [ol app]. rewrite app_nil_r. reflexivity. }
  { rewrite N4. reflexivity. } { reflexivity. }
  rewrite E6. cbn [rbind]. set (r3 := rev (map first_half (seq N kd)) ++ r2) in *.
  assert (W6 : length (t_wind t6) = N + kd). { rewrite (k_wind _ _ K6), (al_wind _ _ _ _ _ _ _ _ A5), app_length, (al_ws _ _ _ _ _ _ _ _ A5), W4. reflexivity. }
  (* horizontals to the right *)
  destruct (houts_loop_spec ops a tag (vw_out v) (length R) (lastw west N kd) (wend w (map (fun s => gain s true) (vw_down v))) t6 NDO) as (t7 & E7 & A7).
  { apply Forall_forall. intros s Hs. destruct (HO s Hs) as (U1 & U2 & U3). split; [rewrite (li_nopen _ _ _ _ _ (proj1 I6)); exact U1|auto]. } { apply (li_west _ _ _ _ _ (proj1 I6)). }
  rewrite W6 in E7. fold ko in E7. rewrite E7. cbn [rbind].
  destruct (open_some a t6 t7 R r3 (fun _ => None) (drop_f old (vw_up v)) (add_f nw (combine (vw_down v) (seq N kd)))
     (assoc (combine (map fst (vw_out v)) (seq (N + kd) ko))) (drop_f old (vw_up v)) (add_f nw (combine (vw_down v) (seq N kd)))
     (map fst (vw_out v)) _ _ _ true (length R) (map first_half (seq (N + kd) ko)) I6 A7) as (t8 & E8 & I8 & K8).
  { exact NDO. } { rewrite repeat_length, map_length. reflexivity. } { rewrite !map_length. reflexivity. }
  { apply Forall_forall. intros s Hs. apply HO, Hs. }
  { intros s. rewrite W6, map_length. fold ko. unfold opens at 1. destruct (assoc (combine (map fst (vw_out v)) (seq (N + kd) ko)) s) as [o|]; reflexivity. }
  { rewrite W6, map_length. reflexivity. } { reflexivity. }
  rewrite E8. cbn [rbind]. exists t8. split; [reflexivity|]. split; [exact I8|].
  destruct A5, A7. constructor.
  - rewrite (k_wind _ _ K8), al_wind0, (k_wind _ _ K6), al_wind, W4, app_assoc. reflexivity.
  - rewrite (k_west _ _ K8), al_west0, (k_west _ _ K6), al_west, (k_west _ _ K4). cbn [with_open t_west]. rewrite (k_west _ _ K2). cbn [with_open t_west t0 with_points]. rewrite app_assoc. reflexivity.
  - rewrite (k_orig _ _ K8), al_orig0, (k_orig _ _ K6), al_orig, (k_orig _ _ K4). cbn [with_open t_orig]. rewrite (k_orig _ _ K2). cbn [with_open t_orig t0 with_points]. rewrite app_assoc. reflexivity.
  - rewrite (k_pos _ _ K8), al_pos0, (k_pos _ _ K6), al_pos, (k_pos _ _ K4). cbn [with_open t_pos]. rewrite (k_pos _ _ K2). cbn [with_open t_pos t0 with_points]. rewrite app_assoc. reflexivity.
  - rewrite (k_points _ _ K8), al_points0, (k_points _ _ K6), al_points, (k_points _ _ K4). cbn [with_open t_points]. rewrite (k_points _ _ K2). reflexivity.
  - rewrite (k_after _ _ K8), al_after0, (k_after _ _ K6), al_after, (k_after _ _ K4). cbn [with_open t_after]. rewrite (k_after _ _ K2). reflexivity.
  - rewrite (k_east _ _ K8), al_east0, (k_east _ _ K6), al_east, (k_east _ _ K4). cbn [with_open t_east]. rewrite (k_east _ _ K2). cbn [with_open t_east t0 with_points].
    rewrite app_length, !wlist_length, !map_length, repeat_app, app_assoc. reflexivity.
Qed.

(** *** All positions of a range *)
(** The output segments at one position. *)
Record vrec : Type := mkVr { vr_v : view; vr_in : list nat; vr_up : list nat; vr_down : list nat; vr_out : list nat }.
Definition vring (r : vrec) : list half := ring_of (vr_in r) (vr_up r) (vr_down r) (vr_out r).
Definition val (f : nat -> option nat) (s : nat) : nat := match f s with Some o => o | None => 0 end.
Fixpoint vrecs (N : nat) (old : nat -> option nat) (oin : list nat) (l : list view) : list vrec :=
  match l with
  | [] => []
  | v :: l =>
      let kd := length (vw_down v) in let ko := length (vw_out v) in
      mkVr v oin (map (val old) (vw_up v)) (seq N kd) (seq (N + kd) ko) :: vrecs (N + kd + ko) old (seq (N + kd) ko) l
  end.
Definition dgains (v : view) : list W := map (fun s => gain s true) (vw_down v).
Definition ogains (v : view) : list W := map (fun q => gain (fst q) (snd q)) (vw_out v).
Fixpoint vwinds (w : W) (l : list view) : list (wpair W) :=
  match l with [] => [] | v :: l => (wlist w (dgains v) ++ wlist (wend w (dgains v)) (ogains v)) ++ vwinds (wend w (dgains v)) l end.
Fixpoint vwests (west : option nat) (N : nat) (l : list view) : list (option nat) :=
  match l with
  | [] => []
  | v :: l =>
      let kd := length (vw_down v) in let ko := length (vw_out v) in
      (wests west N kd ++ repeat (lastw west N kd) ko) ++ vwests (lastw west N kd) (N + kd + ko) l
  end.
Fixpoint vlast (ld : option nat) (N : nat) (l : list view) : option nat :=
  match l with
  | [] => ld
  | v :: l => vlast (lastw ld N (length (vw_down v))) (N + length (vw_down v) + length (vw_out v)) l
  end.
Definition vorig (l : list view) : list nat := concat (map (fun v => vw_down v ++ map fst (vw_out v)) l).
Definition vpos (l : list view) : list bool :=
  concat (map (fun v => map (orient a) (vw_down v) ++ map (fun q => Bool.eqb (snd q) (orient a (fst q))) (vw_out v)) l).
Definition ups (l : list view) : list nat := concat (map vw_up l).
Definition downs (l : list view) : list nat := concat (map vw_down l).
Definition odowns (rs : list vrec) : list nat := concat (map vr_down rs).
(** Horizontals go on from one position to the next. *)
Fixpoint chained (inn : list (nat * bool)) (l : list view) : Prop :=
  match l with [] => inn = [] | v :: l => vw_in v = inn /\ chained (vw_out v) l end.

Lemma TI_ext t R hz old nw hz' old' nw' : TI t R hz old nw -> (forall s, hz' s = hz s) -> (forall s, old' s = old s) -> (forall s, nw' s = nw s) -> TI t R hz' old' nw'.
Proof.
  intros [I RI] H1 H2 H3. split; [eapply LI_ext; eassumption|]. eapply rings_live; [|exact RI]. intros h. unfold placed_half.
  rewrite (opened_ext hz old nw hz' old' nw') by assumption. reflexivity.
Qed.
Lemma grown_trans t t1 t2 ws we og po ps ws' we' og' po' ps' : grown t t1 ws we og po ps -> grown t1 t2 ws' we' og' po' ps' ->
  grown t t2 (ws ++ ws') (we ++ we') (og ++ og') (po ++ po') (ps ++ ps').
Proof.
  intros [] []. constructor; rewrite ?app_length, ?repeat_app; try congruence; rewrite ?app_assoc; congruence.
Qed.
Lemma drop_drop f l m s : drop_f (drop_f f l) m s = drop_f f (l ++ m) s.
Proof. unfold drop_f, memn. rewrite existsb_app. destruct (existsb _ l), (existsb _ m); reflexivity. Qed.
Lemma assoc_app l m s : assoc (l ++ m) s = match assoc l s with Some o => Some o | None => assoc m s end.
Proof. induction l as [|[k v] l IH]; [reflexivity|]. cbn. destruct (k =? s); [reflexivity|exact IH]. Qed.
Lemma combine_app {A B} (l : list A) (m : list B) l' m' : length l = length m -> combine (l ++ l') (m ++ m') = combine l m ++ combine l' m'.
Proof. revert m. induction l as [|x l IH]; intros [|y m] L; try discriminate; [reflexivity|]. cbn. rewrite IH by (injection L; auto). reflexivity. Qed.
Lemma val_forall2 (f : nat -> option nat) l : (forall s, In s l -> f s <> None) -> Forall2 (fun s o => f s = Some o) l (map (val f) l).
Proof.
  induction l as [|s l IH]; intros H; [constructor|]. cbn. constructor; [|apply IH; intros s' Hs'; apply H; right; exact Hs'].
  unfold val. destruct (f s) eqn:E; [reflexivity|]. exfalso. apply (H s); [left; reflexivity|exact E].
Qed.

Lemma loop_ok y : forall l w west ld t R H old nw, TI t R (assoc H) old nw ->
  (exists inn, chained inn l /\ map fst H = map fst inn) -> NoDup (map fst H) ->
  NoDup (ups l) -> (forall s, In s (ups l) -> old s <> None) ->
  NoDup (downs l) -> (forall s, In s (downs l) -> nw s = None /\ usable s) ->
  Forall (fun v => NoDup (map fst (vw_out v)) /\ forall s, In s (map fst (vw_out v)) -> usable s) l ->
  let N := length (t_wind t) in let rs := vrecs N old (map snd H) l in
  exists t', views_loop y l w west ld t = Ok (vlast ld N l, t') /\
    TI t' (R ++ map vring rs) (fun _ => None) (drop_f old (ups l)) (add_f nw (combine (downs l) (odowns rs))) /\
    grown t t' (vwinds w l) (vwests west N l) (vorig l) (vpos l) (map (fun v => mkPoint y (vw_x v)) l).
Proof.
  induction l as [|v l IH]; intros w west ld t R H old nw I (inn & CH & HF) NDH NDU HU NDD HD FO N rs; cbn [views_loop chained] in *.
  - subst inn. exists t. split; [reflexivity|]. split.
    + rewrite app_nil_r. eapply TI_ext; [exact I| | |]; intros s; try reflexivity. destruct H; [reflexivity|discriminate].
    + constructor; cbn; rewrite ?app_nil_r; reflexivity.
  - destruct CH as [<- CH]. apply Forall_cons_iff in FO. destruct FO as [[NDO HO] FO].
    unfold ups, downs in NDU, NDD, HU, HD. cbn [map concat] in NDU, NDD, HU, HD. fold (ups l) in NDU, HU. fold (downs l) in NDD, HD.
    apply nodup_app in NDU. destruct NDU as (NU1 & NU2 & NU3). apply nodup_app in NDD. destruct NDD as (ND1 & ND2 & ND3).
    destruct (view_ok y v w west ld t R H old nw (map (val old) (vw_up v))) as (t1 & E1 & I1 & G1); try assumption.
    { apply val_forall2. intros s Hs. apply HU, in_or_app. left. exact Hs. }
    { intros s Hs. apply HD, in_or_app. left. exact Hs. }
    fold N in E1, I1, G1. rewrite E1. cbn [rbind].
    set (kd := length (vw_down v)) in *. set (ko := length (vw_out v)) in *.
    assert (N1 : length (t_wind t1) = N + kd + ko).
    { rewrite (gr_wind _ _ _ _ _ _ _ G1), !app_length, !wlist_length, !map_length. fold N kd ko. lia. }
    assert (LC : length (seq (N + kd) ko) = length (map fst (vw_out v))) by (rewrite seq_length, map_length; reflexivity).
    destruct (IH (wend w (dgains v)) (lastw west N kd) (lastw ld N kd) t1 (R ++ [vring (mkVr v (map snd H) (map (val old) (vw_up v)) (seq N kd) (seq (N + kd) ko))])
       (combine (map fst (vw_out v)) (seq (N + kd) ko)) (drop_f old (vw_up v)) (add_f nw (combine (vw_down v) (seq N kd))) I1) as (t2 & E2 & I2 & G2).
    { exists (vw_out v). split; [exact CH|]. apply map_fst_combine, LC. }
    { rewrite map_fst_combine by exact LC. exact NDO. }
    { exact NU2. }
    { intros s Hs. unfold drop_f. destruct (memn s (vw_up v)) eqn:M; [apply memn_spec in M; exfalso; apply (NU3 s M Hs)|]. apply HU, in_or_app. right. exact Hs. }
    { exact ND2. }
    { intros s Hs. destruct (HD s) as [X1 X2]; [apply in_or_app; right; exact Hs|]. split; [|exact X2]. unfold add_f.
      assert (Z : assoc (combine (vw_down v) (seq N kd)) s = None) by (apply assoc_none; rewrite map_fst_combine by apply seq_length; intros X; apply (ND3 s X Hs)). rewrite Z. exact X1. }
    { exact FO. }
    rewrite N1 in E2, I2, G2. rewrite map_snd_combine in I2 by exact LC.
    assert (RE : vrecs (N + kd + ko) (drop_f old (vw_up v)) (seq (N + kd) ko) l = vrecs (N + kd + ko) old (seq (N + kd) ko) l).
    { clear - NU3. assert (X : forall s, In s (ups l) -> ~ In s (vw_up v)) by (intros s Hs Hv; apply (NU3 s Hv Hs)). clear NU3.
      generalize (N + kd + ko) as M, (seq (N + kd) ko) as oin. induction l as [|u l IH]; intros M oin; [reflexivity|]. cbn [vrecs].
      unfold ups in X. cbn [map concat] in X. fold (ups l) in X. rewrite IH by (intros s Hs; apply X, in_or_app; right; exact Hs). f_equal. f_equal.
      apply map_ext_in. intros s Hs. unfold val, drop_f. assert (M' : memn s (vw_up v) = false) by (apply memn_false, X, in_or_app; left; exact Hs). rewrite M'. reflexivity. }
    rewrite RE in I2. exists t2. split; [exact E2|]. split.
    + unfold rs. cbn [vrecs]. fold kd ko. cbn [map]. change (R ++ ?x :: ?y) with (R ++ [x] ++ y). rewrite app_assoc.
      eapply TI_ext; [exact I2| | |]; intros s; [reflexivity| |].
      * rewrite drop_drop. reflexivity.
      * unfold add_f, downs, odowns. cbn [map concat vr_down]. fold (downs l). rewrite combine_app by (rewrite seq_length; reflexivity). rewrite assoc_app.
        fold (odowns (vrecs (N + kd + ko) old (seq (N + kd) ko) l)).
        destruct (assoc (combine (vw_down v) (seq N kd)) s) as [o|] eqn:E; [|reflexivity].
        assert (Z : assoc (combine (downs l) (odowns (vrecs (N + kd + ko) old (seq (N + kd) ko) l))) s = None); [|rewrite Z; reflexivity].
        assert (In s (vw_down v)). { apply assoc_in in E. apply in_combine_l in E. exact E. }
        apply assoc_none. intros X. apply in_map_iff in X. destruct X as ([s' o'] & <- & X). apply in_combine_l in X. apply (ND3 s'); assumption.
    + pose proof (grown_trans _ _ _ _ _ _ _ _ _ _ _ _ _ G1 G2) as G. exact G.
Qed.
End View.
