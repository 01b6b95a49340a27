(** C51: the event loop at one height can run forever. *)
From Coq Require Import List Bool ZArith Arith Lia Reals Lra.
From Flocq Require Import IEEE754.BinarySingleNaN.
From Verif Require Import F64 F64Arith TreeVecModel TreeVecSpec TreeVecMono GeomModel SegmentsModel SegmentsSpec SegmentsProofs4
  CurveOrderModel CurveOrderSpec CurveOrderProofs SweepModel SweepSpec SweepProofs4 PropsSegments SweepReach SweepCheck PropsSweep.
Import ListNotations.

(** ** The indices to recheck do not influence the handling of crossings *)
Definition sim (s s' : sweeper) : Prop := with_need s [] = with_need s' [].
Definition rsim (r r' : res sweeper) : Prop :=
  match r, r' with Ok s, Ok s' => sim s s' | Err e, Err e' => e = e' | _, _ => False end.

Section S.
Variable a : arena.
Variable eps : f64.
Variables cmp ccmp : nat -> nat -> curve_order.
Variables min_x max_x : segment -> f64.
Notation scan_right := (scan_right a eps cmp ccmp min_x max_x).
Notation scan_left := (scan_left a eps cmp ccmp min_x max_x).
Notation scan_both := (scan_both a eps cmp ccmp min_x max_x).
Notation handle_intersection := (handle_intersection a eps cmp ccmp min_x max_x).
Notation intersect_all := (intersect_all a eps cmp ccmp min_x max_x).

Lemma sim_with s s' : sim s s' -> exists n, s' = with_need s n.
Proof. destruct s, s'. unfold sim, with_need. cbn. intros [=]; subst. eexists. reflexivity. Qed.
Lemma sim_need s n : sim s (with_need s n).
Proof. destruct s. reflexivity. Qed.
Lemma rsim_bind r r' f f' : rsim r r' -> (forall s s', sim s s' -> rsim (f s) (f' s')) -> rsim (rbind r f) (rbind r' f').
Proof. destruct r, r'; cbn; intros H F; try contradiction; auto. Qed.
Lemma rsim_bind1 {A} (r : res A) f f' : (forall v, rsim (f v) (f' v)) -> rsim (rbind r f) (rbind r f').
Proof. destruct r; cbn; auto. Qed.

Lemma scan_right_sim s s' i : sim s s' -> rsim (scan_right s i) (scan_right s' i).
Proof.
  intros H. apply sim_with in H. destruct H as [n ->]. unfold SweepModel.scan_right. apply rsim_bind1. intros g. apply rsim_bind1. intros sg.
  cbn [with_need sw_y]. destruct (feq _ _); [apply sim_need|]. apply rsim_bind1. intros evs. reflexivity.
Qed.
Lemma scan_left_sim s s' i : sim s s' -> rsim (scan_left s i) (scan_left s' i).
Proof.
  intros H. apply sim_with in H. destruct H as [n ->]. unfold SweepModel.scan_left. apply rsim_bind1. intros g. apply rsim_bind1. intros sg.
  cbn [with_need sw_y]. destruct (feq _ _); [apply sim_need|]. apply rsim_bind1. intros evs. reflexivity.
Qed.
Lemma scan_both_sim s s' i : sim s s' -> rsim (scan_both s i) (scan_both s' i).
Proof. intros H. unfold SweepModel.scan_both. apply rsim_bind; [apply scan_right_sim, H|]. intros. apply scan_left_sim. assumption. Qed.
Lemma scan_removal_sim s s' i : sim s s' -> rsim (scan_for_removal a eps cmp ccmp min_x max_x s i) (scan_for_removal a eps cmp ccmp min_x max_x s' i).
Proof. intros H. unfold scan_for_removal. destruct (0 <? i); [apply scan_both_sim, H|exact H]. Qed.
Lemma with_line_sim s s' l : sim s s' -> sim (with_line s l) (with_line s' l).
Proof. intros H. apply sim_with in H. destruct H as [n ->]. reflexivity. Qed.

Lemma remove_each_sim js : forall s s', sim s s' ->
  match remove_each a eps cmp ccmp min_x max_x s js, remove_each a eps cmp ccmp min_x max_x s' js with
  | Ok (r, t), Ok (r', t') => r = r' /\ sim t t' | Err e, Err e' => e = e' | _, _ => False end.
Proof.
  induction js as [|j js IH]; intros s s' H; cbn [remove_each]; [split; [reflexivity|exact H]|].
  assert (L : sw_line s' = sw_line s) by (apply sim_with in H; destruct H as [n ->]; reflexivity). rewrite L.
  destruct (line_remove (sw_line s) j) as [[e l]|]; cbn [rbind]; [|reflexivity].
  pose proof (scan_removal_sim _ _ j (with_line_sim _ _ l H)) as R. unfold rsim in R.
  destruct (scan_for_removal a eps cmp ccmp min_x max_x (with_line s l) j), (scan_for_removal a eps cmp ccmp min_x max_x (with_line s' l) j); cbn [rbind]; try contradiction; [|exact R].
  specialize (IH _ _ R). destruct (remove_each a eps cmp ccmp min_x max_x a0 js) as [[r t]|], (remove_each a eps cmp ccmp min_x max_x a1 js) as [[r' t']|]; cbn [rbind]; try contradiction; [|exact IH].
  destruct IH as [-> IH]. auto.
Qed.
Lemma insert_each_sim pos es : forall s s', sim s s' -> rsim (insert_each a eps cmp ccmp min_x max_x s pos es) (insert_each a eps cmp ccmp min_x max_x s' pos es).
Proof.
  induction es as [|e es IH]; intros s s' H; cbn [insert_each]; [exact H|]. apply rsim_bind; [|exact IH]. unfold insert_entry.
  assert (L : sw_line s' = sw_line s) by (apply sim_with in H; destruct H as [n ->]; reflexivity). rewrite L. apply rsim_bind1. intros l.
  apply scan_both_sim, with_line_sim, H.
Qed.
Lemma handle_sim s s' l r : sim s s' -> rsim (handle_intersection s l r) (handle_intersection s' l r).
Proof.
  intros H. apply sim_with in H. destruct H as [n ->]. unfold SweepModel.handle_intersection. cbn [with_need sw_line sw_y].
  apply rsim_bind1. intros li. apply rsim_bind1. intros ri. destruct (li <? ri).
  - apply rsim_bind1. intros [h|js]; [reflexivity|]. apply rsim_bind1. intros line. cbn [sw_line].
    match goal with |- rsim (rbind (remove_each _ _ _ _ _ _ ?s _) _) (rbind (remove_each _ _ _ _ _ _ ?s' _) _) => assert (H : sim s s') by reflexivity; revert H; generalize s s' end.
    intros u u' H. pose proof (remove_each_sim (rev (li :: js)) _ _ H) as R.
    destruct (remove_each a eps cmp ccmp min_x max_x u (rev (li :: js))) as [[r1 t]|], (remove_each a eps cmp ccmp min_x max_x u' (rev (li :: js))) as [[r1' t']|]; cbn [rbind]; try contradiction; [|exact R].
    destruct R as [<- R]. apply insert_each_sim, R.
  - apply rsim_bind; [apply scan_right_sim; reflexivity|]. intros. apply scan_left_sim. assumption.
Qed.
Lemma intersect_sim fuel : forall s s', sim s s' -> rsim (intersect_all fuel s) (intersect_all fuel s').
Proof.
  induction fuel as [|f IH]; intros s s' H; pose proof H as H0; apply sim_with in H0; destruct H0 as [n ->]; cbn [SweepModel.intersect_all with_need sw_int sw_y].
  - destruct (sw_int s) as [|ev evs]; [exact H|]. destruct (feq _ _); [reflexivity|exact H].
  - destruct (sw_int s) as [|ev evs]; [exact H|]. destruct (feq _ _); [|exact H]. apply rsim_bind; [|exact IH].
    apply handle_sim. reflexivity.
Qed.

(** One turn of the loop. *)
Definition turn (s : sweeper) : res sweeper :=
  match sw_int s with
  | ev :: evs => if feq (ie_y ev) (sw_y s) then handle_intersection (with_int s evs) (ie_left ev) (ie_right ev) else Err EIndex
  | [] => Err EIndex
  end.
Lemma turn_all s s' f : turn s = Ok s' -> intersect_all 0 s = Err EFuel /\ intersect_all (S f) s = intersect_all f s'.
Proof.
  unfold turn. cbn [SweepModel.intersect_all]. destruct (sw_int s) as [|ev evs]; [discriminate|]. destruct (feq _ _); [|discriminate].
  intros ->. auto.
Qed.
(** A cycle of two turns is followed forever. *)
Lemma cycle_forever s1 s2 s3 : turn s1 = Ok s2 -> turn s2 = Ok s3 -> sim s1 s3 -> forall f, intersect_all f s1 = Err EFuel.
Proof.
  intros T1 T2 C. assert (X : forall f, intersect_all f s1 = Err EFuel /\ intersect_all (S f) s1 = Err EFuel).
  { induction f as [|f [IH1 IH2]].
    - destruct (turn_all _ _ 0 T1) as [A B]. split; [exact A|]. rewrite B. apply (turn_all _ _ 0 T2).
    - split; [exact IH2|]. destruct (turn_all _ _ (S f) T1) as [_ B]. rewrite B. destruct (turn_all _ _ f T2) as [_ D]. rewrite D.
      pose proof (intersect_sim f _ _ C) as R. rewrite IH1 in R. unfold rsim in R. destruct (intersect_all f s3); [contradiction|]. congruence. }
  intros f. apply X.
Qed.
End S.

(** ** States without the proofs inside floats *)
Definition lview (e : lentry) := (le_seg e, le_exit e, le_enter e, @B2SF 53 1024 (le_lower e), @B2SF 53 1024 (le_upper e), le_changed e, le_old_idx e, le_old_seg e).
Definition iview (e : ievent) := (@B2SF 53 1024 (ie_y e), ie_left e, ie_right e).
Definition sview (s : sweeper) := (@B2SF 53 1024 (sw_y s), map lview (sw_line s), sw_next_enter s, sw_next_exit s, map iview (sw_int s), sw_horiz s, sw_changed s).
Lemma map_inj {A R} (f : A -> R) : (forall x y, f x = f y -> x = y) -> forall l l', map f l = map f l' -> l = l'.
Proof. intros H. induction l as [|x l IH]; intros [|y l'] E; cbn in E; try discriminate; [reflexivity|]. injection E as E1 E2. f_equal; [apply H, E1|apply IH, E2]. Qed.
Lemma lview_inj x y : lview x = lview y -> x = y.
Proof. destruct x, y. unfold lview. cbn. intros [=]; subst. repeat match goal with H : B2SF _ = B2SF _ |- _ => apply B2SF_inj in H end. subst. reflexivity. Qed.
Lemma iview_inj x y : iview x = iview y -> x = y.
Proof. destruct x, y. unfold iview. cbn. intros [=]; subst. repeat match goal with H : B2SF _ = B2SF _ |- _ => apply B2SF_inj in H end. subst. reflexivity. Qed.
Lemma sview_sim s s' : sview s = sview s' -> sim s s'.
Proof.
  destruct s as [y1 l1 e1 x1 q1 h1 n1 c1], s' as [y2 l2 e2 x2 q2 h2 n2 c2]. unfold sview, sim, with_need. cbn [sw_y sw_line sw_next_enter sw_next_exit sw_int sw_horiz sw_changed].
  intros H. injection H as H1 H2 H3 H4 H5 H6 H7.
  apply B2SF_inj in H1. apply (map_inj _ lview_inj) in H2. apply (map_inj _ iview_inj) in H5. subst. reflexivity.
Qed.

(** ** The example *)
(** Three curves over the heights 0 to 10 with tolerance 10: [xL] stands still, [xK] and [xR] cross each other, staying within
    the tolerance of [xL] up to height 8. *)
Definition xL (y : R) : R := 0.
Definition xK (y : R) : R := if Rle_dec y 5 then -6 + y / 5 else if Rle_dec y 8 then -5 + 5 * (y - 5) else 10 + (y - 8).
Definition xR (y : R) : R := - xK y.
(** A table (heights and orders, starting at 0) is the exact comparison of [f] and [g] with tolerance [tol]. *)
Fixpoint exact_table (f g : R -> R) (tol : R) (start : Z) (l : list (Z * order)) : Prop :=
  match l with
  | [] => True
  | (e, o) :: l' =>
      (forall y, IZR start < y < IZR e -> match o with
         | Left => f y + tol < g y
         | Ish => - tol <= f y - g y <= tol
         | Right => g y + tol < f y
         end)%R /\ exact_table f g tol e l'
  end.
Definition tab_LK : list (Z * order) := [(8, Ish); (10, Left)]%Z.
Definition tab_LR : list (Z * order) := [(8, Ish); (10, Right)]%Z.
Definition tab_KR : list (Z * order) := [(5, Left); (7, Ish); (10, Right)]%Z.
Lemma tables_exact : exact_table xL xK 10 0 tab_LK /\ exact_table xL xR 10 0 tab_LR /\ exact_table xK xR 10 0 tab_KR.
Proof.
  unfold tab_LK, tab_LR, tab_KR, xR, xL. cbn [exact_table]. unfold xK.
  repeat split; intros; repeat match goal with |- context [Rle_dec ?u ?v] => destruct (Rle_dec u v) end; lra.
Qed.

Definition ll_input : list seg_op := [OpPoints [pt 0 0; pt 0 10]; OpPoints [pt (-6) 0; pt 12 10]; OpPoints [pt 6 0; pt (-12) 10]].
Definition ll_arena : arena := match ex_run arena_default ll_input with Some (a, _) => a | None => arena_default end.
Definition tb (l : list (Z * order)) : curve_order := mkCO fzero (map (fun '(h, o) => mkEntry (z h) o) l).
Definition ll_cmp (i j : nat) : curve_order :=
  match i, j with
  | 0, 1 => tb tab_LK
  | 0, 2 => tb tab_LR
  | 1, 2 => tb tab_KR
  | 1, 0 => co_flip (tb tab_LK)
  | 2, 0 => co_flip (tb tab_LR)
  | 2, 1 => co_flip (tb tab_KR)
  | _, _ => tb [(10, Ish)]%Z
  end.
Definition ll_sweep (fuel n : nat) := SweepModel.sweep ll_arena (f64_of_Z 10) ll_cmp ll_cmp ex_min ex_max (fun s _ _ => ex_min s) (fun s _ _ => ex_max s)
  ex_pps (@isort) fuel n 0 (sweeper_new ll_arena).

(** [next_line] up to the crossings. *)
Definition before (a : arena) (eps : f64) (cmp ccmp : nat -> nat -> curve_order) (min_x max_x : segment -> f64)
  (pp : (lentry -> bool) -> list lentry -> nat) (s : sweeper) (y : f64) : res sweeper :=
  do! s := advance s y in
  let enters := upto_y y (skipn (sw_next_enter s) (enter a)) in
  let s := with_counts s (sw_next_enter s + length enters) (sw_next_exit s) in
  do! s := enter_all a eps cmp ccmp min_x max_x pp s enters in
  let exits := upto_y y (skipn (sw_next_exit s) (exit_ a)) in
  let s := with_counts s (sw_next_enter s) (sw_next_exit s + length exits) in
  exit_all a eps cmp ccmp min_x max_x s exits.
Lemma next_line_before a eps cmp ccmp min_x max_x lower upper pp pph sort_by fuel s y : next_y a s = Some y ->
  next_line a eps cmp ccmp min_x max_x lower upper pp pph sort_by fuel s =
  (do! s := before a eps cmp ccmp min_x max_x pp s y in
   do! s := intersect_all a eps cmp ccmp min_x max_x fuel s in
   do! s := compute_changed a eps cmp ccmp lower upper pph sort_by s in Ok (Some s)).
Proof.
  intros E. unfold next_line, before. rewrite E. destruct (advance s y) as [s1|]; cbn [rbind]; [|reflexivity].
  destruct (enter_all a eps cmp ccmp min_x max_x pp _ _); cbn [rbind]; [|reflexivity]. reflexivity.
Qed.

Definition get {A} (d : A) (r : res A) : A := match r with Ok v => v | Err _ => d end.
Definition is_ok {A} (r : res A) : bool := match r with Ok _ => true | Err _ => false end.
Lemma get_ok {A} (d : A) r : is_ok r = true -> r = Ok (get d r).
Proof. destruct r; [reflexivity|discriminate]. Qed.
Definition geto {A} (d : A) (r : option A) : A := match r with Some v => v | None => d end.
Lemma geto_ok {A} (d : A) r : match r with Some _ => true | None => false end = true -> r = Some (geto d r).
Proof. destruct r; [reflexivity|discriminate]. Qed.

Notation ll_before := (before ll_arena (f64_of_Z 10) ll_cmp ll_cmp ex_min ex_max scan_pp).
Notation ll_turn := (turn ll_arena (f64_of_Z 10) ll_cmp ll_cmp ex_min ex_max).
Definition s_init : sweeper := sweeper_new ll_arena.
Definition y_a : f64 := geto fzero (next_y ll_arena s_init).
Definition s_a : sweeper := get s_init (ll_before s_init y_a).
Definition s_b : sweeper := get s_init (compute_changed ll_arena (f64_of_Z 10) ll_cmp ll_cmp (fun s _ _ => ex_min s) (fun s _ _ => ex_max s) scan_pp (@isort) s_a).
Definition y_c : f64 := geto fzero (next_y ll_arena s_b).
Definition s_c : sweeper := get s_init (ll_before s_b y_c).
Definition s_d : sweeper := get s_init (ll_turn s_c).
Definition s_e : sweeper := get s_init (ll_turn s_d).
Definition s_f : sweeper := get s_init (ll_turn s_e).

(** The line at the height of the crossing, and after each turn of the loop. *)
Example ll_cycle : map (fun s => map le_seg (sw_line s)) [s_c; s_d; s_e; s_f] = [[0; 1; 2]; [1; 2; 0]; [0; 1; 2]; [1; 2; 0]] /\ feq y_c (z 4) = true.
Proof. vm_compute. split; reflexivity. Qed.

Lemma ll_forever fuel n : ll_sweep fuel (S (S n)) = Err EFuel.
Proof.
  unfold ll_sweep. fold s_init. cbn [SweepModel.sweep ex_pps fst snd].
  assert (EY : next_y ll_arena s_init = Some y_a) by (apply geto_ok; vm_compute; reflexivity).
  rewrite (next_line_before _ _ _ _ _ _ _ _ _ _ _ _ _ _ EY).
  assert (EA : ll_before s_init y_a = Ok s_a) by (apply get_ok; vm_compute; reflexivity). rewrite EA. cbn [rbind].
  assert (EI : intersect_all ll_arena (f64_of_Z 10) ll_cmp ll_cmp ex_min ex_max fuel s_a = Ok s_a).
  { assert (X : match sw_int s_a with [] => true | ev :: _ => negb (feq (ie_y ev) (sw_y s_a)) end = true) by (vm_compute; reflexivity).
    clear - X. destruct fuel; cbn [intersect_all]; destruct (sw_int s_a) as [|ev evs]; try reflexivity; destruct (feq (ie_y ev) (sw_y s_a)); [discriminate|reflexivity|discriminate|reflexivity]. }
  rewrite EI. cbn [rbind].
  assert (EB : compute_changed ll_arena (f64_of_Z 10) ll_cmp ll_cmp (fun s _ _ => ex_min s) (fun s _ _ => ex_max s) scan_pp (@isort) s_a = Ok s_b) by (apply get_ok; vm_compute; reflexivity).
  rewrite EB. cbn [rbind].
  assert (EC : next_y ll_arena s_b = Some y_c) by (apply geto_ok; vm_compute; reflexivity).
  rewrite (next_line_before _ _ _ _ _ _ _ _ _ _ _ _ _ _ EC).
  assert (ED : ll_before s_b y_c = Ok s_c) by (apply get_ok; vm_compute; reflexivity). rewrite ED. cbn [rbind].
  assert (T1 : ll_turn s_c = Ok s_d) by (apply get_ok; vm_compute; reflexivity).
  assert (T2 : ll_turn s_d = Ok s_e) by (apply get_ok; vm_compute; reflexivity).
  assert (T3 : ll_turn s_e = Ok s_f) by (apply get_ok; vm_compute; reflexivity).
  assert (C : sim s_d s_f) by (apply sview_sim; vm_compute; reflexivity).
  assert (F : intersect_all ll_arena (f64_of_Z 10) ll_cmp ll_cmp ex_min ex_max fuel s_c = Err EFuel).
  { destruct fuel as [|f]; [apply (turn_all _ _ _ _ _ _ _ _ 0 T1)|]. destruct (turn_all _ _ _ _ _ _ _ _ f T1) as [_ ->]. apply (cycle_forever _ _ _ _ _ _ _ _ _ T2 T3 C). }
  rewrite F. reflexivity.
Qed.

Lemma ll_reachable : reachable_ok ex_eval ex_ctrl ex_monic ex_quad ex_at_y isort ll_input ll_arena.
Proof.
  unfold reachable_ok, ll_arena, ex_run.
  destruct (SegmentsSpec.run ex_eval ex_ctrl ex_monic ex_quad ex_at_y isort arena_default ll_input) as [[a oks]|] eqn:E.
  - assert (X : match SegmentsSpec.run ex_eval ex_ctrl ex_monic ex_quad ex_at_y isort arena_default ll_input with Some (_, o) => o | None => [] end = [true; true; true]) by (vm_compute; reflexivity).
    rewrite E in X. rewrite X. reflexivity.
  - assert (X : match SegmentsSpec.run ex_eval ex_ctrl ex_monic ex_quad ex_at_y isort arena_default ll_input with Some (_, o) => true | None => false end = true) by (vm_compute; reflexivity).
    rewrite E in X. discriminate.
Qed.
Lemma ll_sweepable : sweepable ll_arena.
Proof.
  apply (reachable_sweepable ex_eval ex_ctrl ex_monic ex_quad ex_at_y isort isort_spec ll_input ll_arena).
  - intros p [H|[H|[H|[]]]]; discriminate.
  - intros op [<-|[<-|[<-|[]]]]; exact I.
  - assert (N : forall l, forallb (fun p => negb (nan (px p)) && negb (nan (py p))) l = true -> Forall point_nonnan l).
    { intros l H. rewrite forallb_forall in H. apply Forall_forall. intros p Hp. apply H in Hp. apply andb_true_iff in Hp. destruct Hp as [H1 H2].
      split; [destruct (nan (px p))|destruct (nan (py p))]; try reflexivity; discriminate. }
    intros op [<-|[<-|[<-|[]]]]; cbn [SegmentsProofs4.op_nonnan]; apply N; vm_compute; reflexivity.
  - exact ll_reachable.
  - assert (X : forallb (fun s => fin (px (seg_start s)) && fin (py (seg_start s)) && fin (px (seg_end s)) && fin (py (seg_end s))) (segs ll_arena) = true) by (vm_compute; reflexivity).
    rewrite forallb_forall in X. intros s Hs. apply X in Hs. rewrite !andb_true_iff in Hs. destruct Hs as (((A & B) & C) & D).
    split; [split; assumption|]. split; [split; assumption|]. intros y _. unfold ex_at_y. split; [apply fin_nonnan, A|]. apply fin_nonnan in A. fk. apply Z.eqb_refl.
Qed.
Lemma ll_sound : sound_setting ll_arena ll_cmp ll_cmp ex_pps (@isort).
Proof.
  assert (CO : comparer_ok ll_arena ll_cmp) by (apply comparer_b_ok; vm_compute; reflexivity).
  split; [exact ll_sweepable|exact CO|exact CO| |intros A; apply isort_spec].
  intros t. split; [intros p l; apply scan_pp_boundary|]. split; [intros p l; apply scan_pp_boundary|]. intros p q l l' F. apply scan_pp_mono, F.
Qed.
Lemma ll_consistent : consistent ll_arena ll_cmp.
Proof.
  split.
  - intros [|[|[|i]]] [|[|[|j]]] D; try reflexivity; exfalso; apply D; reflexivity.
  - intros y i j k Ny Li Lj Lk.
    assert (B : forall i, live ll_arena y i -> i < 3).
    { intros n (R & S & _). apply (SweepProofs2.registered_lt _ ll_sweepable) in R. exact R. }
    apply B in Li, Lj, Lk. unfold eorder, co_entry_at.
    assert (G : (fgt (z 5) y = true -> fgt (z 7) y = true) /\ (fgt (z 7) y = true -> fgt (z 8) y = true) /\ (fgt (z 8) y = true -> fgt (z 10) y = true)).
    { assert (N4 : nan (z 7) = false) by reflexivity. assert (N5 : nan (z 5) = false) by reflexivity. assert (N6 : nan (z 8) = false) by reflexivity. assert (N10 : nan (z 10) = false) by reflexivity.
      assert (K4 : (key (z 5) < key (z 7) < key (z 8))%Z) by (vm_compute; split; reflexivity). assert (K6 : (key (z 8) < key (z 10))%Z) by (vm_compute; reflexivity).
      fk. rewrite !Z.ltb_lt. lia. }
    destruct G as (G1 & G2 & G3).
    destruct i as [|[|[|i]]]; try lia; destruct j as [|[|[|j]]]; try lia; destruct k as [|[|[|k]]]; try lia;
      cbn [ll_cmp tb tab_LK tab_LR tab_KR co_flip entry_flip order_flip map co_iter co_iter_from co_start co_cmps e_end e_order find option_map snd];
      destruct (fgt (z 5) y), (fgt (z 7) y), (fgt (z 8) y), (fgt (z 10) y); cbn; try congruence; intuition congruence.
Qed.

(** The documented sweep terminates at every height: false.  There is an arena with three segments and comparison tables that are
    exact comparisons (with a tolerance) of three continuous curves, meeting every requirement of the other theorems, for which the second
    call of [next_line] never returns: for every bound on the number of turns of its loop, the bound is exceeded. *)
Theorem sweep_terminates_refuted : exists a eps cmp ccmp min_x max_x lower upper pps sort_by,
  sound_setting a cmp ccmp pps sort_by /\ consistent a cmp /\
  (exists tLK tLR tKR, cmp 0 1 = tb tLK /\ cmp 0 2 = tb tLR /\ cmp 1 2 = tb tKR /\ arena_len a = 3 /\
     exact_table xL xK 10 0 tLK /\ exact_table xL xR 10 0 tLR /\ exact_table xK xR 10 0 tKR) /\
  forall fuel n, 2 <= n -> SweepModel.sweep a eps cmp ccmp min_x max_x lower upper pps sort_by fuel n 0 (sweeper_new a) = Err EFuel.
Proof.
  exists ll_arena, (f64_of_Z 10), ll_cmp, ll_cmp, ex_min, ex_max, (fun s _ _ => ex_min s), (fun s _ _ => ex_max s), ex_pps, (@isort).
  split; [exact ll_sound|]. split; [exact ll_consistent|]. split.
  - exists tab_LK, tab_LR, tab_KR. do 3 (split; [reflexivity|]). split; [vm_compute; reflexivity|]. exact tables_exact.
  - intros fuel [|[|n]] H; try lia. apply ll_forever.
Qed.
Print Assumptions sweep_terminates_refuted.
