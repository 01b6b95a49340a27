(** Comparing curves: debug assertions and fuel do not change the result, and release builds always return. *)
From Coq Require Import List Bool ZArith Arith Lia.
From Verif Require Import F64 F64Arith TreeVecModel GeomModel SegmentsModel CurveOrderModel CurveOrderSpec CurveOrderProofs CurveOrderProofs2 CurveOrderProofs3
  SweepModel TopoModel ScanModel PosModel PosProofs PosProofs2 CompareModel CompareSpec CompareArith CompareProofs CompareProofs2.
Import ListNotations.
Local Open Scope Z_scope.

Section Compare.
Variable sub : cubic -> f64 -> f64 -> cubic.
Variable bbox : cubic -> f64 * f64.
Variable est : cubic -> parab.
Variable solve_x : cubic -> f64 -> f64.
Variables rot unrot : bool -> point -> point -> point.
Variables tolerance accuracy : f64.
Notation rec d := (intersect_rec d sub bbox est solve_x rot unrot tolerance accuracy).

(** ** More fuel, fewer assertions *)
Section Less.
Variables d d' : bool.
Hypothesis D : d' = true -> d = true.
Lemma dassert_less b u : dassert d b = Ok u -> dassert d' b = Ok u.
Proof. unfold dassert. destruct d'; [rewrite (D eq_refl); auto|]. destruct d; cbn [andb]; destruct b; cbn [negb]; try discriminate; auto. Qed.
Lemma push_less c y o c' : push d c y o = Ok c' -> push d' c y o = Ok c'.
Proof. unfold push. destruct (co_push c y o); [auto|]. destruct d; [discriminate|]. destruct d'; [discriminate (D eq_refl)|auto]. Qed.
Lemma y_subsegment_less c y0 y1 r : y_subsegment d sub c y0 y1 = Ok r -> y_subsegment d' sub c y0 y1 = Ok r.
Proof. unfold y_subsegment. intro E. ok E u E1. ok E v E2. rewrite (dassert_less _ _ E1). cbn [rbind]. rewrite (dassert_less _ _ E2). exact E. Qed.
Lemma pushes_in_less y0 y1 l : forall c c', pushes_in d y0 y1 c l = Ok c' -> pushes_in d' y0 y1 c l = Ok c'.
Proof.
  induction l as [|[e o] l IH]; intros c c' E; [exact E|]. cbn [pushes_in] in *. ok E k1 E1.
  assert (push_in d' y0 y1 c (e, o) = Ok k1) as ->; [|apply IH, E]. unfold push_in in *. destruct (_ && _); [apply push_less, E1|exact E1].
Qed.
Lemma quadratic_signs_less a b c lower upper y1 l : quadratic_signs d a b c lower upper y1 = Ok l -> quadratic_signs d' a b c lower upper y1 = Ok l.
Proof.
  unfold quadratic_signs. destruct (_ || _ || _); [auto|]. destruct (monic_quadratic_roots _ _) as (r0 & s0). destruct (monic_quadratic_roots _ _) as (r1 & s1).
  destruct (fgt a fzero); intro E; ok E u E1; ok E v E2; rewrite (dassert_less _ _ E1); cbn [rbind]; rewrite (dassert_less _ _ E2); exact E.
Qed.
Lemma push_quadratic_signs_less a b c lower upper y0 y1 out out' : push_quadratic_signs d a b c lower upper y0 y1 out = Ok out' -> push_quadratic_signs d' a b c lower upper y0 y1 out = Ok out'.
Proof. unfold push_quadratic_signs. intro E. ok E u E1. ok E l E2. rewrite (dassert_less _ _ E1). cbn [rbind]. rewrite (quadratic_signs_less _ _ _ _ _ _ _ E2). cbn [rbind]. apply pushes_in_less, E. Qed.
Lemma estimate_less c0 c1 y0 y1 r : estimate d est tolerance c0 c1 y0 y1 = Ok r -> estimate d' est tolerance c0 c1 y0 y1 = Ok r.
Proof. unfold estimate. intro E. ok E sc E1. rewrite (push_quadratic_signs_less _ _ _ _ _ _ _ _ _ E1). exact E. Qed.
Lemma check_points_less c0 c1 sc u : check_points d solve_x accuracy c0 c1 sc = Ok u -> check_points d' solve_x accuracy c0 c1 sc = Ok u.
Proof. unfold check_points. intro E. ok E sl E1. rewrite E1. cbn [rbind]. apply dassert_less, E. Qed.
Lemma map_back_less flag center c0 c1 y0 y1 l : forall out out', map_back d solve_x unrot flag center c0 c1 y0 y1 l out = Ok out' -> map_back d' solve_x unrot flag center c0 c1 y0 y1 l out = Ok out'.
Proof. induction l as [|[[a h] o] l IH]; intros out out' E; [exact E|]. cbn [map_back] in *. ok E e E1. rewrite E1. cbn [rbind]. ok E o1 E2. rewrite (push_less _ _ _ _ E2). cbn [rbind]. apply IH, E. Qed.
Lemma with_rotation_less r r' c0 c1 y0 y1 out out' : (forall a b x y o o', r a b x y o = Ok o' -> r' a b x y o = Ok o') ->
  with_rotation d solve_x rot unrot tolerance r c0 c1 y0 y1 out = Ok out' -> with_rotation d' solve_x rot unrot tolerance r' c0 c1 y0 y1 out = Ok out'.
Proof.
  intros H. unfold with_rotation. destruct (rotation rot c0 c1 y0 y1) as [[[[flag center] r0] r1]|]; [|auto]. destruct (fge _ _); intro E.
  - ok E o1 E1. rewrite (push_less _ _ _ _ E1). exact E.
  - ok E o1 E1. rewrite (H _ _ _ _ _ _ E1). cbn [rbind]. ok E o2 E2. rewrite (map_back_less _ _ _ _ _ _ _ _ _ E2). exact E.
Qed.
Lemma refine_less r r' y0 y1 w l : (forall x y o o', r x y o = Ok o' -> r' x y o = Ok o') -> forall out out',
  refine_all d accuracy r y0 y1 w l out = Ok out' -> refine_all d' accuracy r' y0 y1 w l out = Ok out'.
Proof.
  intros H. induction l as [|[[s e] o] l IH]; intros out out' E; [exact E|]. cbn [refine_all] in *. ok E o1 E1.
  match goal with |- rbind ?X _ = _ => assert (X = Ok o1) as ->; [|apply IH, E] end.
  destruct (order_eqb o Ish); [|apply push_less, E1]. destruct (_ || _); [apply push_less, E1|]. destruct (flt _ _); [apply H, E1|].
  ok E1 o2 E2. rewrite (H _ _ _ _ E2). cbn [rbind]. apply H, E1.
Qed.
Lemma rec_less f : forall f' oc0 oc1 y0 y1 out out', (f <= f')%nat -> rec d f oc0 oc1 y0 y1 out = Ok out' -> rec d' f' oc0 oc1 y0 y1 out = Ok out'.
Proof.
  induction f as [|f IH]; intros f' oc0 oc1 y0 y1 out out' L E; [discriminate|]. destruct f' as [|f']; [lia|]. cbn [intersect_rec] in *.
  ok E k0 E1. ok E k1 E2. rewrite (y_subsegment_less _ _ _ _ E1), (y_subsegment_less _ _ _ _ E2). cbn [rbind].
  destruct (fle (max_distance k0 k1) tolerance); [apply push_less, E|]. destruct (flt (fsub y1 y0) accuracy); [destruct (bbox k0), (bbox k1); apply push_less, E|].
  ok E r E3. erewrite with_rotation_less; [|intros; eapply IH; [|eassumption]; lia|exact E3]. cbn [rbind]. destruct r as [o1|].
  - ok E u E4. rewrite (dassert_less _ _ E4). exact E.
  - okp E sc w E4. rewrite (estimate_less _ _ _ _ _ E4). cbn [rbind]. ok E u E5. rewrite (check_points_less _ _ _ _ E5). cbn [rbind].
    eapply refine_less; [|exact E]. intros. eapply IH; [|eassumption]. lia.
Qed.
Lemma intersect_less f f' c0 c1 t : (f <= f')%nat -> intersect_cubics d sub bbox est solve_x rot unrot tolerance accuracy f c0 c1 = Ok t ->
  intersect_cubics d' sub bbox est solve_x rot unrot tolerance accuracy f' c0 c1 = Ok t.
Proof.
  intros L E. unfold intersect_cubics in *. ok E u E1. rewrite (dassert_less _ _ E1). cbn [rbind]. ok E r E2.
  match goal with |- rbind ?X _ = _ => assert (X = Ok r) as -> end.
  - destruct (flt _ _); [eapply rec_less; eassumption|]. destruct (feq _ _); [|exact E2]. ok E2 v E3. rewrite (dassert_less _ _ E3). cbn [rbind].
    destruct (if _ : bool then _ else _) as (x0 & x1). apply push_less, E2.
  - cbn [rbind]. ok E v E3. rewrite (dassert_less _ _ E3). exact E.
Qed.
End Less.

(** ** Every result has at least one interval *)
Lemma map_back_nonempty d flag center c0 c1 y0 y1 l : forall out out', (l <> [] \/ co_cmps out <> []) -> map_back d solve_x unrot flag center c0 c1 y0 y1 l out = Ok out' -> co_cmps out' <> [].
Proof.
  induction l as [|[[a h] o] l IH]; intros out out' H E; cbn [map_back] in E; [injection E as <-; destruct H; congruence|].
  ok E e E1. ok E o1 E2. eapply IH; [|exact E]. right. eapply push_nonempty. exact E2.
Qed.
Lemma set_last_nonempty c y c' : set_last_end c y = Ok c' -> co_cmps c' <> [].
Proof.
  intro E. unfold set_last_end in E. ok E la El. injection E as <-. apply orerr_some in El. cbn [co_cmps]. pose proof (last_opt_spec (co_cmps c)) as LO. rewrite El in LO. destruct LO as (m & ->).
  rewrite set_last_app. destruct m; discriminate.
Qed.
Lemma iter_nonempty c : co_cmps c <> [] -> co_iter c <> [].
Proof. unfold co_iter. destruct (co_cmps c); [congruence|discriminate]. Qed.
Lemma refine_nonempty d r y0 y1 w l : (forall x y o o', r x y o = Ok o' -> co_cmps o' <> []) -> forall out out', (l <> [] \/ co_cmps out <> []) -> refine_all d accuracy r y0 y1 w l out = Ok out' -> co_cmps out' <> [].
Proof.
  intros H. induction l as [|[[s e] o] l IH]; intros out out' X E; cbn [refine_all] in E; [injection E as <-; destruct X; congruence|]. ok E o1 E1. eapply IH; [right|exact E].
  destruct (order_eqb o Ish); [|eapply push_nonempty; exact E1]. destruct (_ || _); [eapply push_nonempty; exact E1|]. destruct (flt _ _); [eapply H; exact E1|]. ok E1 o2 E2. eapply H; exact E1.
Qed.
Lemma rec_nonempty d f : forall oc0 oc1 y0 y1 out out', rec d f oc0 oc1 y0 y1 out = Ok out' -> co_cmps out' <> [].
Proof.
  induction f as [|f IH]; intros oc0 oc1 y0 y1 out out' E; [discriminate|]. cbn [intersect_rec] in E. ok E k0 E1. ok E k1 E2.
  destruct (fle (max_distance k0 k1) tolerance); [eapply push_nonempty; exact E|]. destruct (flt (fsub y1 y0) accuracy); [destruct (bbox k0), (bbox k1); eapply push_nonempty; exact E|].
  ok E r E3. destruct r as [o1|].
  - ok E u E4. injection E as <-. unfold with_rotation in E3. destruct (rotation rot k0 k1 y0 y1) as [[[[flag center] r0] r1]|]; [|discriminate]. destruct (fge _ _).
    + ok E3 o2 E5. injection E3 as <-. eapply push_nonempty; exact E5.
    + ok E3 o2 E5. ok E3 o3 E6. ok E3 o4 E7. injection E3 as <-. eapply set_last_nonempty; exact E7.
  - okp E sc w E4. ok E u E5. eapply refine_nonempty; [|left|exact E]; [intros; eapply IH; eassumption|]. apply iter_nonempty. unfold estimate in E4. ok E4 s1 E6. ok E4 cm E7. ok E4 s2 E8. injection E4 as <- _. eapply set_last_nonempty; exact E8.
Qed.

(** ** Release builds always return *)
Lemma push_total c y o : exists c', push false c y o = Ok c'.
Proof. unfold push. destruct (co_push c y o); eexists; reflexivity. Qed.
Lemma pushes_in_total y0 y1 l : forall c, exists c', pushes_in false y0 y1 c l = Ok c'.
Proof.
  induction l as [|[e o] l IH]; intro c; [eexists; reflexivity|]. cbn [pushes_in]. unfold push_in. destruct (_ && _); [|apply IH].
  destruct (push_total c (fmin e y1) o) as (c' & ->). apply IH.
Qed.
Lemma quadratic_signs_total a b c lower upper y1 : exists l, quadratic_signs false a b c lower upper y1 = Ok l.
Proof.
  unfold quadratic_signs. destruct (_ || _ || _).
  - destruct (_ && _); [destruct (fgt b fzero)|destruct (flt c lower); [|destruct (fgt c upper)]]; eexists; reflexivity.
  - destruct (monic_quadratic_roots _ _) as (r0 & s0). destruct (monic_quadratic_roots _ _) as (r1 & s1). destruct (fgt a fzero); eexists; reflexivity.
Qed.
Lemma fclamp_total x lo hi : fle lo hi = true -> exists y, fclamp x lo hi = Ok y.
Proof. intro L. unfold fclamp. rewrite L. eexists; reflexivity. Qed.
Lemma unscale_total m u y0 y1 l : fle y0 y1 = true -> exists l', unscale m u y0 y1 l = Ok l' /\ length l' = length l.
Proof.
  intro L. induction l as [|e l (l' & E & Hl)]; [eexists; split; reflexivity|]. cbn [unscale]. destruct (fclamp_total (fadd (fmul (e_end e) u) m) y0 y1 L) as (h & ->). cbn [rbind]. rewrite E. eexists. split; [reflexivity|]. cbn [length]. congruence.
Qed.
Lemma set_last_total c y : co_cmps c <> [] -> exists c', set_last_end c y = Ok c'.
Proof. intro H. unfold set_last_end. pose proof (last_opt_spec (co_cmps c)) as LO. destruct (last_opt (co_cmps c)); [eexists; reflexivity|contradiction]. Qed.
Lemma estimate_total c0 c1 y0 y1 : tame y0 -> tame y1 -> key y0 < key y1 -> exists r, estimate false est tolerance c0 c1 y0 y1 = Ok r.
Proof.
  intros T0 T1 L. destruct (scaled_strict y0 y1 T0 T1 L) as (F0 & F1 & LT). unfold estimate, push_quadratic_signs. cbn [dassert andb rbind].
  match goal with |- context [quadratic_signs false ?a ?b ?c ?x ?y ?z] => destruct (quadratic_signs_total a b c x y z) as (l & El); rewrite El end. cbn [rbind].
  destruct (quadratic_signs_last _ _ _ _ _ _ _ _ El) as (l' & o & ->).
  match goal with |- context [pushes_in false ?a ?b ?c ?x] => destruct (pushes_in_total a b x c) as (sc & Es); rewrite Es end. cbn [rbind].
  pose proof (pushes_in_nonempty _ _ _ _ _ _ _ LT Es) as NE. assert (fle y0 y1 = true) as LE. { pose proof (fin_nonnan _ (tame_fin _ T0)). pose proof (fin_nonnan _ (tame_fin _ T1)). fk. zb. lia. }
  match goal with |- context [unscale ?m ?u y0 y1 ?l] => destruct (unscale_total m u y0 y1 l LE) as (cm & Ec & Hl); rewrite Ec end. cbn [rbind].
  destruct (set_last_total (mkCO y0 cm) y1) as (r & ->); [|eexists; reflexivity]. cbn [co_cmps]. destruct cm; [destruct (co_cmps sc); [congruence|discriminate Hl]|discriminate].
Qed.
Lemma map_back_total flag center c0 c1 y0 y1 l : fle y0 y1 = true -> forall out, exists out', map_back false solve_x unrot flag center c0 c1 y0 y1 l out = Ok out'.
Proof.
  intros L. induction l as [|[[a h] o] l IH]; intro out; [eexists; reflexivity|]. cbn [map_back].
  match goal with |- context [fclamp ?x y0 y1] => destruct (fclamp_total x y0 y1 L) as (e & ->) end. cbn [rbind]. destruct (push_total out e o) as (o1 & ->). apply IH.
Qed.

Hypothesis FA : fin accuracy = true.
Hypothesis PA : fgt accuracy fzero = true.

Lemma refine_total (r : nat -> f64 -> f64 -> curve_order -> res curve_order) y0 y1 w E l : forall a out, tame y0 -> tame y1 -> key E = key y1 -> resolved accuracy y0 y1 -> flt (fsub y1 y0) accuracy = false ->
  (forall f f' x y o o', (f <= f')%nat -> r f x y o = Ok o' -> r f' x y o = Ok o') ->
  (forall s e out, tame s -> tame e -> key y0 <= key s -> key s <= key e -> key e <= key y1 -> key e - key s < key y1 - key y0 -> exists f out', r f s e out = Ok out') ->
  tame a -> key y0 <= key a -> chained E a l -> exists f out', refine_all false accuracy (r f) y0 y1 w l out = Ok out'.
Proof.
  intros a out T0 T1 EE RS FS MR HR. revert a out. pose proof (fin_nonnan _ (tame_fin _ T0)) as N0. pose proof (fin_nonnan _ (tame_fin _ T1)) as N1.
  induction l as [|[[b e] o] l IH]; intros a out Ta La Ch; [exists 0%nat; eexists; reflexivity|].
  cbn [chained] in Ch. destruct Ch as (-> & Ne & L1 & L2 & Ch). assert (Te : tame e) by (apply (tame_between y0 y1); [assumption..|lia]).
  assert (ST : exists f o1, (if order_eqb o Ish then if fle (fsub y1 y0) accuracy || fle w accuracy then push false out e o else if flt (fsub e a) (fmul fhalf (fsub y1 y0)) then r f a e out
     else rbind (r f a (fmul fhalf (fadd a e)) out) (fun out => r f (fmul fhalf (fadd a e)) e out) else push false out e o) = Ok o1).
  { destruct (order_eqb o Ish); [|destruct (push_total out e o) as (c' & Ep); exists 0%nat, c'; exact Ep]. destruct (fle (fsub y1 y0) accuracy || fle w accuracy); [destruct (push_total out e o) as (c' & Ep); exists 0%nat, c'; exact Ep|].
    destruct (flt (fsub e a) (fmul fhalf (fsub y1 y0))) eqn:F.
    - apply HR; [exact Ta|exact Te|exact La|exact L1|lia|]. apply shorter; [assumption..|lia|exact F].
    - pose proof (not_shorter accuracy y0 y1 a e FA T0 T1 Ta Te FS F) as Q. pose proof (fin_nonnan _ (tame_fin _ Ta)) as Na.
      destruct (RS a e) as (z & Z1 & Z2); [fk; zb; exact La|fk; zb; lia|exact Q|]. destruct (flt_nonnan _ _ Z1) as (_ & Nz). assert (KZ : key a < key z < key e) by (fk; zb; lia).
      assert (Fz : fin z = true) by (apply (fin_between' a e); [apply tame_fin; assumption..|exact Nz|lia]).
      destruct (fmid_strict a e z (tame_fin _ Ta) (tame_fin _ Te) Fz KZ (tame_add _ _ Ta Te)) as (_ & KM).
      destruct (half_mid a e (tame_add _ _ Ta Te)) as (Fm & Km). rewrite <- Km in KM.
      assert (Tm : tame (fmul fhalf (fadd a e))) by (apply (tame_between a e); [assumption..|apply fin_nonnan, Fm|lia]).
      destruct (HR a (fmul fhalf (fadd a e)) out Ta Tm) as (f1 & o1 & R1); [lia..|]. destruct (HR (fmul fhalf (fadd a e)) e o1 Tm Te) as (f2 & o2 & R2); [lia..|].
      exists (Nat.max f1 f2), o2. rewrite (MR f1 (Nat.max f1 f2) _ _ _ _ (Nat.le_max_l _ _) R1). cbn [rbind]. exact (MR f2 (Nat.max f1 f2) _ _ _ _ (Nat.le_max_r _ _) R2). }
  destruct ST as (f1 & o1 & S1). destruct (IH e o1 Te ltac:(lia) Ch) as (f2 & o2 & S2). exists (Nat.max f1 f2), o2. cbn [refine_all].
  match goal with |- rbind ?X _ = _ => assert (X = Ok o1) as -> end.
  - destruct (order_eqb o Ish); [|exact S1]. destruct (fle (fsub y1 y0) accuracy || fle w accuracy); [exact S1|].
    destruct (flt (fsub e a) (fmul fhalf (fsub y1 y0))); [exact (MR f1 (Nat.max f1 f2) _ _ _ _ (Nat.le_max_l _ _) S1)|].
    ok S1 o3 S3. rewrite (MR f1 (Nat.max f1 f2) _ _ _ _ (Nat.le_max_l _ _) S3). cbn [rbind]. exact (MR f1 (Nat.max f1 f2) _ _ _ _ (Nat.le_max_l _ _) S1).
  - cbn [rbind]. eapply (refine_less false false); [auto| |exact S2]. intros. eapply MR; [|eassumption]. lia.
Qed.

Lemma y_subsegment_cut c y0 y1 : y_subsegment false sub c y0 y1 = Ok (cut sub c y0 y1).
Proof. reflexivity. Qed.

Lemma rec_total n : forall oc0 oc1 lo hi, calm sub rot accuracy n oc0 oc1 lo hi ->
  forall m y0 y1 out, nan y0 = false -> nan y1 = false -> key lo <= key y0 -> key y0 <= key y1 -> key y1 <= key hi -> (Z.to_nat (key y1 - key y0) < m)%nat ->
  exists f out', rec false f oc0 oc1 y0 y1 out = Ok out'.
Proof.
  induction n as [n IHn] using (well_founded_induction Wf_nat.lt_wf). intros oc0 oc1 lo hi CA.
  assert (CB : tame lo /\ tame hi /\ resolved accuracy lo hi /\ forall y0 y1, fle lo y0 = true -> flt y0 y1 = true -> fle y1 hi = true ->
    forall flag center r0 r1, rotation rot (cut sub oc0 y0 y1) (cut sub oc1 y0 y1) y0 y1 = Some (flag, center, r0, r1) ->
    fge (common_start r0 r1) (common_end r0 r1) = true \/ exists n' lo' hi', (n' < n)%nat /\ fle lo' (common_start r0 r1) = true /\ fle (common_end r0 r1) hi' = true /\ calm sub rot accuracy n' r0 r1 lo' hi').
  { destruct n as [|n]; cbn [calm] in CA; destruct CA as (A1 & A2 & A3 & A4); (split; [exact A1|]; split; [exact A2|]; split; [exact A3|]); intros y0 y1 B1 B2 B3 flag center r0 r1 R;
      (destruct (A4 y0 y1 B1 B2 B3 flag center r0 r1 R) as [X|X]; [left; exact X|right]).
    - destruct X.
    - destruct X as (lo' & hi' & X1 & X2 & X3). exists n, lo', hi'. split; [lia|]. auto. }
  clear CA. destruct CB as (Tl & Th & RS & HC). pose proof (fin_nonnan _ (tame_fin _ Tl)) as Nl. pose proof (fin_nonnan _ (tame_fin _ Th)) as Nh.
  induction m as [|m IHm]; intros y0 y1 out N0 N1 L0 L1 L2 M; [lia|].
  assert (T0 : tame y0) by (apply (tame_between lo hi); [assumption..|lia]). assert (T1 : tame y1) by (apply (tame_between lo hi); [assumption..|lia]).
  assert (BASE : forall (P : nat -> res curve_order), (forall f, P (S f) = push false out y1 Ish) -> exists f out', P f = Ok out').
  { intros P HP. destruct (push_total out y1 Ish) as (c' & Ep). exists 1%nat, c'. rewrite HP. exact Ep. }
  set (s0 := cut sub oc0 y0 y1). set (s1 := cut sub oc1 y0 y1).
  destruct (fle (max_distance s0 s1) tolerance) eqn:MD.
  { apply BASE. intro f. cbn [intersect_rec]. rewrite !y_subsegment_cut. cbn [rbind]. fold s0 s1. rewrite MD. reflexivity. }
  destruct (flt (fsub y1 y0) accuracy) eqn:SH.
  { destruct (bbox s0) as (lo0 & hi0) eqn:B0. destruct (bbox s1) as (lo1 & hi1) eqn:B1.
    destruct (push_total out y1 (order_of (fge lo1 (fadd hi0 tolerance)) (fge lo0 (fadd hi1 tolerance)))) as (c' & Ep).
    exists 1%nat, c'. cbn [intersect_rec]. rewrite !y_subsegment_cut. cbn [rbind]. fold s0 s1. rewrite MD, SH, B0, B1. exact Ep. }
  assert (LT : key y0 < key y1).
  { destruct (Z.eq_dec (key y0) (key y1)) as [K|K]; [exfalso|lia]. destruct (tame_sub y1 y0 T1 T0) as (Fd & Rd).
    assert (KZ : key (fsub y1 y0) = 0). { apply (fin_keys _ fzero Fd eq_refl). rewrite Rd. apply sub_zero; [apply tame_fin; assumption..|congruence]. }
    pose proof (fin_nonnan _ Fd). pose proof (fin_nonnan _ FA). assert (nan fzero = false) by reflexivity. fk. zb. change (key fzero) with 0 in *. lia. }
  assert (LTb : flt y0 y1 = true) by (fk; zb; exact LT). assert (LE : fle y0 y1 = true) by (fk; zb; lia).
  assert (LOb : fle lo y0 = true) by (fk; zb; exact L0). assert (HIb : fle y1 hi = true) by (fk; zb; exact L2).
  destruct (rotation rot s0 s1 y0 y1) as [[[[flag center] r0] r1]|] eqn:RO.
  - destruct (fge (common_start r0 r1) (common_end r0 r1)) eqn:GE.
    + destruct (push_total out y1 (order_of (flt (px (cb0 s0)) (fsub (px (cb0 s1)) tolerance)) (fgt (px (cb0 s0)) (fadd (px (cb0 s1)) tolerance)))) as (c' & Ep).
      exists 1%nat, c'. cbn [intersect_rec]. rewrite !y_subsegment_cut. cbn [rbind]. fold s0 s1. rewrite MD, SH. unfold with_rotation. rewrite RO. fold (common_start r0 r1) (common_end r0 r1). rewrite GE, Ep. reflexivity.
    + destruct (HC y0 y1 LOb LTb HIb flag center r0 r1 RO) as [X|(n' & lo' & hi' & Ln & X1 & X2 & X3)]; [congruence|].
      destruct (fle_nonnan _ _ X1) as (Na & Nb). destruct (fle_nonnan _ _ X2) as (Nc & Nd).
      destruct (IHn n' Ln r0 r1 lo' hi' X3 (S (Z.to_nat (key (common_end r0 r1) - key (common_start r0 r1)))) (common_start r0 r1) (common_end r0 r1) (co_new (common_start r0 r1))) as (f & orot & Er);
        [exact Nb|exact Nc|fk; zb; lia|fk; zb; lia|fk; zb; lia|lia|].
      destruct (map_back_total flag center r0 r1 y0 y1 (co_iter orot) LE out) as (o2 & E2).
      assert (NE : co_cmps o2 <> []). { eapply map_back_nonempty; [|exact E2]. left. apply iter_nonempty. eapply rec_nonempty; exact Er. }
      destruct (set_last_total o2 y1 NE) as (o3 & E3). exists (S f), o3. cbn [intersect_rec]. rewrite !y_subsegment_cut. cbn [rbind]. fold s0 s1. rewrite MD, SH. unfold with_rotation. rewrite RO. fold (common_start r0 r1) (common_end r0 r1). rewrite GE, Er. cbn [rbind]. rewrite E2. cbn [rbind]. rewrite E3. reflexivity.
  - destruct (estimate_total s0 s1 y0 y1 T0 T1 LT) as ((sc & w) & Ee). destruct (estimate_good est tolerance false s0 s1 y0 y1 sc w T0 T1 LT Ee) as (Gs & Ks & NEs).
    pose proof (good_wf _ _ _ Gs NEs) as W. pose proof (wf_chained _ W) as Ch. assert (St : co_start sc = y0) by apply Gs.
    destruct (refine_total (fun f => rec false f oc0 oc1) y0 y1 w (table_end sc) (co_iter sc) (co_start sc) out T0 T1 Ks) as (f & out' & Er).
    + intros a b Ha Hb Hd. apply RS; [|eapply fle_trans; eassumption|exact Hd]. eapply fle_trans; eassumption.
    + exact SH.
    + intros f f' x y o o' Lf. apply rec_less; [auto|exact Lf].
    + intros s e o Ts Te A1 A2 A3 A4. apply IHm; [apply fin_nonnan, tame_fin; assumption..| | | |]; lia.
    + rewrite St. exact T0.
    + rewrite St. lia.
    + exact Ch.
    + exists (S f), out'. cbn [intersect_rec]. rewrite !y_subsegment_cut. cbn [rbind]. fold s0 s1. rewrite MD, SH. unfold with_rotation. rewrite RO. cbn [rbind]. rewrite Ee. cbn [rbind]. cbv beta iota.
      unfold check_points. assert (SL : exists sl, co_with_y_slop sc accuracy = Some sl).
      { unfold co_with_y_slop. destruct (feq accuracy fzero); [eexists; reflexivity|]. pose proof (last_opt_spec (co_cmps sc)) as LO. destruct (last_opt (co_cmps sc)); [|contradiction]. destruct (feq _ _); eexists; reflexivity. }
      destruct SL as (sl & ->). cbn [orerr rbind dassert andb]. exact Er.
Qed.
End Compare.
