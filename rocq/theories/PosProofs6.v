(** Heights above zero are never laid out (C41); the curves of a group come out side by side (C59). *)
From Coq Require Import List Bool ZArith Arith Lia Permutation Sorted Reals Lra.
From Flocq Require Import Core BinarySingleNaN.
From Verif Require Import F64 F64Arith TreeVecModel GeomModel SegmentsModel CurveOrderModel CurveOrderProofs SweepModel SweepSpec TopoModel TopoProofs ScanModel ScanSpec PropsBinOp PosModel PosSpec PosProofs PosProofs3.
Import ListNotations.

Section Neg.
Variable dbg : bool.
Variable a : arena.
Variable cmp : nat -> nat -> curve_order.
Variable sub : segment -> f64 -> f64 -> cubic.
Variables trans_after trans_before : cubic -> cubic -> f64 -> bool.
Variable est : cubic -> parab.
Variable pop : list qentry -> option (qentry * list qentry).
Variable orig : list nat.
Variable ends : list (point * point).
Variable order : scan_order.
Variable accuracy : f64.

Lemma requeue_last y1 l : forall last queue last' queue', requeue ends y1 l last queue = Ok (last', queue') -> forall y, In y last' -> In y last \/ y = y1.
Proof.
  induction l as [|o l IH]; intros last queue last' queue' H y Hy; cbn [requeue] in H.
  { injection H as <- <-. left. exact Hy. }
  ok H q Hq. cbv zeta in H. ok H last1 E. apply orerr_some in E. destruct (IH _ _ _ _ H y Hy) as [I|I]; [|right; exact I]. apply In_nth_error in I. destruct I as (k & Hk). destruct (upd_spec _ _ _ _ E) as (_ & _ & N). rewrite N in Hk. destruct (k =? o); [right; congruence|left; eapply nth_error_In, Hk].
Qed.

Lemma run_nonneg fuel s tr s' : run dbg a cmp sub trans_after trans_before est pop orig ends order accuracy fuel s tr s' ->
  (forall y, In y (st_last s) -> fle fzero y = true) -> (forall y o y1 g, In ((y, o), Some (y1, g)) tr -> flt y y1 = true) ->
  forall y o y1 g, In ((y, o), Some (y1, g)) tr -> fle fzero y = true.
Proof.
  induction 1 as [s P|s y0 o0 queue ly tr s' P L G R IH|s y0 o0 queue ly y2 g0 s1 tr s' P L G GR HD R IH]; intros HL HY y o y1 g I.
  - destruct I.
  - destruct I as [I|I]; [discriminate|]. eapply IH; [exact HL|intros; eapply HY; right; eassumption|exact I].
  - assert (P0 : fle fzero y0 = true).
    { pose proof (HL ly (nth_error_In _ _ L)) as A. pose proof (HY _ _ _ _ (or_introl eq_refl)) as B. apply flt_split in B. apply fle_split in A. unfold fgt in G. rewrite flt_key in G by tauto. apply Z.ltb_ge in G. apply fle_intro; try tauto; lia. }
    destruct I as [I|I]; [injection I as <- _ _ _; exact P0|]. eapply IH; [|intros; eapply HY; right; eassumption|exact I].
    intros z Hz. destruct (handle_out _ _ _ _ _ _ _ _ _ _ _ _ _ _ _ _ HD) as (y3 & ns & out & GR' & _ & _ & RQ). rewrite GR in GR'. injection GR' as <- <-. cbn [st_last] in RQ.
    destruct (requeue_last _ _ _ _ _ _ RQ z Hz) as [J| ->]; [apply HL, J|]. eapply fle_tr; [exact P0|apply flt_le, (HY _ _ _ _ (or_introl eq_refl))].
Qed.

(** A group changes only the paths of its members. *)
Lemma handle_only fuel y0 o s s' y1 g : begun (st_out s) -> group cmp orig ends order fuel o y0 = Ok (y1, g) -> In o g ->
  handle dbg a cmp sub trans_after trans_before est orig ends order accuracy fuel y0 o s = Ok s' -> ext (fun o e => drawn e /\ In o g) (st_out s) (st_out s').
Proof.
  intros B GR IO H. destruct (handle_out _ _ _ _ _ _ _ _ _ _ _ _ _ _ _ _ H) as (y2 & ns & out & GR' & -> & C & _). rewrite GR in GR'. injection GR' as <- <-. destruct C as [(_ & [(_ & q & _ & E)|(_ & ->)])|(_ & is & _ & E)].
  - eapply append_copied_ext with (o := o) (e := LineTo q); [split; [exact I|exact IO]|intros x Hx; exact (begun_at _ _ _ B Hx)|exact E].
  - apply ext_refl.
  - eapply ordered_ext with (I := fun _ => True); [exact cmp| | | | | |exact B|exact E]; intros; try exact I; split; try exact I; assumption.
Qed.
Lemma run_untouched fuel s tr s' : run dbg a cmp sub trans_after trans_before est pop orig ends order accuracy fuel s tr s' -> begun (st_out s) ->
  (forall y o y1 g, In ((y, o), Some (y1, g)) tr -> In o g) ->
  forall z, (forall y o y1 g, In ((y, o), Some (y1, g)) tr -> ~ In z g) -> nth_error (st_out s') z = nth_error (st_out s) z.
Proof.
  induction 1 as [s P|s y0 o0 queue ly tr s' P L G R IH|s y0 o0 queue ly y2 g0 s1 tr s' P L G GR HD R IH]; intros B HO z HZ.
  - reflexivity.
  - rewrite IH; [reflexivity|exact B| |]; intros; [eapply HO|eapply HZ]; right; eassumption.
  - assert (B' : begun (st_out (mkPS (st_out s) (st_last s) queue))) by exact B. pose proof (handle_only _ _ _ _ _ _ _ B' GR (HO _ _ _ _ (or_introl eq_refl)) HD) as X. cbn [st_out] in X.
    rewrite IH; [|eapply ext_begun; [exact X|exact B]|intros; eapply HO; right; eassumption|intros; eapply HZ; right; eassumption].
    destruct X as [LX X]. destruct (nth_error (st_out s) z) as [x|] eqn:E.
    + destruct (X z x E) as (x' & E' & l & P1 & F & C). rewrite E'. f_equal. assert (l = []) as ->. { destruct l as [|e l]; [reflexivity|]. exfalso. apply Forall_inv in F. destruct F as [_ F]. exact (HZ _ _ _ _ (or_introl eq_refl) F). }
      rewrite app_nil_r in P1. destruct C as [C|(k & _ & C)]; [|cbn in C; lia]. destruct x, x'. cbn in *. congruence.
    + apply nth_error_None. apply nth_error_None in E. lia.
Qed.

Lemma finish_copy o p q i s x' : nth_error ends o = Some (p, q) -> nth_error orig o = Some i -> nth_error (segs a) i = Some s -> flt (py p) (py q) = true -> dbg = false ->
  finish dbg a sub orig ends o (mkPosn [MoveTo p] None) = Ok x' -> copy_of sub s p q x'.
Proof.
  intros N O S L D H. subst dbg. unfold finish in H. ok H q' Hq. unfold stop_of in Hq. rewrite N in Hq. injection Hq as <-. cbn [snd] in *. cbn [bez_end_y bez_end rbind orerr last_opt ps_path pel_end] in H. rewrite L in H.
  ok H i' Hi. unfold orig_of in Hi. rewrite O in Hi. injection Hi as <-. ok H s' Hs. unfold seg_of in Hs. rewrite S in Hs. injection Hs as <-. unfold copy_of. apply flt_split in L. rewrite feq_key by tauto.
  destruct (Z.eqb_spec (key (py p)) (key (py q))) as [K|_]; [lia|]. cbn [orb]. destruct (is_line s).
  - injection H as <-. reflexivity.
  - ok H c Hc. injection H as <-. unfold next_subsegment in Hc. cbn [bez_end rbind orerr last_opt pel_end] in Hc. unfold y_subsegment in Hc. cbn [andb rbind] in Hc. injection Hc as <-. cbn [cb1 cb2 cb3]. rewrite feq_key, Z.eqb_refl by tauto. reflexivity.
Qed.

(** ** Side by side *)
Lemma beside_start p p' l l' : beside p p' l l' -> fle (px p) (px p') = true.
Proof. intros []; assumption. Qed.
Lemma beside_snoc p p' l l' c c' e e' : beside p p' l l' -> py c = py c' -> py e = py e' -> fle (px c) (px c') = true -> fle (px e) (px e') = true -> beside p p' (l ++ [QuadTo c e]) (l' ++ [QuadTo c' e']).
Proof. induction 1; intros; cbn [app]; constructor; auto. constructor; auto. Qed.

Lemma fmax_num x y : nan x = false -> nan (fmax x y) = false /\ fle x (fmax x y) = true.
Proof.
  intro N. unfold fmax. rewrite N. destruct (nan y) eqn:M; [split; [exact N|apply fle_refl', N]|]. destruct (fle y x) eqn:L; [split; [exact N|apply fle_refl', N]|]. split; [exact M|]. rewrite fle_key in * by assumption. apply Z.leb_gt in L. apply Z.leb_le. lia.
Qed.

(** One round appends a piece to every member; further east is no less. *)
Lemma quads_row y0 y1 l : forall xm xe out out', NoDup (map snd l) -> nan xm = false -> nan xe = false -> quads y0 y1 xm xe l out = Ok out' ->
  exists xs, length xs = length l /\
    Forall (fun z => fle xm (fst z) = true /\ fle xe (snd z) = true) xs /\
    StronglySorted (fun z z' => fle (fst z) (fst z') = true /\ fle (snd z) (snd z') = true) xs /\
    (forall k q o z x, nth_error l k = Some (q, o) -> nth_error xs k = Some z -> nth_error out o = Some x -> nth_error out' o = Some (mkPosn (ps_path x ++ [QuadTo (mkPoint (fmid y0 y1) (fst z)) (mkPoint y1 (snd z))]) (ps_copied x))) /\
    (forall o, ~ In o (map snd l) -> nth_error out' o = nth_error out o).
Proof.
  induction l as [|[q o] l IH]; intros xm xe out out' ND N1 N2 H; cbn [quads] in H.
  { injection H as <-. exists []. split; [reflexivity|]. split; [constructor|]. split; [constructor|]. split; [intros [|k]; discriminate|reflexivity]. }
  cbn [map snd] in ND. inversion_clear ND as [|? ? NI ND']. ok H out1 E. destruct (fmax_num xm (parab_mid y0 y1 q) N1) as [M1 G1]. destruct (fmax_num xe (parab_end y0 y1 q) N2) as [M2 G2].
  destruct (IH _ _ _ _ ND' M1 M2 H) as (xs & LX & FX & SX & IX & OX). exists ((fmax xm (parab_mid y0 y1 q), fmax xe (parab_end y0 y1 q)) :: xs). split; [cbn [length]; congruence|].
  split; [constructor; [split; assumption|]; eapply Forall_impl; [|exact FX]; intros z [A B]; split; eapply fle_tr; eassumption|]. split; [constructor; [exact SX|exact FX]|].
  unfold append in E. ok E p Ep. apply orerr_some in Ep, E. destruct (upd_spec _ _ _ _ E) as (_ & LE & NE). split.
  - intros [|k] q' o' z x Hk Hz Hx; cbn [nth_error] in Hk, Hz.
    + injection Hk as <- <-. injection Hz as <-. rewrite (OX o NI), NE, Nat.eqb_refl. assert (x = p) as -> by congruence. reflexivity.
    + apply (IX k q' o' z x Hk Hz). rewrite NE. destruct (Nat.eqb_spec o' o) as [->|_]; [|exact Hx]. exfalso. apply NI. apply nth_error_In in Hk. apply (in_map snd) in Hk. exact Hk.
  - intros o' Ho'. cbn [map snd In] in Ho'. rewrite (OX o') by tauto. rewrite NE. destruct (Nat.eqb_spec o' o) as [->|_]; [tauto|reflexivity].
Qed.

(** The pieces two members get. *)
Definition abreast (os : list nat) (out out' : list posn) : Prop :=
  length out' = length out /\
  (forall o, ~ In o os -> nth_error out' o = nth_error out o) /\
  (forall k o x, nth_error os k = Some o -> nth_error out o = Some x -> exists x' l, nth_error out' o = Some x' /\ ps_path x' = ps_path x ++ l /\ ps_copied x' = ps_copied x) /\
  (forall k k' o o' x x' p p', k < k' -> nth_error os k = Some o -> nth_error os k' = Some o' -> nth_error out o = Some x -> nth_error out o' = Some x' ->
    bez_end (ps_path x) = Ok p -> bez_end (ps_path x') = Ok p' -> fle (px p) (px p') = true ->
    exists y y' l l', nth_error out' o = Some y /\ nth_error out' o' = Some y' /\ ps_path y = ps_path x ++ l /\ ps_path y' = ps_path x' ++ l' /\ beside p p' l l').
Lemma abreast_refl os out : abreast os out out.
Proof.
  split; [reflexivity|]. split; [reflexivity|]. split.
  - intros k o x _ Hx. exists x, []. rewrite app_nil_r. auto.
  - intros k k' o o' x x' p p' _ _ _ Hx Hx' _ _ L. exists x, x', [], []. rewrite !app_nil_r. repeat (split; [auto|]). constructor. exact L.
Qed.
Lemma bez_end_snoc l e : bez_end (l ++ [e]) = Ok (pel_end e).
Proof. unfold bez_end. rewrite last_opt_app. reflexivity. Qed.
Lemma ss_nth {A} (R : A -> A -> Prop) l : StronglySorted R l -> forall k k' x x', k < k' -> nth_error l k = Some x -> nth_error l k' = Some x' -> R x x'.
Proof.
  induction 1 as [|z l S IH F]; intros [|k] [|k'] x x' L Hx Hx'; try lia; try discriminate; cbn [nth_error] in *.
  - injection Hx as <-. rewrite Forall_forall in F. apply F. eapply nth_error_In, Hx'.
  - eapply IH; [|exact Hx|exact Hx']. lia.
Qed.
Lemma map_snd_combine {A B} : forall (l : list A) (l' : list B), length l = length l' -> map snd (combine l l') = l'.
Proof. induction l as [|x l IH]; intros [|y l'] H; try discriminate; [reflexivity|]. cbn [combine map snd]. f_equal. apply IH. injection H as H. exact H. Qed.

Lemma approximate_all_len y0 y1 is : forall l, approximate_all dbg a sub est accuracy y0 y1 is = Ok (Some l) -> length l = length is.
Proof.
  induction is as [|i is IH]; intros l H; cbn [approximate_all] in H; [injection H as <-; reflexivity|].
  ok H s Es. ok H c Ec. cbv zeta in H. destruct (_ && _); [discriminate|]. ok H r Er. destruct r as [r|]; cbn in H; [|discriminate]. injection H as <-. cbn [length]. f_equal. apply IH. exact Er.
Qed.
Lemma approximate_len is : forall fuel y0 y1 next l, approximate dbg a sub est accuracy fuel y0 y1 is = Ok (next, l) -> length l = length is.
Proof.
  induction fuel as [|fuel IH]; intros y0 y1 next l H; [discriminate|]. cbn [approximate] in H. ok H r Er. destruct r as [r|].
  - injection H as _ <-. eapply approximate_all_len, Er.
  - eapply IH, H.
Qed.

Lemma pieces_abreast is os y1 : length is = length os -> NoDup os -> forall fuel y0 out out', (forall o, In o os -> o < length out) ->
  pieces dbg a sub est accuracy fuel y0 y1 is os out = Ok out' -> abreast os out out'.
Proof.
  intros LEN ND. induction fuel as [|fuel IH]; intros y0 out out' BD H; [discriminate|]. cbn [pieces] in H. destruct (flt y0 y1); [|injection H as <-; apply abreast_refl].
  okp H next l E. ok H out1 Q. apply approximate_len in E. assert (LL : length l = length os) by congruence.
  destruct (quads_row y0 next (combine l os) fneginf fneginf out out1) as (xs & LX & FX & SX & IX & OX); [rewrite map_snd_combine by exact LL; exact ND|reflexivity|reflexivity|exact Q|].
  rewrite map_snd_combine in OX by exact LL. rewrite combine_length, LL, Nat.min_id in LX.
  assert (LO : length out1 = length out). { eapply (quads_ext (fun _ _ => True)) in Q; [exact (proj1 Q)|]. intros; exact I. }
  assert (AT : forall k o x, nth_error os k = Some o -> nth_error out o = Some x -> exists z, nth_error xs k = Some z /\ nth_error out1 o = Some (mkPosn (ps_path x ++ [QuadTo (mkPoint (fmid y0 next) (fst z)) (mkPoint next (snd z))]) (ps_copied x))).
  { intros k o x Hk Hx. assert (k < length os) as Lk by (apply nth_error_Some; congruence). destruct (nth_error xs k) as [z|] eqn:Ez; [|apply nth_error_None in Ez; lia]. destruct (nth_error l k) as [q|] eqn:El; [|apply nth_error_None in El; lia].
    exists z. split; [reflexivity|]. apply (IX k q o z x); [|exact Ez|exact Hx]. clear - El Hk. revert k os El Hk. induction l as [|q0 l IH]; intros [|k] [|o0 os] El Hk; try discriminate; cbn [nth_error combine] in *; [congruence|apply IH; assumption]. }
  destruct (IH next out1 out') as (A1 & A2 & A3 & A4); [intros o Ho; rewrite LO; apply BD, Ho|exact H|]. split; [congruence|]. split; [intros o Ho; rewrite A2 by exact Ho; apply OX, Ho|]. split.
  - intros k o x Hk Hx. destruct (AT k o x Hk Hx) as (z & _ & Hz). destruct (A3 k o _ Hk Hz) as (x' & l' & B1 & B2 & B3). cbn [ps_path ps_copied] in B2, B3. exists x'. eexists. split; [exact B1|]. split; [rewrite B2, <- app_assoc; reflexivity|exact B3].
  - intros k k' o o' x x' p p' Lk Hk Hk' Hx Hx' Ep Ep' LE. destruct (AT k o x Hk Hx) as (z & Ez & Hz). destruct (AT k' o' x' Hk' Hx') as (z' & Ez' & Hz'). destruct (ss_nth _ _ SX _ _ _ _ Lk Ez Ez') as [S1 S2].
    destruct (A4 k k' o o' _ _ (mkPoint next (snd z)) (mkPoint next (snd z')) Lk Hk Hk' Hz Hz') as (y & y' & l1 & l1' & C1 & C2 & C3 & C4 & C5); [apply bez_end_snoc|apply bez_end_snoc|exact S2|]. cbn [ps_path] in C3, C4.
    exists y, y'. do 2 eexists. split; [exact C1|]. split; [exact C2|]. split; [rewrite C3, <- app_assoc; reflexivity|]. split; [rewrite C4, <- app_assoc; reflexivity|]. cbn [app]. constructor; try assumption; reflexivity.
Qed.
End Neg.

(** ** In every point *)
Local Open Scope R_scope.
Lemma bez2_le x0 x1 x2 y0 y1 y2 t : 0 <= t <= 1 -> x0 <= y0 -> x1 <= y1 -> x2 <= y2 -> bez2 x0 x1 x2 t <= bez2 y0 y1 y2 t.
Proof. intros T A B C. unfold bez2. assert (0 <= (1 - t) * (1 - t)) by nra. assert (0 <= 2 * t * (1 - t)) by nra. assert (0 <= t * t) by nra. nra. Qed.
Lemma beside_points p p' l l' : beside p p' l l' -> py p = py p' ->
  length (quads_of p l) = length (quads_of p' l') /\
  forall n q c e q' c' e' t, nth_error (quads_of p l) n = Some (q, c, e) -> nth_error (quads_of p' l') n = Some (q', c', e') ->
    fin (px q) = true -> fin (px c) = true -> fin (px e) = true -> fin (px q') = true -> fin (px c') = true -> fin (px e') = true -> 0 <= t <= 1 ->
    quad_y q c e t = quad_y q' c' e' t /\ quad_x q c e t <= quad_x q' c' e' t.
Proof.
  assert (LR : forall x y : f64, fin x = true -> fin y = true -> fle x y = true -> B2R x <= B2R y). { intros x y Fx Fy L. apply fle_split in L. apply key_le_R; tauto. }
  induction 1 as [p p' L|p p' c c' e e' l l' L YC YE LC B IH]; intros YP.
  - split; [reflexivity|]. intros [|n]; discriminate.
  - destruct (IH YE) as (LEN & IN). cbn [quads_of length]. split; [congruence|]. intros [|n] q1 c1 e1 q2 c2 e2 t H1 H2 F1 F2 F3 F4 F5 F6 T; cbn [nth_error] in H1, H2.
    + injection H1 as <- <- <-. injection H2 as <- <- <-. split; [unfold quad_y; rewrite YP, YC, YE; reflexivity|]. apply bez2_le; [exact T|apply LR; assumption..|]. apply LR; try assumption. eapply beside_start, B.
    + eapply IN; eassumption.
Qed.
