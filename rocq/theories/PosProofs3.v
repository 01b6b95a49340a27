(** Laying out the output curves: the group of close curves around an entry, and the pieces laid for it. *)
From Coq Require Import List Bool ZArith Arith Lia Sorted Permutation.
From Flocq Require Import BinarySingleNaN.
From Verif Require Import F64 F64Arith TreeVecModel GeomModel SegmentsModel CurveOrderModel CurveOrderProofs SweepModel TopoModel TopoProofs ScanModel ScanSpec PosModel PosSpec PosProofs PosProofs2.
Import ListNotations.

(** ** Heights *)
Lemma flt_split x y : flt x y = true -> nan x = false /\ nan y = false /\ (key x < key y)%Z.
Proof. intro H. destruct (flt_nonnan _ _ H) as [A B]. split; [exact A|]. split; [exact B|]. rewrite flt_key in H by assumption. apply Z.ltb_lt, H. Qed.
Lemma fle_split x y : fle x y = true -> nan x = false /\ nan y = false /\ (key x <= key y)%Z.
Proof. intro H. destruct (fle_nonnan _ _ H) as [A B]. split; [exact A|]. split; [exact B|]. rewrite fle_key in H by assumption. apply Z.leb_le, H. Qed.
Lemma flt_intro x y : nan x = false -> nan y = false -> (key x < key y)%Z -> flt x y = true.
Proof. intros A B H. rewrite flt_key by assumption. apply Z.ltb_lt, H. Qed.
Lemma fle_intro x y : nan x = false -> nan y = false -> (key x <= key y)%Z -> fle x y = true.
Proof. intros A B H. rewrite fle_key by assumption. apply Z.leb_le, H. Qed.
Lemma flt_min y u v : flt y u = true -> flt y v = true -> flt y (fmin u v) = true.
Proof.
  intros U V. apply flt_split in U, V. destruct U as (A & B & C), V as (_ & D & E). destruct (fmin_nonnan u v B D) as [F G]. apply flt_intro; [exact A|exact F|]. rewrite G. lia.
Qed.
Lemma fmin_le1 u v : nan u = false -> nan v = false -> fle (fmin u v) u = true.
Proof. intros B D. destruct (fmin_nonnan u v B D) as [F G]. apply fle_intro; [exact F|exact B|]. rewrite G. lia. Qed.
Lemma fmin_le2 u v : nan u = false -> nan v = false -> fle (fmin u v) v = true.
Proof. intros B D. destruct (fmin_nonnan u v B D) as [F G]. apply fle_intro; [exact F|exact D|]. rewrite G. lia. Qed.
Lemma flt_max y u v : flt y v = true -> nan u = false -> flt y (fmax u v) = true.
Proof.
  intros V U. apply flt_split in V. destruct V as (A & B & C). destruct (fmax_nonnan u v U B) as [F G]. apply flt_intro; [exact A|exact F|]. rewrite G. lia.
Qed.
Lemma fle_refl' x : nan x = false -> fle x x = true.
Proof. intro A. apply fle_intro; [exact A|exact A|lia]. Qed.
Lemma fle_tr x y z : fle x y = true -> fle y z = true -> fle x z = true.
Proof. intros A B. apply fle_split in A, B. apply fle_intro; [tauto|tauto|lia]. Qed.
Lemma flt_le x y : flt x y = true -> fle x y = true.
Proof. intro A. apply flt_split in A. apply fle_intro; [tauto|tauto|lia]. Qed.
Lemma flt_fle x y z : flt x y = true -> fle y z = true -> flt x z = true.
Proof. intros A B. apply flt_split in A. apply fle_split in B. apply flt_intro; [tauto|tauto|lia]. Qed.
Lemma fle_flt x y z : fle x y = true -> flt y z = true -> flt x z = true.
Proof. intros A B. apply fle_split in A. apply flt_split in B. apply flt_intro; [tauto|tauto|lia]. Qed.
Lemma fin_between x y z : flt x y = true -> fle y z = true -> fin z = true -> fin y = true.
Proof.
  intros A B F. apply flt_split in A. apply fle_split in B. destruct y as [s|s| |s m e H]; try reflexivity; [|cbn in B; destruct B as (B & _); discriminate B].
  pose proof (key_inf_ge x ltac:(tauto)). pose proof (key_inf_ge z ltac:(tauto)).
  destruct s; [exfalso; replace (key (B754_infinity true)) with (- key_inf)%Z in * by reflexivity; lia|].
  exfalso. replace (key (B754_infinity false)) with key_inf in * by reflexivity. enough (key z < key_inf)%Z by lia.
  destruct z as [s|s| |s m e H']; try discriminate F; [reflexivity|]. pose proof (key_finite_bound m e H') as K. clear -K. change (key (B754_finite s m e H')) with (let v := (Z.pos m * 2 ^ (e + 1074))%Z in if s then (- v)%Z else v). cbv zeta. destruct s; lia.
Qed.

Section P.
Variable a : arena.
Variable cmp : nat -> nat -> curve_order.
Variable sub : segment -> f64 -> f64 -> cubic.
Variables trans_after trans_before : cubic -> cubic -> f64 -> bool.
Variable est : cubic -> parab.
Variable orig : list nat.
Variable ends : list (point * point).
Variable order : scan_order.
Variable accuracy : f64.
Variables lo hi : f64.
Notation N := (length orig).
Notation stop_of := (stop_of ends).
Notation approximate_all := (approximate_all false a sub est accuracy).
Notation approximate := (approximate false a sub est accuracy).
Notation pieces := (pieces false a sub est accuracy).
Notation collect := (collect cmp orig ends order).
Notation group := (group cmp orig ends order).

Notation spans := (spans ends).
Notation verdict := (verdict cmp).
Notation listed := (listed orig ends order).
Notation near := (near cmp orig).
Notation apart := (apart cmp orig).
Notation grouped := (grouped cmp orig ends order).

Hypothesis H_len : length ends = N.
Hypothesis H_num : forall o p q, nth_error ends o = Some (p, q) -> fin (py p) = true /\ fin (py q) = true /\ fle lo (py p) = true /\ fle (py p) (py q) = true /\ fle (py q) hi = true.
Hypothesis H_seg : forall o i, nth_error orig o = Some i -> i < length (segs a).
Hypothesis H_scan : forall h, fin h = true -> exists outs, listed h outs.
Hypothesis H_west : length (so_west order) = N /\ forall l, In l (so_west order) -> forall y n, In (y, Some n) l -> n < N.
Hypothesis H_east : length (so_east order) = N /\ forall l, In l (so_east order) -> forall y n, In (y, Some n) l -> n < N.
Hypothesis H_cmp : forall o o' i j h, o <> o' -> spans o h -> spans o' h -> nth_error orig o = Some i -> nth_error orig o' = Some j -> verdict h i j <> None.
Hypothesis H_acc : forall y, fle lo y = true -> fle y hi = true -> fin y = true -> flt y (fadd y accuracy) = true.
Hypothesis H_mid : forall y z, fle lo y = true -> fle y hi = true -> fle lo z = true -> fle z hi = true -> fin y = true -> fin z = true -> fin (fadd y z) = true.

(** ** Closeness *)
Lemma orig_ok o : o < N -> exists i, orig_of orig o = Ok i /\ nth_error orig o = Some i.
Proof. intro H. unfold orig_of. apply nth_error_Some in H. destruct (nth_error orig o) as [i|]; [exists i; split; reflexivity|congruence]. Qed.
Lemma stop_ok o : o < N -> exists p q, nth_error ends o = Some (p, q) /\ stop_of o = Ok q.
Proof. intro H. unfold PosModel.stop_of. rewrite <- H_len in H. apply nth_error_Some in H. destruct (nth_error ends o) as [[p q]|]; [exists p, q; split; reflexivity|congruence]. Qed.
Lemma stop_some o p q : nth_error ends o = Some (p, q) -> stop_of o = Ok q.
Proof. intro H. unfold PosModel.stop_of. rewrite H. reflexivity. Qed.
Lemma stop_inv o q : stop_of o = Ok q -> exists p, nth_error ends o = Some (p, q).
Proof. intro H. unfold PosModel.stop_of in H. destruct (nth_error ends o) as [[p q']|]; [|discriminate]. injection H as <-. exists p. reflexivity. Qed.

Lemma close_loop_ok seg y l : seg < N -> (forall y0 y1 n, In (y0, y1, Some n) l -> n < N) -> exists r, close_loop cmp orig seg y l = Ok r /\ forall h, r = Some h -> nan h = false.
Proof.
  intros S. induction l as [|[[y0 y1] o] l IH]; intro V; [exists None; split; [reflexivity|discriminate]|].
  assert (V' : forall y0 y1 n, In (y0, y1, Some n) l -> n < N) by (intros; eapply V; right; eassumption). specialize (IH V'). cbn [close_loop]. destruct (fle y1 y); [exact IH|]. destruct o as [n|]; [|exact IH].
  destruct (orig_ok seg S) as (i & _ & ->). destruct (orig_ok n ltac:(eapply V; left; reflexivity)) as (j & _ & ->). cbn [orerr rbind].
  destruct (next_close (cmp i j) y y1) as [h|] eqn:E; [|exact IH]. exists (Some h). split; [reflexivity|]. intros h' H. injection H as <-.
  unfold next_close in E. destruct (find _ _) as [[[s e] o]|] eqn:F; [|discriminate]. apply find_some in F. destruct F as [_ F]. injection E as <-. apply (fle_nonnan y s F).
Qed.
Lemma half_in l y0 y1 n : In (y0, y1, n) (half_iter l) -> In (y0, n) l.
Proof.
  intro H. unfold half_iter in H. apply in_map_iff in H. destruct H as ([[u v] w] & E & H). injection E as <- <- <-. apply in_combine_l in H. exact H.
Qed.
Lemma close_ok west o y : o < N -> exists r, close_height cmp orig order west o y = Ok r /\ forall h, r = Some h -> nan h = false.
Proof.
  intro S. unfold close_height, close_neighbor_height_after.
  assert (X : exists l, nth_error (if west then so_west order else so_east order) o = Some l /\ forall y n, In (y, Some n) l -> n < N).
  { destruct west; [destruct H_west as [L V]|destruct H_east as [L V]]; rewrite <- L in S; apply nth_error_Some in S; (destruct (nth_error _ o) as [l|] eqn:E; [|congruence]); exists l; (split; [reflexivity|]); intros y' n; apply V; eapply nth_error_In, E. }
  destruct X as (l & E & V). destruct west; rewrite E; cbn [orerr rbind]; (apply close_loop_ok; [exact S|]; intros y0 y1 n H; eapply V, half_in, H).
Qed.

(** ** Groups *)
Lemma near_le h y y' x x' : fle y' y = true -> near h y x x' -> near h y' x x'.
Proof. intros L (i & j & s & e & o & A & B & C & D & E). exists i, j, s, e, o. repeat split; try assumption. eapply fle_tr; eassumption. Qed.

Definition oriented (west : bool) (R : nat -> nat -> Prop) (x x' : nat) : Prop := if west then R x' x else R x x'.
Lemma collect_step (west : bool) h (outs ps : list nat) cur : listed h outs -> (if west then exists E, outs = rev ps ++ cur :: E else exists E, outs = E ++ cur :: ps) -> next_neighbour order west cur h = Ok (hd_error ps).
Proof.
  intros (_ & _ & NB) X. destruct west, X as (E & X); destruct (NB _ _ _ X) as [A B]; cbn [next_neighbour]; [rewrite A; unfold final; rewrite rev_involutive; reflexivity|exact B].
Qed.
Lemma collect_ok (west : bool) h (outs : list nat) : fin h = true -> listed h outs -> forall (ps : list nat) cur fuel y1,
  (if west then exists E, outs = rev ps ++ cur :: E else exists E, outs = E ++ cur :: ps) -> length ps < fuel -> flt h y1 = true ->
  exists y l rest, collect west fuel cur h y1 = Ok (y, l) /\ ps = l ++ rest /\ flt h y = true /\ fle y y1 = true /\
    (forall o q, In o l -> stop_of o = Ok q -> fle y (py q) = true) /\ Sorted (oriented west (near h y)) (cur :: l) /\
    (forall z, hd_error rest = Some z -> oriented west (apart h) (last l cur) z).
Proof.
  intros FH LS. induction ps as [|n ps IH]; intros cur fuel y1 X F L; (destruct fuel as [|fuel]; [cbn [length] in F; lia|]); cbn [PosModel.collect]; rewrite (collect_step west h outs _ cur LS X); cbn [rbind hd_error].
  - exists y1, [], []. split; [reflexivity|]. split; [reflexivity|]. split; [exact L|]. split; [apply fle_refl', (flt_split _ _ L)|]. split; [intros o q []|]. split; [repeat constructor|]. discriminate.
  - destruct LS as (ND & MEM & NB). assert (In cur outs /\ In n outs /\ cur <> n) as (Ic & In_ & D).
    { destruct west, X as (E & X); rewrite X in *; cbn [rev] in *.
      - rewrite !in_app_iff. cbn [In]. split; [tauto|]. split; [tauto|]. intros ->. rewrite <- app_assoc in ND. apply NoDup_remove_2 in ND. apply ND, in_or_app. right. left. reflexivity.
      - rewrite !in_app_iff. cbn [In]. split; [tauto|]. split; [tauto|]. intros ->. apply NoDup_remove_2 in ND. apply ND, in_or_app. right. left. reflexivity. }
    destruct (proj1 (MEM _) Ic) as [Lc Sc]. destruct (proj1 (MEM _) In_) as [Ln Sn]. destruct (orig_ok cur Lc) as (i & Ei & Oi). destruct (orig_ok n Ln) as (j & Ej & Oj). rewrite Ej, Ei. cbn [rbind]. cbv zeta.
    assert (V : exists s e o, verdict h (if west then j else i) (if west then i else j) = Some (s, e, o)).
    { destruct (verdict h (if west then j else i) (if west then i else j)) as [[[s e] o]|] eqn:E; [eauto|exfalso; revert E]. destruct west; [apply (H_cmp n cur)|apply (H_cmp cur n)]; try assumption; congruence. }
    destruct V as (s & e & o & V). replace (find (fun '(_, end_y, _) => fgt end_y h) (co_iter (if west then cmp j i else cmp i j))) with (Some (s, e, o)) by (rewrite <- V; unfold PosSpec.verdict; destruct west; reflexivity).
    cbn [orerr rbind]. assert (LE : flt h e = true). { unfold PosSpec.verdict in V. apply find_some in V. destruct V as [_ V]. exact V. }
    destruct o; cbn [order_eqb].
    3: { destruct (close_ok west cur h Lc) as (r & -> & Hr). cbn [rbind].
      set (c := match r with Some x => x | None => finfinity end). assert (nan c = false) as Nc by (unfold c; destruct r; [apply Hr; reflexivity|reflexivity]).
      assert (flt h (fmax c e) = true) as Lm by (apply flt_max; assumption).
      exists (fmin y1 (fmax c e)), [], (n :: ps). split; [reflexivity|]. split; [reflexivity|]. split; [apply flt_min; assumption|]. split; [apply fmin_le1; [apply (flt_split _ _ L)|apply (flt_split _ _ Lm)]|]. split; [intros o q []|]. split; [repeat constructor|].
      intros z Z. injection Z as <-. cbn [last]. unfold oriented, PosSpec.apart. destruct west; repeat eexists; eassumption. }
    all: destruct (stop_ok n Ln) as (p & q & En & ->); cbn [rbind];
      assert (LQ : flt h (py q) = true) by (destruct Sn as (p' & q' & En' & _ & LQ); congruence);
      assert (L2 : flt h (fmin y1 e) = true) by (apply flt_min; assumption); assert (L3 : flt h (fmin (fmin y1 e) (py q)) = true) by (apply flt_min; assumption);
      pose proof (flt_split _ _ L) as (_ & N1 & _); pose proof (flt_split _ _ LE) as (_ & Ne & _); pose proof (flt_split _ _ LQ) as (_ & Nq & _); pose proof (flt_split _ _ L2) as (_ & N2 & _);
      (destruct (IH n fuel (fmin (fmin y1 e) (py q))) as (y & l & rest & EC & EP & A1 & A2 & A3 & A4 & A5); [|cbn [length] in F; lia|exact L3|]);
      [destruct west; destruct X as (E & X); [exists (cur :: E); rewrite X; cbn [rev]; rewrite <- app_assoc; reflexivity|exists (E ++ [cur]); rewrite X, <- app_assoc; reflexivity]|];
      rewrite EC; cbn [rbind]; cbv beta iota; exists y, (n :: l), rest; (split; [reflexivity|]); (split; [rewrite EP; reflexivity|]); (split; [exact A1|]);
      assert (Y2 : fle y (fmin y1 e) = true) by (eapply fle_tr; [exact A2|apply fmin_le1; assumption]);
      (split; [eapply fle_tr; [exact Y2|apply fmin_le1; assumption]|]);
      (split; [intros o' q' [<-|Ho] Hq; [rewrite (stop_some _ _ _ En) in Hq; injection Hq as <-; eapply fle_tr; [exact A2|apply fmin_le2; assumption]|eapply A3; eassumption]|]);
      (split; [constructor; [exact A4|]; constructor; unfold oriented, PosSpec.near; destruct west; repeat eexists; try eassumption; try discriminate; (eapply fle_tr; [exact Y2|apply fmin_le2; assumption])|]);
      intros z Z; (replace (last (n :: l) cur) with (last l n); [exact (A5 z Z)|destruct l as [|u l]; [reflexivity|]; clear; revert u; induction l as [|v l IH]; intro u; [reflexivity|apply IH]]).
Qed.

Lemma sorted_turn (R : nat -> nat -> Prop) ws : forall o m, Sorted (fun x y => R y x) (o :: ws) -> Sorted R (o :: m) -> Sorted R (rev ws ++ o :: m).
Proof.
  induction ws as [|w ws IH]; intros o m H M; [exact M|]. cbn [rev]. rewrite <- app_assoc. cbn [app]. inversion H as [|? ? H1 H2]; subst. apply IH; [exact H1|]. constructor; [exact M|]. constructor. inversion H2; assumption.
Qed.
Lemma sorted_impl (R R' : nat -> nat -> Prop) l : (forall x y, R x y -> R' x y) -> Sorted R l -> Sorted R' l.
Proof. intros W. induction 1 as [|x l H IH HD]; constructor; [exact IH|]. destruct HD; constructor. apply W. assumption. Qed.

Lemma last_app_one (l : list nat) x d : last (l ++ [x]) d = x.
Proof. induction l as [|y l IH]; [reflexivity|]. cbn [app last]. destruct (l ++ [x]) eqn:E; [destruct l; discriminate|exact IH]. Qed.
Lemma group_ok fuel o h : fin h = true -> o < N -> spans o h -> N < fuel -> exists y g, group fuel o h = Ok (y, g) /\ grouped h o y g.
Proof.
  intros FH L S F. destruct (H_scan h FH) as (outs & LS). assert (IO : In o outs) by (apply LS; split; assumption). apply in_split in IO. destruct IO as (W & E & X).
  assert (LEN : length outs <= N). { rewrite <- (seq_length N 0). apply NoDup_incl_length; [apply LS|]. intros x Hx. apply in_seq. apply LS in Hx. lia. }
  rewrite X, app_length in LEN. cbn [length] in LEN.
  unfold PosModel.group. destruct (stop_ok o L) as (p & q & En & ->). cbn [rbind]. assert (LQ : flt h (py q) = true) by (destruct S as (p' & q' & En' & _ & LQ); congruence).
  destruct (collect_ok true h outs FH LS (rev W) o fuel (py q)) as (y1 & ws & rw & E1 & P1 & A1 & B1 & C1 & D1 & G1); [exists E; rewrite rev_involutive; exact X|rewrite rev_length; lia|exact LQ|].
  rewrite E1. cbn [rbind]. cbv beta iota.
  destruct (collect_ok false h outs FH LS E o fuel y1) as (y2 & es & re & E2 & P2 & A2 & B2 & C2 & D2 & G2); [exists W; exact X|lia|exact A1|].
  rewrite E2. cbn [rbind]. cbv beta iota. exists y2, (rev (o :: ws) ++ es). split; [reflexivity|]. assert (EW : W = rev rw ++ rev ws) by (rewrite <- rev_app_distr, <- P1, rev_involutive; reflexivity).
  exists (rev rw), re. cbn [rev]. split; [|split; [|split; [|split; [|split; [|split]]]]].
  - replace (rev rw ++ ((rev ws ++ [o]) ++ es) ++ re) with outs; [exact LS|]. rewrite X, EW, P2, <- !app_assoc. reflexivity.
  - rewrite !in_app_iff. cbn [In]. tauto.
  - exact A2.
  - intros x p' q' Hx Hq. apply stop_some in Hq. rewrite !in_app_iff, <- in_rev in Hx. cbn [In] in Hx. destruct Hx as [[Hx|[<-|[]]]|Hx].
    + eapply fle_tr; [exact B2|eapply C1; eassumption].
    + rewrite (stop_some _ _ _ En) in Hq. injection Hq as <-. eapply fle_tr; eassumption.
    + eapply C2; eassumption.
  - rewrite <- app_assoc. cbn [app]. apply sorted_turn; [|exact D2]. eapply sorted_impl; [|exact D1]. intros x x' HN. unfold oriented in HN. eapply near_le; eassumption.
  - intros z x g' Hz Hg. unfold final in Hz. rewrite rev_involutive in Hz. specialize (G1 z Hz). unfold oriented in G1. replace x with (last ws o); [exact G1|].
    destruct ws as [|w ws']; [cbn [rev app last] in *; congruence|]. destruct (rev (w :: ws')) as [|r rs] eqn:ER; [apply (f_equal (@length nat)) in ER; rewrite rev_length in ER; discriminate|]. cbn [app] in Hg. injection Hg as Hg _.
    assert (w :: ws' = rev rs ++ [r]) as -> by (rewrite <- (rev_involutive (w :: ws')), ER; reflexivity). rewrite last_app_one. exact Hg.
  - intros z x g' Hz Hg. specialize (G2 z Hz). unfold oriented in G2. replace x with (last es o); [exact G2|]. rewrite <- app_assoc in Hg. cbn [app] in Hg. apply (f_equal (fun l => last l 0)) in Hg. rewrite last_app_one in Hg. rewrite <- Hg.
    clear. revert o. induction (rev ws) as [|v l IH]; intro o.
    + revert o. cbn [app]. destruct es as [|u l]; [reflexivity|]. intro o. transitivity (last (u :: l) 0); [|reflexivity]. revert u. induction l as [|v l IH]; intro u; [reflexivity|exact (IH v)].
    + cbn [app last]. destruct (l ++ o :: es) eqn:Z; [destruct l; discriminate|]. rewrite <- Z. apply IH.
Qed.

(** ** Laying pieces *)
Lemma seg_ok i : i < length (segs a) -> exists s, seg_of a i = Ok s.
Proof. intro H. unfold seg_of. apply nth_error_Some in H. destruct (nth_error (segs a) i) as [s|]; [exists s; reflexivity|congruence]. Qed.
Lemma approximate_all_ok y0 y1 is : (forall i, In i is -> i < length (segs a)) -> exists r, approximate_all y0 y1 is = Ok r /\
  (forall l, r = Some l -> length l = length is) /\ (r = None -> fle y1 (fadd y0 accuracy) = false).
Proof.
  induction is as [|i is IH]; intro V; [exists (Some []); split; [reflexivity|]; split; [intros l H; injection H as <-; reflexivity|discriminate]|].
  cbn [PosModel.approximate_all]. destruct (seg_ok i (V i (or_introl eq_refl))) as (s & ->). cbn [rbind]. unfold y_subsegment. cbn [andb]. cbn [rbind]. cbv zeta.
  destruct (fle y1 (fadd y0 accuracy)) eqn:T; cbn [negb andb].
  - destruct IH as (r & -> & L & X); [intros; apply V; right; assumption|]. cbn [rbind]. eexists. split; [reflexivity|]. destruct r as [l|]; cbn [option_map]; split; try discriminate; [|intros _; apply X; reflexivity]. intros l' H. injection H as <-. cbn [length]. f_equal. apply L. reflexivity.
  - destruct (flt _ accuracy); cbn [negb].
    + destruct IH as (r & -> & L & X); [intros; apply V; right; assumption|]. cbn [rbind]. eexists. split; [reflexivity|]. split; [|intros _; reflexivity]. destruct r as [l|]; cbn [option_map]; [|discriminate]. intros l' H. injection H as <-. cbn [length]. f_equal. apply L. reflexivity.
    + exists None. split; [reflexivity|]. split; [discriminate|]. intros _. reflexivity.
Qed.
Definition inr (y : f64) : Prop := fle lo y = true /\ fle y hi = true /\ fin y = true.
Lemma inr_between x y z : inr x -> inr z -> fle x y = true -> fle y z = true -> inr y.
Proof.
  intros (A & B & C) (D & E & F) G H. split; [exact (fle_tr _ _ _ A G)|]. split; [exact (fle_tr _ _ _ H E)|]. destruct (flt x y) eqn:X; [exact (fin_between _ _ _ X H F)|].
  pose proof (fle_split _ _ G) as (Nx & Ny & K). rewrite flt_key in X by assumption. apply Z.ltb_ge in X. assert (E1 : key x = key y) by lia.
  destruct y as [s|s| |s m e P]; try reflexivity; [|discriminate Ny]. exfalso. pose proof (key_inf_ge z ltac:(apply (fle_split _ _ H))).
  assert (LT : forall w : f64, fin w = true -> (- key_inf < key w < key_inf)%Z).
  { intros w Fw. destruct w as [s'|s'| |s' m e P]; try discriminate Fw; [split; vm_compute; reflexivity|]. pose proof (key_finite_bound m e P) as K'. clear -K'. change (key (B754_finite s' m e P)) with (let v := (Z.pos m * 2 ^ (e + 1074))%Z in if s' then (- v)%Z else v). cbv zeta. destruct s'; lia. }
  pose proof (LT x C). destruct s; [replace (key (B754_infinity true)) with (- key_inf)%Z in * by reflexivity|replace (key (B754_infinity false)) with key_inf in * by reflexivity]; lia.
Qed.

Lemma halve y0 y1 : inr y0 -> inr y1 -> flt y0 y1 = true -> fle y1 (fadd y0 accuracy) = false -> flt y0 (fmid y0 y1) = true /\ flt (fmid y0 y1) y1 = true /\ inr (fmid y0 y1).
Proof.
  intros I0 I1 L T. pose proof I0 as (A & B & C). pose proof I1 as (D & E & F). pose proof (H_acc y0 A B C) as K. pose proof (flt_split _ _ K) as (N0 & Na & Ka). pose proof (flt_split _ _ L) as (_ & N1 & K1).
  rewrite fle_key in T by assumption. apply Z.leb_gt in T. assert (FZ : fin (fadd y0 accuracy) = true) by (eapply fin_between; [exact K|apply fle_intro; [exact Na|exact N1|lia]|exact F]).
  destruct (fmid_strict y0 y1 (fadd y0 accuracy) C F FZ ltac:(lia) (H_mid y0 y1 A B D E C F)) as (FM & KM). pose proof (fin_nonnan _ FM) as NM.
  assert (M1 : flt y0 (fmid y0 y1) = true) by (apply flt_intro; [exact N0|exact NM|lia]). assert (M2 : flt (fmid y0 y1) y1 = true) by (apply flt_intro; [exact NM|exact N1|lia]).
  split; [exact M1|]. split; [exact M2|]. eapply inr_between; [exact I0|exact I1|apply flt_le; assumption..].
Qed.

Lemma approximate_ok is : (forall i, In i is -> i < length (segs a)) -> forall fuel y0 y1, inr y0 -> inr y1 -> flt y0 y1 = true -> (key y1 - key y0 < Z.of_nat fuel)%Z ->
  exists next l, approximate fuel y0 y1 is = Ok (next, l) /\ flt y0 next = true /\ fle next y1 = true /\ length l = length is.
Proof.
  intros V. induction fuel as [|fuel IH]; intros y0 y1 I0 I1 L F; [pose proof (flt_split _ _ L); lia|].
  cbn [PosModel.approximate]. destruct (approximate_all_ok y0 y1 is V) as (r & -> & S1 & S2). cbn [rbind]. destruct r as [l|].
  - exists y1, l. split; [reflexivity|]. split; [exact L|]. split; [apply fle_refl', (flt_split _ _ L)|apply S1; reflexivity].
  - specialize (S2 eq_refl). destruct (halve y0 y1 I0 I1 L S2) as (M1 & M2 & IM). pose proof (flt_split _ _ M2) as (_ & _ & K2).
    destruct (IH y0 (fmid y0 y1) I0 IM M1 ltac:(lia)) as (next & l & E & A & B & C). exists next, l. split; [exact E|]. split; [exact A|]. split; [eapply fle_tr; [exact B|apply flt_le, M2]|exact C].
Qed.
Lemma append_ok out o e : o < length out -> exists out', append out o e = Ok out' /\ length out' = length out.
Proof.
  intro H. unfold append. apply nth_error_Some in H as H'. destruct (nth_error out o) as [x|]; [|congruence]. cbn [orerr rbind].
  destruct (upd out o _) as [out'|] eqn:U.
  - exists out'. split; [reflexivity|]. apply (upd_spec _ _ _ _ U).
  - exfalso. revert U H. clear. revert o. induction out as [|y out IH]; intros [|o] U H; cbn [length] in H; try lia; cbn [upd] in U; [discriminate|]. destruct (upd out o _) eqn:E; [discriminate|]. eapply IH; [exact E|lia].
Qed.
Lemma append_copied_ok out o e : o < length out -> exists out', append_copied out o e = Ok out' /\ length out' = length out.
Proof.
  intro H. unfold append_copied. apply nth_error_Some in H as H'. destruct (nth_error out o) as [x|]; [|congruence]. cbn [orerr rbind].
  destruct (upd out o _) as [out'|] eqn:U.
  - exists out'. split; [reflexivity|]. apply (upd_spec _ _ _ _ U).
  - exfalso. revert U H. clear. revert o. induction out as [|y out IH]; intros [|o] U H; cbn [length] in H; try lia; cbn [upd] in U; [discriminate|]. destruct (upd out o _) eqn:E; [discriminate|]. eapply IH; [exact E|lia].
Qed.
Lemma quads_ok y0 y1 l : forall xm xe out, (forall o, In o (map snd l) -> o < length out) -> exists out', quads y0 y1 xm xe l out = Ok out' /\ length out' = length out.
Proof.
  induction l as [|[q o] l IH]; intros xm xe out V; [exists out; split; reflexivity|]. cbn [quads]. cbv zeta.
  destruct (append_ok out o (QuadTo (mkPoint (fmid y0 y1) (fmax xm (parab_mid y0 y1 q))) (mkPoint y1 (fmax xe (parab_end y0 y1 q)))) (V o (or_introl eq_refl))) as (out1 & -> & L). cbn [rbind].
  destruct (IH (fmax xm (parab_mid y0 y1 q)) (fmax xe (parab_end y0 y1 q)) out1) as (out' & E & L'); [intros; rewrite L; apply V; right; assumption|]. exists out'. split; [exact E|congruence].
Qed.
Lemma pieces_ok is os y1 : (forall i, In i is -> i < length (segs a)) -> forall fuel y0 out, inr y0 -> inr y1 -> fle y0 y1 = true -> (key y1 - key y0 + 1 < Z.of_nat fuel)%Z -> (forall o, In o os -> o < length out) ->
  exists out', pieces fuel y0 y1 is os out = Ok out' /\ length out' = length out.
Proof.
  intros V. induction fuel as [|fuel IH]; intros y0 out I0 I1 L F VO; [pose proof (fle_split _ _ L); lia|].
  cbn [PosModel.pieces]. destruct (flt y0 y1) eqn:LT; [|exists out; split; reflexivity].
  destruct (approximate_ok is V fuel y0 y1 I0 I1 LT ltac:(lia)) as (next & l & -> & A & B & _). cbn [rbind]. cbv beta iota.
  destruct (quads_ok y0 next (combine l os) fneginf fneginf out) as (out1 & -> & L1); [intros o Ho; apply VO; eapply in_combine_snd, Ho|]. cbn [rbind].
  pose proof (flt_split _ _ A) as (_ & _ & KA). destruct (IH next out1) as (out' & E & L'); [eapply inr_between; [exact I0|exact I1|apply flt_le, A|exact B]|exact I1|exact B|lia|intros; rewrite L1; apply VO; assumption|]. exists out'. split; [exact E|congruence].
Qed.

Notation catch_up := (catch_up false a sub ends).
Notation two_apart := (two_apart false a sub trans_after trans_before ends).
Notation ordered_curves := (ordered_curves false a sub trans_after trans_before est ends accuracy).
Lemma bez_end_ok path : path <> [] -> exists p, bez_end path = Ok p.
Proof.
  intro H. unfold bez_end. destruct (last_opt path) as [e|] eqn:E; [exists (pel_end e); reflexivity|]. exfalso. destruct path as [|x l] using rev_ind; [congruence|]. rewrite last_opt_app in E. discriminate.
Qed.
Lemma next_ok s path y q : path <> [] -> exists c, next_subsegment false sub s path y q = Ok c.
Proof. intro H. unfold next_subsegment. destruct (bez_end_ok path H) as (p & ->). cbn [rbind]. unfold y_subsegment. cbn [andb rbind]. eexists. reflexivity. Qed.
Lemma catch_up_ok y0 l : (forall i o, In (i, o) l -> i < length (segs a) /\ o < N) -> forall out, begun out -> length out = N -> exists out', catch_up y0 l out = Ok out' /\ length out' = N.
Proof.
  induction l as [|[i o] l IH]; intros V out B L; [exists out; split; [reflexivity|exact L]|].
  cbn [PosModel.catch_up]. destruct (V i o (or_introl eq_refl)) as [Vi Vo]. rewrite <- L in Vo. apply nth_error_Some in Vo as Vn. destruct (nth_error out o) as [x|] eqn:Ex; [|congruence]. cbn [orerr rbind].
  unfold bez_end_y. pose proof (begun_at _ _ _ B Ex) as NE. destruct (bez_end_ok _ NE) as (p & Ep). rewrite Ep. cbn [rbind].
  assert (X : exists out1, (if flt (py p) y0 then do! endpoint := stop_of o in do! s := seg_of a i in
     if is_line s then append_copied out o (LineTo endpoint) else do! c := next_subsegment false sub s (ps_path x) y0 endpoint in append_copied out o (CurveTo (cb1 c) (cb2 c) (cb3 c)) else Ok out) = Ok out1 /\ length out1 = length out /\ begun out1).
  { destruct (flt (py p) y0); [|exists out; split; [reflexivity|split; [reflexivity|exact B]]]. rewrite L in Vo. destruct (stop_ok o Vo) as (p' & q & _ & ->). cbn [rbind]. destruct (seg_ok i Vi) as (s & ->). cbn [rbind]. rewrite <- L in Vo. destruct (is_line s).
    - destruct (append_copied_ok out o (LineTo q) Vo) as (out1 & E & L1). exists out1. split; [exact E|]. split; [exact L1|]. eapply ext_begun; [|exact B]. eapply append_copied_ext with (P := fun _ _ => True); [exact I| |exact E]. intros y Hy. exact (begun_at _ _ _ B Hy).
    - destruct (next_ok s (ps_path x) y0 q NE) as (c & ->). cbn [rbind]. destruct (append_copied_ok out o (CurveTo (cb1 c) (cb2 c) (cb3 c)) Vo) as (out1 & E & L1). exists out1. split; [exact E|]. split; [exact L1|]. eapply ext_begun; [|exact B]. eapply append_copied_ext with (P := fun _ _ => True); [exact I| |exact E]. intros y Hy. exact (begun_at _ _ _ B Hy). }
  destruct X as (out1 & -> & L1 & B1). cbn [rbind]. apply IH; [intros; apply V; right; assumption|exact B1|congruence].
Qed.
Lemma rmap_orig_ok l : (forall o, In o l -> o < N) -> exists is, rmap_orig orig l = Ok is /\ Forall2 (fun o i => nth_error orig o = Some i) l is.
Proof.
  induction l as [|o l IH]; intro V; [exists []; split; [reflexivity|constructor]|]. cbn [rmap_orig]. destruct (orig_ok o (V o (or_introl eq_refl))) as (i & -> & E). cbn [rbind]. destruct IH as (is & -> & F); [intros; apply V; right; assumption|]. cbn [rbind]. exists (i :: is). split; [reflexivity|]. constructor; assumption.
Qed.
Lemma all_lines_ok is : (forall i, In i is -> i < length (segs a)) -> exists b, all_lines a is = Ok b.
Proof.
  induction is as [|i is IH]; intro V; [exists true; reflexivity|]. cbn [all_lines]. destruct (seg_ok i (V i (or_introl eq_refl))) as (s & ->). cbn [rbind]. destruct (is_line s); [apply IH; intros; apply V; right; assumption|exists false; reflexivity].
Qed.
Lemma two_apart_ok is os out y0 y1 : Forall2 (fun o i => nth_error orig o = Some i) os is -> (forall o, In o os -> o < N) -> begun out -> length out = N -> exists b, two_apart is os out y0 y1 = Ok b.
Proof.
  intros F VO B L. unfold PosModel.two_apart. destruct is as [|i0 [|i1 [|i2 is]]]; try (eexists; reflexivity). inversion F as [|o0 ? os0 ? E0 F0]; subst. inversion F0 as [|o1 ? os1 ? E1 F1]; subst. inversion F1; subst.
  destruct (seg_ok i0 (H_seg _ _ E0)) as (s0 & ->). destruct (seg_ok i1 (H_seg _ _ E1)) as (s1 & ->). cbn [rbind].
  assert (V0 : o0 < N) by (apply VO; left; reflexivity). assert (V1 : o1 < N) by (apply VO; right; left; reflexivity).
  destruct (stop_ok o0 V0) as (p0' & q0 & _ & ->). destruct (stop_ok o1 V1) as (p1' & q1 & _ & ->).
  rewrite <- L in V0, V1. apply nth_error_Some in V0, V1. destruct (nth_error out o0) as [x0|] eqn:X0; [|congruence]. destruct (nth_error out o1) as [x1|] eqn:X1; [|congruence]. cbn [orerr rbind].
  pose proof (begun_at _ _ _ B X0) as N0. pose proof (begun_at _ _ _ B X1) as N1. destruct (bez_end_ok _ N0) as (p0 & ->). destruct (bez_end_ok _ N1) as (p1 & ->). cbn [rbind].
  destruct (next_ok s0 _ y1 q0 N0) as (c0 & ->). destruct (next_ok s1 _ y1 q1 N1) as (c1 & ->). cbn [rbind].
  destruct (feq (py p0) y0 && feq (py p1) y0); cbn [rbind].
  - destruct (trans_after c0 c1 y1); [eexists; reflexivity|]. destruct (_ && _); eexists; reflexivity.
  - destruct (_ && _); eexists; reflexivity.
Qed.
Lemma ordered_ok fuel is os out y0 y1 : Forall2 (fun o i => nth_error orig o = Some i) os is -> (forall o, In o os -> o < N) -> begun out -> length out = N ->
  inr y0 -> inr y1 -> flt y0 y1 = true -> (key y1 - key y0 + 1 < Z.of_nat fuel)%Z -> exists out', ordered_curves fuel is os out y0 y1 = Ok out'.
Proof.
  intros F VO B L I0 I1 LT FU. assert (VI : forall i, In i is -> i < length (segs a)). { clear -F H_seg. induction F as [|o i os is E F IH]; intros j [].  subst; eapply H_seg, E. apply IH; assumption. }
  unfold PosModel.ordered_curves. destruct (all_lines_ok is VI) as (b & ->). cbn [rbind]. destruct b; [eexists; reflexivity|]. destruct (two_apart_ok is os out y0 y1 F VO B L) as (b & ->). cbn [rbind]. destruct b; [eexists; reflexivity|].
  destruct (catch_up_ok y0 (combine is os)) with (out := out) as (out1 & -> & L1); [|exact B|exact L|].
  - intros i o H. split; [apply VI; eapply in_combine_l, H|apply VO; eapply in_combine_r, H].
  - cbn [rbind]. destruct (pieces_ok is os y1 VI fuel y0 out1 I0 I1 (flt_le _ _ LT) FU) as (out' & E & _); [intros o Ho; rewrite L1; apply VO, Ho|]. exists out'. exact E.
Qed.

(** ** Turns *)
Variable pop : list qentry -> option (qentry * list qentry).
Hypothesis H_pop : heap_ok pop.
Notation handle := (handle false a cmp sub trans_after trans_before est orig ends order accuracy).
Notation turn := (turn false a cmp sub trans_after trans_before est pop orig ends order accuracy).
Notation turns := (turns false a cmp sub trans_after trans_before est pop orig ends order accuracy).
Notation run := (run false a cmp sub trans_after trans_before est pop orig ends order accuracy).

Lemma requeue_ok y1 l : forall last queue, (forall o, In o l -> o < N) -> length last = N -> exists last' queue', requeue ends y1 l last queue = Ok (last', queue') /\ length last' = N /\
  (forall o, In o l -> nth_error last' o = Some y1) /\ (forall o, ~ In o l -> nth_error last' o = nth_error last o) /\
  exists new, queue' = queue ++ new /\ length new <= length l /\ (forall e, In e new <-> exists o p q, In o l /\ nth_error ends o = Some (p, q) /\ flt y1 (py q) = true /\ e = (y1, o)).
Proof.
  induction l as [|o l IH]; intros last queue V L.
  { exists last, queue. split; [reflexivity|]. split; [exact L|]. split; [intros o []|]. split; [reflexivity|]. exists []. split; [symmetry; apply app_nil_r|]. split; [apply Nat.le_refl|]. intro e. split; [intros []|]. intros (o & p & q & [] & _). }
  cbn [requeue]. destruct (stop_ok o (V o (or_introl eq_refl))) as (p & q & En & ->). cbn [rbind]. cbv zeta. set (queue1 := if flt y1 (py q) then queue ++ [(y1, o)] else queue).
  assert (U : exists last1, upd last o y1 = Some last1).
  { assert (X : o < length last) by (rewrite L; apply V; left; reflexivity). clear -X. revert o X. induction last as [|x last IH]; intros [|o] X; cbn [length] in X; try lia; cbn [upd]; [eexists; reflexivity|]. destruct (IH o ltac:(lia)) as (l' & ->). eexists. reflexivity. }
  destruct U as (last1 & U). rewrite U. cbn [orerr rbind]. destruct (upd_spec _ _ _ _ U) as (_ & L1 & N1).
  destruct (IH last1 queue1) as (last' & queue' & E & L' & A & B & new & EQ & LN & MN); [intros; apply V; right; assumption|congruence|]. exists last', queue'. split; [exact E|]. split; [exact L'|].
  split; [intros x [<-|Hx]; [|exact (A x Hx)]; destruct (in_dec Nat.eq_dec o l) as [I|I]; [exact (A o I)|rewrite (B o I), N1, Nat.eqb_refl; reflexivity]|].
  split. { intros x Hx. rewrite B by (intro; apply Hx; right; assumption). rewrite N1. destruct (Nat.eqb_spec x o) as [->|]; [exfalso; apply Hx; left; reflexivity|reflexivity]. }
  unfold queue1 in EQ. destruct (flt y1 (py q)) eqn:F.
  - exists ((y1, o) :: new). split; [rewrite EQ, <- app_assoc; reflexivity|]. split; [cbn [length]; lia|]. intro e. cbn [In]. rewrite MN. split.
    + intros [<-|(x & p' & q' & I & H)]; [exists o, p, q; tauto|exists x, p', q'; tauto].
    + intros (x & p' & q' & [<-|I] & H); [left; symmetry; apply H|right; exists x, p', q'; tauto].
  - exists new. split; [exact EQ|]. split; [cbn [length]; lia|]. intro e. rewrite MN. split.
    + intros (x & p' & q' & I & H). exists x, p', q'. cbn [In]. tauto.
    + intros (x & p' & q' & [<-|I] & H1 & H2 & H3); [congruence|]. exists x, p', q'. tauto.
Qed.

Definition good (s : pstate) : Prop := begun (st_out s) /\ length (st_out s) = N /\ length (st_last s) = N /\ forall y o, In (y, o) (st_queue s) -> o < N /\ spans o y /\ fin y = true.
Definition base : Z := Z.of_nat N + 1.
Definition weight (q : list qentry) : Z := fold_right (fun e s => base ^ (key hi - key (fst e)) + s)%Z 0%Z q.
Lemma weight_app q r : (weight (q ++ r) = weight q + weight r)%Z.
Proof. induction q as [|e q IH]; [reflexivity|]. cbn [app weight fold_right]. fold (weight (q ++ r)) (weight q). rewrite IH. lia. Qed.
Lemma weight_perm q r : Permutation q r -> weight q = weight r.
Proof. induction 1 as [| | |]; cbn [weight fold_right]; try fold (weight l) (weight l'); try congruence. lia. Qed.
Lemma weight_pos q : (0 <= weight q)%Z.
Proof. induction q as [|e q IH]; [reflexivity|]. cbn [weight fold_right]. fold (weight q). pose proof (Z.pow_nonneg base (key hi - key (fst e)) ltac:(unfold base; lia)). lia. Qed.
Lemma weight_same y q : Forall (fun e => fst e = y) q -> (weight q = Z.of_nat (length q) * base ^ (key hi - key y))%Z.
Proof. induction 1 as [|e q E F IH]; [reflexivity|]. cbn [weight fold_right length]. fold (weight q). rewrite IH, E, Nat2Z.inj_succ. lia. Qed.

Lemma spans_inr o y : spans o y -> fin y = true -> inr y.
Proof.
  intros (p & q & E & A & B) F. destruct (H_num o p q E) as (F1 & F2 & X & Y & Z). split; [exact (fle_tr _ _ _ X A)|]. split; [eapply fle_tr; [apply flt_le, B|exact Z]|exact F].
Qed.
(** Everything that happens in one turn that lays out a group. *)
Definition fits (o : nat) (e : pel) : Prop := exists p q, nth_error ends o = Some (p, q) /\ flt (py p) (py q) = true /\ drawn e /\ fle (py p) (py (pel_end e)) = true /\ fle (py (pel_end e)) (py q) = true.
Lemma approximate_range is y1 fuel : forall y0 next l, inr y0 -> inr y1 -> flt y0 y1 = true -> (forall i, In i is -> i < length (segs a)) -> approximate fuel y0 y1 is = Ok (next, l) -> flt y0 next = true /\ fle next y1 = true.
Proof.
  revert y1. induction fuel as [|fuel IH]; intros y1 y0 next l I0 I1 L V H; [discriminate|]. cbn [PosModel.approximate] in H. destruct (approximate_all_ok y0 y1 is V) as (r & E & _ & S2). rewrite E in H. cbn [rbind] in H. destruct r as [l'|].
  - injection H as <- <-. split; [exact L|apply fle_refl', (flt_split _ _ L)].
  - destruct (halve y0 y1 I0 I1 L (S2 eq_refl)) as (M1 & M2 & IM). destruct (IH _ _ _ _ I0 IM M1 V H) as [A B]. split; [exact A|]. eapply fle_tr; [exact B|apply flt_le, M2].
Qed.
Lemma fle_total x y : nan x = false -> nan y = false -> fle x y = true \/ flt y x = true.
Proof. intros A B. rewrite fle_key, flt_key by assumption. destruct (Z.leb_spec (key x) (key y)); [left; reflexivity|right; apply Z.ltb_lt; lia]. Qed.

Definition enough (fuel : nat) : Prop := N < fuel /\ (key hi - key lo + 1 < Z.of_nat fuel)%Z.
Lemma handle_ok fuel y0 o s : enough fuel -> good s -> o < N -> spans o y0 -> fin y0 = true -> exists y1 g s',
  group fuel o y0 = Ok (y1, g) /\ handle fuel y0 o s = Ok s' /\ grouped y0 o y1 g /\ inr y1 /\ good s' /\ ext fits (st_out s) (st_out s') /\
  (weight (st_queue s') < weight (st_queue s) + base ^ (key hi - key y0))%Z /\
  (forall x, In x g -> nth_error (st_last s') x = Some y1) /\ (forall x, ~ In x g -> nth_error (st_last s') x = nth_error (st_last s) x) /\
  exists new, st_queue s' = st_queue s ++ new /\ (forall e, In e new <-> exists x p q, In x g /\ nth_error ends x = Some (p, q) /\ flt y1 (py q) = true /\ e = (y1, x)).
Proof.
  intros [F1 F2] (B & LO & LL & GQ) L S FY. destruct (group_ok fuel o y0 FY L S F1) as (y1 & g & EG & GR). exists y1, g. pose proof (spans_inr _ _ S FY) as I0.
  pose proof GR as (west & east & (ND & MEM & _) & IO & LT & UP & _).
  assert (GV : forall x, In x g -> x < N /\ spans x y0). { intros x Hx. apply MEM. rewrite !in_app_iff. tauto. }
  assert (I1 : inr y1). { destruct S as (p & q & En & A & C). destruct (H_num o p q En) as (X1 & X2 & X3 & X4 & X5). eapply (inr_between y0 y1 (py q)); [exact I0| |apply flt_le, LT|eapply UP; eassumption]. split; [exact (fle_tr _ _ _ X3 X4)|]. split; [exact X5|exact X2]. }
  assert (LG : length g <= N). { rewrite <- (seq_length N 0). apply NoDup_incl_length.
    - apply nodup_app in ND. destruct ND as (_ & ND & _). apply nodup_app in ND. apply ND.
    - intros x Hx. apply in_seq. destruct (GV x Hx). lia. }
  unfold PosModel.handle. rewrite EG. cbn [rbind]. cbv beta iota.
  assert (X : exists out, (if length g =? 1 then if feq y0 y1 then do! q := stop_of o in append_copied (st_out s) o (LineTo q) else Ok (st_out s) else do! is := rmap_orig orig g in ordered_curves fuel is g (st_out s) y0 y1) = Ok out /\ ext fits (st_out s) out).
  { destruct (length g =? 1).
    - replace (feq y0 y1) with false; [exists (st_out s); split; [reflexivity|apply ext_refl]|]. symmetry. pose proof (flt_split _ _ LT) as (Z1 & Z2 & Z3). rewrite feq_key by assumption. apply Z.eqb_neq. lia.
    - destruct (rmap_orig_ok g (fun x Hx => proj1 (GV x Hx))) as (is & -> & F). cbn [rbind].
      assert (VI : forall i, In i is -> i < length (segs a)). { clear -F H_seg. induction F as [|x i os is E F IH]; intros j []; [subst; eapply H_seg, E|apply IH; assumption]. }
      destruct (ordered_ok fuel is g (st_out s) y0 y1 F (fun x Hx => proj1 (GV x Hx)) B LO I0 I1 LT) as (out & E).
      { destruct I0 as (R1 & _), I1 as (_ & R2 & _). apply fle_split in R1, R2. lia. }
      exists out. split; [exact E|]. eapply ordered_ext with (I := fun y => fle y0 y = true /\ fle y y1 = true); [exact cmp| | | | | |exact B|exact E].
      + intros x q Hx Hq. destruct (stop_inv _ _ Hq) as (p & En). destruct (H_num x p q En) as (X1 & X2 & X3 & X4 & X5). destruct (proj2 (GV x Hx)) as (p' & q' & En' & Y1 & Y2). rewrite En in En'. injection En' as <- <-.
        exists p, q. split; [exact En|]. split; [eapply fle_flt; eassumption|]. split; [exact Logic.I|]. split; [exact X4|apply fle_refl', fin_nonnan, X2].
      + intros x q c1 c2 z Hx Hq Hz. destruct (stop_inv _ _ Hq) as (p & En). destruct (H_num x p q En) as (X1 & X2 & X3 & X4 & X5). destruct (proj2 (GV x Hx)) as (p' & q' & En' & Y1 & Y2). rewrite En in En'. injection En' as <- <-.
        exists p, q. split; [exact En|]. split; [eapply fle_flt; eassumption|]. split; [exact Logic.I|]. cbn [pel_end]. destruct Hz as [[_ ->]| ->]; [split; [exact X4|apply fle_refl', fin_nonnan, X2]|]. split; [exact Y1|apply flt_le, Y2].
      + intros x c z Hx [H1 H2]. destruct (proj2 (GV x Hx)) as (p & q & En & Y1 & Y2). exists p, q. split; [exact En|]. split; [eapply fle_flt; eassumption|]. split; [exact Logic.I|]. cbn [pel_end]. split; [exact (fle_tr _ _ _ Y1 H1)|]. exact (fle_tr _ _ _ H2 (UP x p q Hx En)).
      + intros f y next l [H1 H2] H3 H4. destruct (approximate_range is y1 f y next l) as [A1 A2]; [exact (inr_between y0 y y1 I0 I1 H1 H2)|exact I1|exact H3|exact VI|exact H4|]. split; [eapply fle_tr; [exact H1|apply flt_le, A1]|exact A2].
      + split; [apply fle_refl', (flt_split _ _ LT)|apply flt_le, LT]. }
  destruct X as (out & -> & EX). cbn [rbind].
  destruct (requeue_ok y1 g (st_last s) (st_queue s) (fun x Hx => proj1 (GV x Hx)) LL) as (last' & queue' & -> & L' & A1 & A2 & new & EQ & LN & MN). cbn [rbind]. cbv beta iota.
  eexists. split; [reflexivity|]. split; [reflexivity|]. split; [exact GR|]. split; [exact I1|]. cbn [st_out st_last st_queue].
  assert (EN : forall e, In e new -> fst e = y1) by (intros e He; apply MN in He; destruct He as (x & p & q & _ & _ & _ & ->); reflexivity).
  split. { split; [eapply ext_begun; [exact EX|exact B]|]. split; [cbn [st_out]; rewrite (proj1 EX); exact LO|]. split; [exact L'|]. cbn [st_queue]. intros y x H. rewrite EQ in H. apply in_app_or in H. destruct H as [H|H]; [exact (GQ y x H)|].
    apply MN in H. destruct H as (x' & p & q & Hx & En & LQ & H). injection H as -> ->. destruct (GV x' Hx) as [V1 V2]. split; [exact V1|]. split; [|apply I1]. destruct V2 as (p' & q' & En' & Y1 & Y2). rewrite En in En'. injection En' as <- <-. exists p, q. split; [exact En|]. split; [exact (fle_tr _ _ _ Y1 (flt_le _ _ LT))|exact LQ]. }
  split; [exact EX|]. split.
  { rewrite EQ, weight_app. enough (weight new < base ^ (key hi - key y0))%Z by lia. rewrite (weight_same y1) by (apply Forall_forall; exact EN).
    pose proof (flt_split _ _ LT) as (_ & _ & K). assert (K1 : (key y1 <= key hi)%Z) by (apply (fle_split _ _ (proj1 (proj2 I1)))).
    assert (0 < base ^ (key hi - key y1))%Z as P1 by (apply Z.pow_pos_nonneg; unfold base; lia).
    assert (base * base ^ (key hi - key y1) <= base ^ (key hi - key y0))%Z as P2. { rewrite <- Z.pow_succ_r by lia. apply Z.pow_le_mono_r; unfold base; lia. }
    assert (Z.of_nat (length new) < base)%Z as P3 by (unfold base; lia). assert (Z.of_nat (length new) * base ^ (key hi - key y1) <= (base - 1) * base ^ (key hi - key y1))%Z as P4 by (apply Z.mul_le_mono_nonneg_r; lia). rewrite Z.mul_sub_distr_r, Z.mul_1_l in P4.
    eapply Z.le_lt_trans; [exact P4|]. eapply Z.lt_le_trans; [apply Z.lt_sub_pos; exact P1|exact P2]. }
  split; [exact A1|]. split; [exact A2|]. exists new. split; [exact EQ|exact MN].
Qed.

Lemma pop_case s : good s -> match pop (st_queue s) with
  | None => st_queue s = []
  | Some ((y, o), queue) => Permutation (st_queue s) ((y, o) :: queue) /\ o < N /\ spans o y /\ fin y = true /\ good (mkPS (st_out s) (st_last s) queue) /\ (forall e, In e queue -> fle y (fst e) = true) /\
      exists ly, nth_error (st_last s) o = Some ly
  end.
Proof.
  intros (B & LO & LL & GQ). pose proof (H_pop (st_queue s)) as H. destruct (pop (st_queue s)) as [[[y o] queue]|]; [|exact H]. destruct H as [PE MX].
  assert (IN : forall e, In e queue -> In e (st_queue s)) by (intros e He; eapply Permutation_in; [symmetry; exact PE|right; exact He]).
  assert (I0 : In (y, o) (st_queue s)) by (eapply Permutation_in; [symmetry; exact PE|left; reflexivity]). destruct (GQ y o I0) as (V & S & F).
  split; [exact PE|]. split; [exact V|]. split; [exact S|]. split; [exact F|]. split.
  { split; [exact B|]. split; [exact LO|]. split; [exact LL|]. intros y' o' H. apply GQ, IN, H. }
  split.
  { intros [y' o'] He. cbn [fst]. destruct (GQ y' o' (IN _ He)) as (_ & _ & F'). assert (X : entry_cmp (y', o') (y, o) <> Gt).
    { apply MX; [|apply IN, He]. apply Forall_forall. intros [y2 o2] H2. cbn [fst]. apply fin_nonnan, (GQ y2 o2 H2). }
    unfold entry_cmp in X. cbn [fst snd] in X. rewrite cof_cmp_key in X by (apply fin_nonnan; assumption). apply fle_intro; [apply fin_nonnan; assumption..|]. destruct (Z.compare_spec (key y) (key y')); [lia|lia|congruence]. }
  rewrite <- LL in V. apply nth_error_Some in V. destruct (nth_error (st_last s) o) as [ly|]; [exists ly; reflexivity|congruence].
Qed.

Lemma turns_ok fuel : enough fuel -> forall n s, good s -> (weight (st_queue s) < Z.of_nat n)%Z -> exists tr s', turns fuel n s = Ok s' /\ run fuel s tr s'.
Proof.
  intro EN. induction n as [|n IH]; intros s G W; [pose proof (weight_pos (st_queue s)); lia|].
  cbn [PosModel.turns]. unfold PosModel.turn. pose proof (pop_case s G) as P. destruct (pop (st_queue s)) as [[[y o] queue]|] eqn:EP.
  - destruct P as (PE & V & S & F & G' & MX & ly & EL). cbv zeta. cbn [st_last]. rewrite EL. cbn [orerr rbind].
    apply weight_perm in PE. cbn [weight fold_right fst] in PE. fold (weight queue) in PE.
    destruct (fgt ly y) eqn:T; cbn [rbind].
    + destruct (IH _ G') as (tr & s' & E & R). { cbn [st_queue]. assert (0 < base ^ (key hi - key y))%Z; [|lia]. apply Z.pow_pos_nonneg; [unfold base; lia|]. destruct (spans_inr _ _ S F) as (_ & X & _). apply fle_split in X. lia. }
      eexists _, s'. split; [exact E|]. eapply run_skip; eassumption.
    + destruct (handle_ok fuel y o _ EN G' V S F) as (y1 & g & s1 & EG & EH & GR & I1 & G1 & EX & W1 & _). rewrite EH. cbn [rbind]. cbn [st_queue] in W1.
      destruct (IH s1 G1 ltac:(lia)) as (tr & s' & E & R). eexists _, s'. split; [exact E|]. eapply run_lay; eassumption.
  - cbn [rbind]. exists [], s. split; [reflexivity|]. apply run_done, EP.
Qed.

Lemma run_ext fuel s tr s' : enough fuel -> run fuel s tr s' -> good s -> ext fits (st_out s) (st_out s') /\ good s'.
Proof.
  intros EN R. induction R as [s EP|s y o queue ly tr s' EP EL T R IH|s y o queue ly y1 g s1 tr s' EP EL T EG EH R IH]; intro G; pose proof (pop_case s G) as P; rewrite EP in P.
  - split; [apply ext_refl|exact G].
  - apply IH. apply P.
  - destruct P as (PE & V & S & F & G' & _). destruct (handle_ok fuel y o _ EN G' V S F) as (y1' & g' & s1' & EG' & EH' & _ & _ & G1 & EX & _). rewrite EH in EH'. injection EH' as <-. destruct (IH G1) as [E2 G2]. split; [|exact G2]. eapply ext_trans; [exact EX|exact E2].
Qed.
Lemma run_groups fuel s tr s' : enough fuel -> run fuel s tr s' -> good s -> forall y o y1 g, In ((y, o), Some (y1, g)) tr -> grouped y o y1 g /\ inr y1.
Proof.
  intros EN R. induction R as [s EP|s y o queue ly tr s' EP EL T R IH|s y o queue ly y1 g s1 tr s' EP EL T EG EH R IH]; intro G; pose proof (pop_case s G) as P; rewrite EP in P; intros y' o' y1' g' H.
  - destruct H.
  - destruct H as [H|H]; [discriminate|]. eapply IH; [apply P|exact H].
  - destruct P as (PE & V & S & F & G' & _). destruct (handle_ok fuel y o _ EN G' V S F) as (y2 & g2 & s1' & EG' & EH' & GR & I1 & G1 & _). rewrite EH in EH'. injection EH' as <-. rewrite EG in EG'. injection EG' as <- <-.
    destruct H as [H|H]; [injection H as <- <- <- <-; split; assumption|]. exact (IH G1 _ _ _ _ H).
Qed.
Lemma run_down fuel s tr s' : enough fuel -> run fuel s tr s' -> good s -> downwards tr /\ forall b, nan b = false -> (forall e, In e (st_queue s) -> fle b (fst e) = true) -> Forall (fun e => fle b (fst (fst e)) = true) tr.
Proof.
  intros EN R. induction R as [s EP|s y o queue ly tr s' EP EL T R IH|s y o queue ly y1 g s1 tr s' EP EL T EG EH R IH]; intro G; pose proof (pop_case s G) as P; rewrite EP in P.
  - split; [constructor|]. intros. constructor.
  - destruct P as (PE & V & S & F & G' & MX & _). destruct (IH G') as [D L]. cbn [st_queue] in L. split.
    + constructor; [exact D|]. apply L; [apply fin_nonnan, F|exact MX].
    + intros b Nb Hb. constructor; [apply (Hb (y, o)); eapply Permutation_in; [symmetry; exact PE|left; reflexivity]|]. apply L; [exact Nb|]. intros e He. apply Hb. eapply Permutation_in; [symmetry; exact PE|right; exact He].
  - destruct P as (PE & V & S & F & G' & MX & _). destruct (handle_ok fuel y o _ EN G' V S F) as (y2 & g2 & s1' & EG' & EH' & GR & I1 & G1 & _ & _ & _ & _ & new & EQ & MN). rewrite EH in EH'. injection EH' as <-. rewrite EG in EG'. injection EG' as <- <-. cbn [st_queue] in EQ.
    destruct (IH G1) as [D L]. assert (LT : flt y y1 = true) by (destruct GR as (? & ? & _ & _ & X & _); exact X).
    assert (NEW : forall e, In e new -> fle y (fst e) = true) by (intros e He; apply MN in He; destruct He as (x & p & q & _ & _ & _ & ->); apply flt_le, LT).
    split.
    + constructor; [exact D|]. apply L; [apply fin_nonnan, F|]. rewrite EQ. intros e He. apply in_app_or in He. destruct He as [He|He]; [exact (MX e He)|exact (NEW e He)].
    + intros b Nb Hb. assert (BY : fle b y = true) by (apply (Hb (y, o)); eapply Permutation_in; [symmetry; exact PE|left; reflexivity]). constructor; [exact BY|]. apply L; [exact Nb|]. rewrite EQ. intros e He. apply in_app_or in He. destruct He as [He|He].
      * apply Hb. eapply Permutation_in; [symmetry; exact PE|right; exact He].
      * exact (fle_tr _ _ _ BY (NEW e He)).
Qed.

(** Every segment that starts at or below height zero is still to be laid out from its start, or laid out until the height from which it is queued. *)
Definition done_upto (cov : nat -> f64 -> Prop) (o : nat) (p : point) (y : f64) : Prop := forall h, fle (py p) h = true -> flt h y = true -> cov o h.
Definition pending (cov : nat -> f64 -> Prop) (s : pstate) : Prop := forall o p q, nth_error ends o = Some (p, q) -> flt (py p) (py q) = true -> fle fzero (py p) = true ->
  exists ly, nth_error (st_last s) o = Some ly /\ nan ly = false /\
    (fle ly (py p) = true /\ In (py p, o) (st_queue s) \/ done_upto cov o p ly /\ (flt ly (py q) = true -> In (ly, o) (st_queue s)) /\ fle (py p) ly = true).
Lemma run_covers fuel s tr s' : enough fuel -> run fuel s tr s' -> good s -> forall cov, pending cov s ->
  forall o p q h, nth_error ends o = Some (p, q) -> fle fzero (py p) = true -> fle (py p) h = true -> flt h (py q) = true -> cov o h \/ covered tr o h.
Proof.
  intros EN R. induction R as [s EP|s y o queue ly tr s' EP EL T R IH|s y o queue ly y1 g s1 tr s' EP EL T EG EH R IH]; intros G cov PD x p q h En PZ H1 H2; pose proof (pop_case s G) as P; rewrite EP in P.
  - destruct (PD x p q En (fle_flt _ _ _ H1 H2) PZ) as (ly & EL & NL & [[_ H]|(D & Q & _)]); [rewrite P in H; destruct H|]. left. apply D; [exact H1|].
    destruct (fle_total (py q) ly) as [X|X]; [apply (flt_split _ _ H2)|exact NL|exact (flt_fle _ _ _ H2 X)|]. specialize (Q X). rewrite P in Q. destruct Q.
  - destruct P as (PE & V & S & F & G' & MX & _). assert (X : pending cov (mkPS (st_out s) (st_last s) queue)).
    { intros o' p' q' En' LT' PZ'. destruct (PD o' p' q' En' LT' PZ') as (ly' & EL' & NL & C). exists ly'. cbn [st_last st_queue]. split; [exact EL'|]. split; [exact NL|]. destruct C as [[C1 C2]|(C1 & C2 & C3)].
      - left. split; [exact C1|]. eapply Permutation_in in C2; [|exact PE]. destruct C2 as [C2|C2]; [|exact C2]. exfalso. injection C2 as -> ->. assert (ly' = ly) as -> by congruence. change (flt (py p') ly = true) in T. apply flt_split in T. apply fle_split in C1. lia.
      - right. split; [exact C1|]. split; [|exact C3]. intro L. specialize (C2 L). eapply Permutation_in in C2; [|exact PE]. destruct C2 as [C2|C2]; [|exact C2]. exfalso. injection C2 as -> ->. assert (ly' = ly) as -> by congruence. change (flt ly ly = true) in T. apply flt_split in T. lia. }
    destruct (IH G' cov X x p q h En PZ H1 H2) as [C|(y' & x' & y1' & g' & I' & C)]; [left; exact C|right]. exists y', x', y1', g'. split; [right; exact I'|exact C].
  - destruct P as (PE & V & S & F & G' & MX & _). destruct (handle_ok fuel y o _ EN G' V S F) as (y2 & g2 & s1' & EG' & EH' & GR & I1 & G1 & _ & _ & A1 & A2 & new & EQ & MN). rewrite EH in EH'. injection EH' as <-. rewrite EG in EG'. injection EG' as <- <-. cbn [st_queue st_last] in EQ, A2.
    assert (LT : flt y y1 = true) by (destruct GR as (? & ? & _ & _ & X & _); exact X). pose proof (flt_split _ _ LT) as (NY & NY1 & KY).
    set (cov' := fun o' h' => cov o' h' \/ In o' g /\ fle y h' = true /\ flt h' y1 = true).
    assert (X : pending cov' s1).
    { intros o' p' q' En' LT' PZ'. destruct (in_dec Nat.eq_dec o' g) as [Ig|Ig].
      - exists y1. split; [exact (A1 o' Ig)|]. split; [exact NY1|]. right. split; [|split].
        + intros h' L1 L2. destruct (fle_total y h') as [L3|L3]; [exact NY|apply (flt_split _ _ L2)|right; split; [exact Ig|split; assumption]|]. left.
          destruct (PD o' p' q' En' LT' PZ') as (ly' & EL' & NL & [[C1 C2]|(C1 & C2 & C3)]).
          * exfalso. eapply Permutation_in in C2; [|exact PE]. destruct C2 as [C2|C2]; [injection C2 as -> ->; pose proof (flt_fle _ _ _ L3 L1) as Z|pose proof (MX _ C2) as Z'; cbn [fst] in Z'; pose proof (flt_fle _ _ _ (flt_fle _ _ _ L3 Z') L1) as Z]; apply flt_split in Z; lia.
          * apply C1; [exact L1|]. destruct (fle_total ly' h') as [L4|L4]; [exact NL|apply (flt_split _ _ L2)| |exact L4]. exfalso.
            assert (L5 : flt ly' (py q') = true). { destruct GR as (? & ? & _ & _ & _ & UP & _). specialize (UP o' p' q' Ig En'). exact (flt_fle _ _ _ (fle_flt _ _ _ L4 L2) UP). }
            specialize (C2 L5). eapply Permutation_in in C2; [|exact PE]. destruct C2 as [C2|C2]; [injection C2 as -> ->|pose proof (MX _ C2) as Z'; cbn [fst] in Z']; [pose proof (fle_flt _ _ _ L4 L3) as Z|pose proof (fle_flt _ _ _ L4 (flt_fle _ _ _ L3 Z')) as Z]; apply flt_split in Z; lia.
        + intro L1. rewrite EQ. apply in_or_app. right. apply MN. exists o', p', q'. tauto.
        + destruct GR as (west & east & (ND & MEM & _) & _). destruct (proj1 (MEM o')) as [_ SP]; [rewrite !in_app_iff; tauto|]. destruct SP as (p2 & q2 & En2 & Y1 & _). rewrite En' in En2. injection En2 as <- <-. exact (fle_tr _ _ _ Y1 (flt_le _ _ LT)).
      - destruct (PD o' p' q' En' LT' PZ') as (ly' & EL' & NL & C). exists ly'. rewrite (A2 o' Ig). split; [exact EL'|]. split; [exact NL|].
        assert (NE : o' <> o) by (intros ->; apply Ig; destruct GR as (? & ? & _ & X & _); exact X).
        assert (KEEP : forall yy, In (yy, o') (st_queue s) -> In (yy, o') (st_queue s1)). { intros yy H. rewrite EQ. apply in_or_app. left. eapply Permutation_in in H; [|exact PE]. destruct H as [H|H]; [congruence|exact H]. }
        destruct C as [[C1 C2]|(C1 & C2 & C3)]; [left; split; [exact C1|exact (KEEP _ C2)]|]. right. split; [|split; [|exact C3]].
        + intros h' L1 L2. left. exact (C1 h' L1 L2).
        + intro L. exact (KEEP _ (C2 L)). }
    destruct (IH G1 cov' X x p q h En PZ H1 H2) as [[C|(C1 & C2 & C3)]|(y' & x' & y1' & g' & I' & C)]; [left; exact C|right; exists y, o, y1, g; split; [left; reflexivity|tauto]|right]. exists y', x', y1', g'. split; [right; exact I'|exact C].
Qed.

(** ** The whole computation *)
Notation finish := (finish false a sub orig ends).
Notation finish_all := (finish_all false a sub orig ends).
Notation compute_positions := (compute_positions false a cmp sub trans_after trans_before est pop orig ends order accuracy).
Lemma start_ok n : forall o, o + n <= N -> exists out queue, start_paths ends n o = Ok (out, queue).
Proof.
  induction n as [|n IH]; intros o L; [exists [], []; reflexivity|]. cbn [start_paths]. destruct (stop_ok o ltac:(lia)) as (p & q & En & Es). unfold start_of. rewrite En, Es. cbn [orerr rbind fst]. destruct (IH (S o) ltac:(lia)) as (out & queue & ->). cbn [rbind]. cbv beta iota. destruct (feq _ _); eexists _, _; reflexivity.
Qed.
Lemma start_good out queue last : start_paths ends N 0 = Ok (out, queue) -> length last = N -> good (mkPS out last queue).
Proof.
  intros E L. destruct (start_spec _ _ _ _ _ E) as (LO & S1 & S2). split; [|split; [exact LO|split; [exact L|]]]; cbn [st_out st_queue].
  - apply Forall_forall. intros x Hx. apply In_nth_error in Hx. destruct Hx as (k & Hk). destruct (S1 k x Hk) as (p & q & _ & [(_ & ->)|(_ & ->)]); discriminate.
  - intros y o H. apply S2 in H. destruct H as (p & q & R & En & F & ->). destruct (H_num o p q En) as (X1 & X2 & _ & X4 & _). split; [lia|]. split; [|exact X1]. exists p, q. split; [exact En|]. split; [apply fle_refl', fin_nonnan, X1|].
    pose proof (fin_nonnan _ X1). pose proof (fin_nonnan _ X2). rewrite feq_key in F by assumption. apply fle_split in X4. apply flt_intro; [assumption..|]. apply Z.eqb_neq in F. lia.
Qed.
Lemma finish_ok o x : o < N -> ps_path x <> [] -> exists x', finish o x = Ok x'.
Proof.
  intros V NE. unfold PosModel.finish. destruct (stop_ok o V) as (p & q & En & ->). cbn [rbind]. unfold bez_end_y. destruct (bez_end_ok _ NE) as (z & Ez). rewrite Ez. cbn [rbind]. destruct (flt (py z) (py q)).
  - destruct (orig_ok o V) as (i & -> & Oi). cbn [rbind]. destruct (seg_ok i (H_seg _ _ Oi)) as (s & ->). cbn [rbind]. cbv zeta. destruct (is_line s); [eexists; reflexivity|]. destruct (next_ok s (ps_path x) (py q) q NE) as (c & ->). cbn [rbind]. eexists. reflexivity.
  - unfold bez_end in Ez. destruct (last_opt (ps_path x)); [|discriminate]. cbn [orerr rbind]. eexists. reflexivity.
Qed.
Lemma finish_all_ok l : forall o, o + length l <= N -> begun l -> exists l', finish_all o l = Ok l'.
Proof.
  induction l as [|x l IH]; intros o L B; [exists []; reflexivity|]. cbn [PosModel.finish_all length] in *. inversion B; subst. destruct (finish_ok o x ltac:(lia) ltac:(assumption)) as (x' & ->). cbn [rbind]. destruct (IH (S o) ltac:(lia) ltac:(assumption)) as (l' & ->). cbn [rbind]. eexists. reflexivity.
Qed.
Lemma finish_within o p q x x' : nth_error ends o = Some (p, q) -> within p q x -> finish o x = Ok x' -> within p q x' /\ (x = mkPosn [MoveTo p; LineTo q] (Some 0) -> x' = x).
Proof.
  intros En W H. destruct (H_num o p q En) as (X1 & X2 & _ & X4 & _). unfold PosModel.finish in H. rewrite (stop_some _ _ _ En) in H. cbn [rbind] in H. ok H y Ey. destruct (flt y (py q)) eqn:L.
  - split.
    + ok H i Ei. ok H s Es. cbv zeta in H. unfold within. destruct (is_line s).
      * injection H as <-. cbn [ps_path]. apply Forall_app. split; [exact W|]. constructor; [|constructor]. cbn [pel_end]. split; [exact X4|apply fle_refl', fin_nonnan, X2].
      * ok H c Ec. injection H as <-. cbn [ps_path]. apply Forall_app. split; [exact W|]. constructor; [|constructor]. cbn [pel_end]. apply next_end in Ec. destruct Ec as [[_ ->]| ->]; (split; [exact X4|apply fle_refl', fin_nonnan, X2]).
    + intros ->. cbn in Ey. injection Ey as <-. apply flt_split in L. lia.
  - ok H e Ee. apply orerr_some in Ee. injection H as <-. split.
    + unfold within in *. cbn [ps_path]. rewrite (last_opt_split _ _ Ee) in W. apply Forall_app in W. destruct W as [W _]. apply Forall_app. split; [exact W|]. constructor; [|constructor]. destruct e; cbn [pel_set_end pel_end]; (split; [exact X4|apply fle_refl', fin_nonnan, X2]).
    + intros ->. cbn in Ee. injection Ee as <-. reflexivity.
Qed.

Lemma layout_total : exists fuel0, forall fuel, fuel0 <= fuel -> exists out0 queue tr s out,
  start_paths ends N 0 = Ok (out0, queue) /\ run fuel (mkPS out0 (repeat fzero N) queue) tr s /\ finish_all 0 (st_out s) = Ok out /\ compute_positions fuel = Ok out /\
  downwards tr /\ (forall y o y1 g, In ((y, o), Some (y1, g)) tr -> grouped y o y1 g) /\
  (forall o p q h, nth_error ends o = Some (p, q) -> fle fzero (py p) = true -> fle (py p) h = true -> flt h (py q) = true -> covered tr o h) /\
  (forall o x p q, nth_error out o = Some x -> nth_error ends o = Some (p, q) -> complete p q x /\ within p q x /\ (feq (py p) (py q) = true -> x = mkPosn [MoveTo p; LineTo q] (Some 0))).
Proof.
  destruct (start_ok N 0 ltac:(lia)) as (out0 & queue & E0). pose proof (start_good out0 queue (repeat fzero N) E0 ltac:(apply repeat_length)) as G.
  exists (S (N + Z.to_nat (key hi - key lo + 2) + Z.to_nat (weight queue) + 1)). intros fuel F.
  assert (EN : enough fuel) by (split; lia).
  destruct (turns_ok fuel EN fuel _ G) as (tr & s & ET & R). { cbn [st_queue]. pose proof (weight_pos queue). lia. }
  destruct (run_ext fuel _ _ _ EN R G) as [[LX EX] (B' & LO' & _)]. cbn [st_out] in LX, EX. destruct (finish_all_ok (st_out s) 0) as (out & EF); [lia|exact B'|].
  assert (EC : compute_positions fuel = Ok out). { unfold PosModel.compute_positions. rewrite E0. cbn [rbind]. cbv beta iota. rewrite ET. cbn [rbind]. exact EF. }
  exists out0, queue, tr, s, out. split; [exact E0|]. split; [exact R|]. split; [exact EF|]. split; [exact EC|]. split; [apply (run_down fuel _ _ _ EN R G)|]. split; [intros y o y1 g H; apply (run_groups fuel _ _ _ EN R G _ _ _ _ H)|]. split.
  - intros o p q h En PZ H1 H2. destruct (run_covers fuel _ _ _ EN R G (fun _ _ => False)) with (o := o) (p := p) (q := q) (h := h) as [[]|C]; try assumption.
    destruct (start_spec _ _ _ _ _ E0) as (_ & _ & S2). intros o' p' q' En' LT' PZ'. exists fzero. cbn [st_last st_queue].
    assert (VO : o' < N) by (rewrite <- H_len; apply nth_error_Some; congruence).
    split; [rewrite nth_error_repeat by exact VO; reflexivity|]. split; [reflexivity|]. left. split; [exact PZ'|]. apply S2. exists p', q'. split; [lia|]. split; [exact En'|]. split; [|reflexivity]. apply flt_split in LT'. rewrite feq_key by tauto. apply Z.eqb_neq. lia.
  - intros o x p q Hx En. destruct (compute_complete _ _ _ _ _ _ _ _ _ _ _ _ _ _ EC) as (_ & CP); [intros o' p' q' E'; apply (H_num o' p' q' E')|]. destruct (CP o x Hx) as (p' & q' & En' & C). rewrite En in En'. injection En' as <- <-. split; [exact C|].
    destruct (finish_all_spec _ _ _ _ _ _ _ _ EF) as (LF & FS). assert (exists x1, nth_error (st_out s) o = Some x1) as (x1 & H1). { destruct (nth_error (st_out s) o) eqn:N1; [eauto|]. apply nth_error_None in N1. assert (o < length out) by (apply nth_error_Some; congruence). lia. }
    assert (exists x0, nth_error out0 o = Some x0) as (x0 & H0). { destruct (nth_error out0 o) eqn:N1; [eauto|]. apply nth_error_None in N1. assert (o < length (st_out s)) by (apply nth_error_Some; congruence). lia. }
    destruct (FS o x1 H1) as (x' & Hx' & EFx). assert (x' = x) as -> by congruence. cbn [Nat.add] in EFx.
    destruct (EX o x0 H0) as (x1' & H1' & l & El & Fl & Cl). assert (x1' = x1) as -> by congruence.
    destruct (start_spec _ _ _ _ _ E0) as (_ & S1 & _). destruct (S1 o x0 H0) as (p' & q' & En' & C0). cbn [Nat.add] in En'. rewrite En in En'. injection En' as <- <-.
    destruct (H_num o p q En) as (X1 & X2 & _ & X4 & _). pose proof (fin_nonnan _ X1) as N1. pose proof (fin_nonnan _ X2) as N2.
    assert (W1 : within p q x1).
    { unfold within. rewrite El. apply Forall_app. split.
      - destruct C0 as [(_ & ->)|(_ & ->)]; cbn [ps_path]; repeat constructor; cbn [pel_end]; try exact X4; apply fle_refl'; assumption.
      - eapply Forall_impl; [|exact Fl]. intros e (p' & q' & En' & _ & _ & L1 & L2). rewrite En in En'. injection En' as <- <-. split; assumption. }
    destruct (finish_within o p q x1 x En W1 EFx) as [W2 FL]. split; [exact W2|]. intro FQ. destruct C0 as [(_ & ->)|(FQ' & _)]; [|congruence].
    assert (l = []). { destruct l as [|e l]; [reflexivity|]. exfalso. apply Forall_inv in Fl. destruct Fl as (p' & q' & En' & LT & _). rewrite En in En'. injection En' as <- <-. apply flt_split in LT. rewrite feq_key in FQ by assumption. apply Z.eqb_eq in FQ. lia. }
    subst l. rewrite app_nil_r in El. cbn [ps_path ps_copied length] in El, Cl. assert (x1 = mkPosn [MoveTo p; LineTo q] (Some 0)) as E1. { destruct x1 as [pp cc]. cbn [ps_path ps_copied] in *. f_equal; [exact El|]. destruct Cl as [Cl|(k & _ & Cl)]; [exact Cl|lia]. }
    rewrite (FL E1). exact E1.
Qed.
End P.
