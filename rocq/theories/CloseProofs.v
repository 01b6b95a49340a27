(** Proofs about the heights at which neighbours become close. *)
From Coq Require Import List Bool ZArith Arith Lia Sorted.
From Verif Require Import F64 F64Arith TreeVecModel GeomModel SegmentsModel CurveOrderModel CurveOrderSpec CurveOrderProofs CurveOrderProofs2 SweepModel TopoModel ScanModel ScanSpec ScanProofs CloseSpec.
Import ListNotations.

(** *** The periods of a row *)
Lemma take_while_in {A} (p : A -> bool) l x : In x (take_while p l) -> In x l /\ p x = true.
Proof. induction l as [|y l IH]; cbn; [intros []|]. destruct (p y) eqn:E; [|intros []]. intros [<-|H]; [auto|]. destruct (IH H). auto. Qed.
Lemma neighbor_period l h n : entries_neighbor_after l h = Some n -> exists y0 y1, In (y0, y1, Some n) (half_iter l) /\ fle y0 h = true /\ flt h y1 = true.
Proof.
  unfold entries_neighbor_after. destruct (find _ _) as [[[y0 y1] s]|] eqn:F; [|discriminate]. intros ->. apply find_some in F. destruct F as [F1 F2]. apply take_while_in in F1. destruct F1 as [F1 F3]. exists y0, y1. auto.
Qed.
Lemma half_end l y0 y1 s : Forall hnum l -> In (y0, y1, s) (half_iter l) -> nan y0 = false /\ nan y1 = false /\ In (y0, s) l.
Proof.
  intros F. induction l as [|e l IH]; [intros []|]. apply Forall_cons_iff in F. destruct F as [F1 F2]. rewrite half_iter_cons. intros [H|H].
  - injection H as <- <- <-. split; [exact F1|]. split; [destruct l; [reflexivity|apply Forall_cons_iff in F2; apply F2]|left; destruct e; reflexivity].
  - destruct (IH F2 H) as (A & B & C). split; [exact A|]. split; [exact B|right; exact C].
Qed.
(** Earlier periods end before later ones start. *)
Lemma half_split l : StronglySorted hlt l -> forall A y0 y1 s B, half_iter l = A ++ (y0, y1, s) :: B -> forall p, In p A -> (key (snd (fst p)) <= key y0)%Z.
Proof.
  induction 1 as [|e l S IH F]; intros A y0 y1 s B E p Hp; [destruct A; discriminate E|]. rewrite half_iter_cons in E. destruct A as [|q A]; [destruct Hp|]. cbn [app] in E. injection E as E1 E2. destruct Hp as [<-|Hp]; [|eapply IH; eassumption].
  subst q. cbn [fst snd]. destruct l as [|e' l]; [destruct A; discriminate E2|]. rewrite half_iter_cons in E2. destruct A as [|q A]; cbn [app] in E2; [injection E2 as <- _ _ _; lia|]. injection E2 as _ E2.
  assert (X : In (y0, s) l). { assert (Y : In (y0, y1, s) (half_iter l)) by (rewrite E2; apply in_or_app; right; left; reflexivity). unfold half_iter in Y. apply in_map_iff in Y. destruct Y as ([[a b] c] & Q & Y). injection Q as <- <- <-. apply in_combine_l in Y. exact Y. }
  apply StronglySorted_inv in S. destruct S as [_ S]. rewrite Forall_forall in S. specialize (S _ X). unfold hlt, hkey in S. cbn [fst] in S. lia.
Qed.
(** Within a period the query answers with its neighbour. *)
Lemma period_neighbor l y0 y1 n h : StronglySorted hlt l -> Forall hnum l -> In (y0, y1, Some n) (half_iter l) -> fle y0 h = true -> flt h y1 = true -> entries_neighbor_after l h = Some n.
Proof.
  intros S F H L1 L2. pose proof (half_end _ _ _ _ F H) as (N0 & N1 & _). destruct (flt_nonnan _ _ L2) as [Nh _]. apply in_split in H. destruct H as (A & B & E). pose proof (half_split l S A y0 y1 _ B E) as EA.
  assert (NA : forall p, In p A -> nan (fst (fst p)) = false /\ nan (snd (fst p)) = false /\ (key (fst (fst p)) <= key (snd (fst p)))%Z).
  { intros [[u v] w] Hp. assert (X : In (u, v, w) (half_iter l)) by (rewrite E; apply in_or_app; left; exact Hp). pose proof (half_end _ _ _ _ F X) as (X1 & X2 & _). split; [exact X1|]. split; [exact X2|]. cbn.
    clear - S F X X1 X2. induction S as [|e l S IH Q]; [destruct X|]. apply Forall_cons_iff in F. destruct F as [F1 F2]. rewrite half_iter_cons in X. destruct X as [X|X]; [|apply IH; assumption]. injection X as <- <- <-. destruct l as [|e' l].
    - assert (T : fle (fst e) finfinity = true) by (destruct (fst e) as [[] | [] | |[]]; try reflexivity; discriminate). fk. zb. lia.
    - apply Forall_cons_iff in Q. destruct Q as [Q _]. unfold hlt, hkey in Q. lia. }
  unfold entries_neighbor_after. rewrite E. clear E. assert (G : find (fun '(_, y, _) => fgt y h) (take_while (fun '(y, _, _) => fle y h) (A ++ (y0, y1, Some n) :: B)) = Some (y0, y1, Some n)); [|rewrite G; reflexivity].
  induction A as [|[[u v] w] A IH].
  - cbn [app take_while]. rewrite L1. cbn [find]. rewrite fgt_flt, L2. reflexivity.
  - cbn [app take_while]. destruct (NA _ (or_introl eq_refl)) as (M1 & M2 & M3). pose proof (EA _ (or_introl eq_refl)) as M4. cbn [fst snd] in *. assert (Q1 : fle u h = true) by (fk; zb; lia). assert (Q2 : fgt v h = false) by (rewrite fgt_flt; destruct (flt h v) eqn:X; [fk; zb; lia|reflexivity]).
    rewrite Q1. cbn [find]. rewrite Q2. apply IH; intros; [apply EA|apply NA]; right; assumption.
Qed.

(** *** Intervals of a comparison *)
Lemma next_close_sound c y y1 h : next_close c y y1 = Some h -> exists k e, interval c k h e Ish /\ fle y h = true /\ flt h y1 = true.
Proof.
  unfold next_close. destruct (find _ _) as [[[s e] o]|] eqn:F; [|discriminate]. intros [= <-]. apply find_some in F. destruct F as [F1 F2]. apply filter_In in F1. destruct F1 as [F1 F3]. apply take_while_in in F1. destruct F1 as [F1 F4].
  apply In_nth_error in F1. destruct F1 as [k F1]. apply iter_interval in F1. exists k, e. assert (o = Ish) by (destruct o; try discriminate F3; reflexivity). subst o. auto.
Qed.
Lemma take_while_le {A} (p : A -> bool) l : forall k x, nth_error l k = Some x -> (forall i z, i <= k -> nth_error l i = Some z -> p z = true) -> nth_error (take_while p l) k = Some x.
Proof.
  induction l as [|z l IH]; intros [|k] x H P; try discriminate H; cbn; rewrite (P 0 z (Nat.le_0_l _) eq_refl); [exact H|]. cbn. apply IH; [exact H|]. intros i w L. apply (P (S i)). lia.
Qed.
Lemma find_filter_first {A} (p q : A -> bool) l : forall k x, nth_error l k = Some x -> p x = true -> q x = true -> exists i z, i <= k /\ nth_error l i = Some z /\ find q (filter p l) = Some z.
Proof.
  induction l as [|z l IH]; intros [|k] x H P Q; try discriminate H.
  - injection H as ->. exists 0, x. cbn. rewrite P. cbn. rewrite Q. auto.
  - cbn. destruct (p z && q z) eqn:E.
    + apply andb_true_iff in E. destruct E as [-> E]. cbn. rewrite E. exists 0, z. split; [lia|auto].
    + destruct (IH k x H P Q) as (i & w & L & Hi & Hf). exists (S i), w. split; [lia|]. split; [exact Hi|]. destruct (p z); [|exact Hf]. cbn in *. rewrite E. exact Hf.
Qed.
Lemma next_close_complete c y y1 k h e : table_wf c -> nan y = false -> nan y1 = false -> interval c k h e Ish -> fle y h = true -> flt h y1 = true -> exists h', next_close c y y1 = Some h' /\ fle h' h = true.
Proof.
  intros WF Ny N1 I L1 L2. apply iter_interval in I as I2. unfold next_close.
  assert (TW : nth_error (take_while (fun '(s, _, _) => flt s y1) (co_iter c)) k = Some (h, e, Ish)).
  { apply take_while_le; [exact I2|]. intros i [[s e'] o] L H. apply iter_interval in H. pose proof (wf_iter_nonnan _ _ _ _ _ WF H) as [M1 _]. pose proof (wf_heights_mono c i k s h WF L (proj1 H) (proj1 I)) as M. destruct (flt_nonnan _ _ L2) as [Nh _]. fk. zb. lia. }
  destruct (find_filter_first (fun '(_, _, o) => order_eqb o Ish) (fun '(s, _, _) => fge s y) _ k _ TW eq_refl) as (i & [[s e'] o] & L & Hi & Hf); [exact L1|].
  rewrite Hf. cbn [option_map]. exists s. split; [reflexivity|]. assert (X : nth_error (co_iter c) i = Some (s, e', o)).
  { clear - Hi. revert Hi. generalize (co_iter c). intros l. revert i. induction l as [|z l IH]; intros i H; [destruct i; discriminate H|]. cbn in H. destruct z as [[a b] d]. destruct (flt a y1); [|destruct i; discriminate H]. destruct i as [|i]; [exact H|]. apply IH, H. }
  apply iter_interval in X. pose proof (wf_iter_nonnan _ _ _ _ _ WF X) as [M1 _]. pose proof (wf_heights_mono c i k s h WF L (proj1 X) (proj1 I)) as M. destruct (flt_nonnan _ _ L2) as [Nh _]. fk. zb. lia.
Qed.

(** *** The loop over the periods *)
Section Loop.
Variable cmp : nat -> nat -> curve_order.
Variable orig : list nat.
Variable seg i : nat.
Variable y : f64.
Hypothesis HS : nth_error orig seg = Some i.
Hypothesis NY : nan y = false.

Lemma loop_total l : (forall y0 y1 n, In (y0, y1, Some n) l -> exists j, nth_error orig n = Some j) -> exists r, close_loop cmp orig seg y l = Ok r.
Proof.
  induction l as [|[[y0 y1] o] l IH]; intros V; [eexists; reflexivity|]. assert (V' : forall y0 y1 n, In (y0, y1, Some n) l -> exists j, nth_error orig n = Some j) by (intros; eapply V; right; eassumption). specialize (IH V').
  cbn [close_loop]. destruct (fle y1 y); [exact IH|]. destruct o as [n|]; [|exact IH]. destruct (V y0 y1 n (or_introl eq_refl)) as (j & Hj). rewrite HS, Hj. cbn [orerr rbind]. destruct (next_close _ _ _); [eexists; reflexivity|exact IH].
Qed.
Lemma loop_sound l h : close_loop cmp orig seg y l = Ok (Some h) -> exists y0 y1 n j k e, In (y0, y1, Some n) l /\ fle y1 y = false /\ nth_error orig n = Some j /\ interval (cmp i j) k h e Ish /\ fle y h = true /\ flt h y1 = true.
Proof.
  induction l as [|[[y0 y1] o] l IH]; intros H; [discriminate H|]. cbn [close_loop] in H.
  assert (R : close_loop cmp orig seg y l = Ok (Some h) -> exists y0' y1' n j k e, In (y0', y1', Some n) ((y0, y1, o) :: l) /\ fle y1' y = false /\ nth_error orig n = Some j /\ interval (cmp i j) k h e Ish /\ fle y h = true /\ flt h y1' = true).
  { intros Q. destruct (IH Q) as (u & v & n & j & k & e & A & B). exists u, v, n, j, k, e. split; [right; exact A|exact B]. }
  destruct (fle y1 y) eqn:E; [apply R, H|]. destruct o as [n|]; [|apply R, H]. rewrite HS in H. cbn [orerr rbind] in H. destruct (nth_error orig n) as [j|] eqn:Hj; [|discriminate H]. cbn [orerr rbind] in H. destruct (next_close (cmp i j) y y1) as [h'|] eqn:C; [|apply R, H].
  injection H as ->. apply next_close_sound in C. destruct C as (k & e & C1 & C2 & C3). exists y0, y1, n, j, k, e. split; [left; reflexivity|auto 10].
Qed.
Lemma loop_complete l A y0 y1 n j B k h e r : l = A ++ (y0, y1, Some n) :: B -> (forall p, In p A -> (key (snd (fst p)) <= key y0)%Z /\ nan (snd (fst p)) = false) -> nth_error orig n = Some j ->
  nan y0 = false -> table_wf (cmp i j) -> interval (cmp i j) k h e Ish -> fle y h = true -> fle y0 h = true -> flt h y1 = true -> close_loop cmp orig seg y l = Ok r -> exists h', r = Some h' /\ fle h' h = true.
Proof.
  intros -> EA Hj N0 WF I L1 L0 L2. destruct (flt_nonnan _ _ L2) as [Nh N1]. induction A as [|[[u v] w] A IH]; cbn [app close_loop].
  - assert (X : fle y1 y = false) by (destruct (fle y1 y) eqn:X; [fk; zb; lia|reflexivity]). rewrite X, HS, Hj. cbn [orerr rbind]. destruct (next_close_complete (cmp i j) y y1 k h e WF NY N1 I L1 L2) as (h' & C & L). rewrite C. intros [= <-]. eauto.
  - assert (IH' := IH (fun p Hp => EA p (or_intror Hp))). destruct (fle v y); [exact IH'|]. destruct w as [n'|]; [|exact IH']. rewrite HS. cbn [orerr rbind]. destruct (nth_error orig n') as [j'|]; [|discriminate]. cbn [orerr rbind].
    destruct (next_close (cmp i j') y v) as [h'|] eqn:C; [|exact IH']. intros [= <-]. exists h'. split; [reflexivity|]. apply next_close_sound in C. destruct C as (k' & e' & _ & _ & C3). destruct (EA _ (or_introl eq_refl)) as [M1 M2]. cbn [fst snd] in *. destruct (flt_nonnan _ _ C3). fk. zb. lia.
Qed.
End Loop.
