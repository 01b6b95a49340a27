(** Winding numbers: sums, chains of output segments, rings. *)
From Coq Require Import List Bool ZArith Arith Lia Permutation Sorted.
From Verif Require Import F64 F64Arith TreeVecModel GeomModel SegmentsModel SegmentsSpec SegmentsProofs CurveOrderModel CurveOrderProofs SweepModel SweepSpec
  RangeModel RangeSpec TopoModel TopoSpec TopoProofs TopoProofs2 TopoProofs3 TopoProofs4 WindSpec.
Import ListNotations.

Section Group.
Context {W T : Type}.
Variable ops : wops W T.
Hypothesis OK : wops_ok ops.
Infix "+w" := (w_add ops) (at level 50, left associativity).
Notation w0 := (w_zero ops).

Lemma wadd_0 x : x +w w0 = x. Proof. rewrite (wo_comm _ OK). apply (wo_zero _ OK). Qed.
Lemma wadd_cancel x y z : x +w y = x +w z -> y = z.
Proof.
  intros H. destruct (wo_inv _ OK x) as [u U]. rewrite (wo_comm _ OK) in U.
  rewrite <- (wo_zero _ OK y), <- (wo_zero _ OK z), <- U, <- !(wo_assoc _ OK), H. reflexivity.
Qed.
Lemma wadd_cancel_r x y z : y +w x = z +w x -> y = z.
Proof. rewrite (wo_comm _ OK y), (wo_comm _ OK z). apply wadd_cancel. Qed.
Lemma wadd_swap x y z u : (x +w y) +w (z +w u) = (x +w z) +w (y +w u).
Proof. rewrite !(wo_assoc _ OK). f_equal. rewrite <- !(wo_assoc _ OK). f_equal. apply (wo_comm _ OK). Qed.
Definition wsum (l : list W) : W := fold_right (w_add ops) w0 l.
Lemma wsum_app l m : wsum (l ++ m) = wsum l +w wsum m.
Proof. induction l as [|x l IH]; cbn; [rewrite (wo_zero _ OK); reflexivity|]. unfold wsum in *. rewrite IH, (wo_assoc _ OK). reflexivity. Qed.
Lemma wsum_perm l m : Permutation l m -> wsum l = wsum m.
Proof.
  induction 1 as [|x l m P IH|x y l|l m r P1 IH1 P2 IH2]; cbn; [reflexivity|unfold wsum in IH; rewrite IH; reflexivity| |congruence].
  rewrite !(wo_assoc _ OK), (wo_comm _ OK y x). reflexivity.
Qed.
Lemma wend_sum gs : forall w, wend ops w gs = w +w wsum gs.
Proof. induction gs as [|g gs IH]; intros w; cbn; [rewrite wadd_0; reflexivity|]. rewrite IH. unfold wsum. rewrite <- (wo_assoc _ OK). reflexivity. Qed.
Definition sumf {A} (f : A -> W) (l : list A) : W := wsum (map f l).
Lemma sumf_add {A} (f g : A -> W) l : sumf (fun x => f x +w g x) l = sumf f l +w sumf g l.
Proof. unfold sumf, wsum. induction l as [|x l IH]; cbn; [rewrite (wo_zero _ OK); reflexivity|]. rewrite IH. apply wadd_swap. Qed.
Lemma sumf_ext {A} (f g : A -> W) l : (forall x, In x l -> f x = g x) -> sumf f l = sumf g l.
Proof. intros H. unfold sumf. f_equal. apply map_ext_in, H. Qed.
Lemma sumf_filter {A} (p : A -> bool) (f : A -> W) l : sumf f (filter p l) = sumf (fun x => if p x then f x else w0) l.
Proof. unfold sumf, wsum. induction l as [|x l IH]; cbn; [reflexivity|]. destruct (p x); cbn; rewrite IH; [reflexivity|]. rewrite (wo_zero _ OK). reflexivity. Qed.

(** *** Chains of output segments *)
Variable tw : list (wpair W).
(** Going through [os] from left to right, the winding number goes from [w] to [u]. *)
Fixpoint wchain (w : W) (os : list nat) (u : W) : Prop :=
  match os with [] => w = u | o :: os => exists p, nth_error tw o = Some p /\ wn_cw p = w /\ wchain (wn_ccw p) os u end.
Lemma wchain_app l m : forall w u, wchain w (l ++ m) u <-> exists v, wchain w l v /\ wchain v m u.
Proof.
  induction l as [|o l IH]; intros w u; cbn; [split; [intros H; exists w; auto|intros (v & -> & H); exact H]|]. split.
  - intros (p & H1 & H2 & H3). apply IH in H3. destruct H3 as (v & H3 & H4). exists v. split; [exists p; auto|exact H4].
  - intros (v & (p & H1 & H2 & H3) & H4). exists p. split; [exact H1|]. split; [exact H2|]. apply IH. exists v. auto.
Qed.
Lemma wchain_wlist pre gs : forall w post, tw = pre ++ wlist ops w gs ++ post -> wchain w (seq (length pre) (length gs)) (wend ops w gs).
Proof.
  revert pre. induction gs as [|g gs IH]; intros pre w post E; cbn [seq length wchain wend wlist] in *; [reflexivity|].
  exists (mkWp (w_add ops w g) w). split; [rewrite E, nth_error_app2, Nat.sub_diag by lia; reflexivity|]. split; [reflexivity|]. cbn [wn_ccw].
  replace (S (length pre)) with (length (pre ++ [mkWp (w_add ops w g) w])) by (rewrite app_length; cbn; lia). apply IH with (post := post). rewrite <- app_assoc. exact E.
Qed.

Variable t : topo W.
Hypothesis TW : t_wind t = tw.
Fixpoint hchain (w : W) (hs : list half) (u : W) : Prop :=
  match hs with [] => w = u | h :: hs => winding_ccw t h = Some w /\ exists v, winding_cw t h = Some v /\ hchain v hs u end.
Lemma hchain_app l m : forall w u v, hchain w l v -> hchain v m u -> hchain w (l ++ m) u.
Proof. induction l as [|h l IH]; intros w u v; cbn; [intros ->; auto|]. intros (H1 & x & H2 & H3) H4. split; [exact H1|]. exists x. split; [exact H2|]. eapply IH; eassumption. Qed.
Lemma hchain_seconds os : forall w u, wchain w os u -> hchain w (map second_half os) u.
Proof.
  induction os as [|o os IH]; intros w u; cbn; [auto|]. intros (p & H1 & H2 & H3). unfold winding_ccw, winding_cw. cbn. rewrite TW, H1. cbn. split; [congruence|].
  exists (wn_ccw p). split; [reflexivity|]. apply IH, H3.
Qed.
Lemma hchain_firsts os : forall w u, wchain w os u -> hchain u (rev (map first_half os)) w.
Proof.
  induction os as [|o os IH]; intros w u; cbn; [auto|]. intros (p & H1 & H2 & H3). eapply hchain_app; [apply IH, H3|]. cbn. unfold winding_ccw, winding_cw. cbn. rewrite TW, H1. cbn. split; [reflexivity|].
  exists (wn_cw p). split; [reflexivity|exact H2].
Qed.
Definition agree (q : half * half) : Prop := exists x, winding_cw t (fst q) = Some x /\ winding_ccw t (snd q) = Some x.
Lemma hchain_pairs hs : forall w u v k m, hchain w hs u -> hs <> [] -> winding_ccw t k = Some v -> u = v -> Forall agree (combine hs (tl hs ++ k :: m)).
Proof.
  induction hs as [|h hs IH]; intros w u v k m H N K ->; [contradiction|]. cbn in H. destruct H as (H1 & x & H2 & H3). destruct hs as [|h' hs]; cbn [tl app combine].
  - cbn in H3. subst x. constructor; [|constructor]. exists v. auto.
  - constructor; [exists x; cbn in H3; split; [exact H2|apply H3]|]. apply (IH x v v k m H3); [discriminate|exact K|reflexivity].
Qed.
Lemma hchain_ring w r : hchain w r w -> Forall agree (cyclic r).
Proof.
  intros H. unfold cyclic. destruct r as [|h r]; [constructor|]. cbn [firstn]. apply (hchain_pairs (h :: r) w w w h []); [exact H|discriminate| |reflexivity]. cbn in H. apply H.
Qed.
Lemma ring_agrees w w' u v oin oup odown oout : wchain w oin u -> wchain u oup v -> wchain w odown w' -> wchain w' oout v ->
  Forall agree (cyclic (ring_of oin oup odown oout)).
Proof.
  intros H1 H2 H3 H4. apply (hchain_ring v). unfold ring_of.
  repeat (eapply hchain_app); [apply hchain_firsts, H4|apply hchain_firsts, H3|apply hchain_seconds, H1|apply hchain_seconds, H2].
Qed.
End Group.
Arguments wchain {W}. Arguments agree {W}.

Lemma wchain_grow {W} (tw : list (wpair W)) more os : forall w u, wchain tw w os u -> wchain (tw ++ more) w os u.
Proof.
  induction os as [|o os IH]; intros w u; cbn; [auto|]. intros (p & H1 & H2 & H3). exists p. split; [rewrite nth_error_app1; [exact H1|apply nth_error_Some; congruence]|]. split; [exact H2|]. apply IH, H3.
Qed.
