(** Proofs about scan-line orders: tables and the order of the open output segments. *)
From Coq Require Import List Bool ZArith Arith Lia Permutation Sorted.
From Verif Require Import F64 F64Arith TreeVecModel GeomModel SegmentsModel SegmentsSpec SegmentsProofs CurveOrderModel CurveOrderProofs SweepModel
  RangeModel TopoModel TopoSpec TopoProofs WindProofs2 ScanModel ScanProofs ScanProofs3.
Import ListNotations.

Definition table_ok (y : f64) (raw l : list sentry) : Prop := Permutation raw l /\ StronglySorted hlt l /\ Forall hnum l /\ Forall (fun e => (hkey e <= key y)%Z) l.
Definition fresh (y : f64) (l : list sentry) : Prop := Forall (fun e => (hkey e < key y)%Z) l.
(** From height [y] on, neighbours are as in [cur]. *)
Definition adjacent (Wl El : nat -> list sentry) (cur : list nat) (h : f64) : Prop :=
  forall A o B, cur = A ++ o :: B -> look (Wl o) h = lastof A /\ look (El o) h = hd_error B.

Lemma table_snoc y raw l raw' e : nan y = false -> table_ok y raw l -> fresh y l -> Permutation raw' (raw ++ [e]) -> fst e = y -> table_ok y raw' (l ++ [e]).
Proof.
  intros Ny (P & S & H & B) F PP E. split; [|split; [|split]].
  - rewrite PP, P. reflexivity.
  - apply sorted_app; [exact S|repeat constructor|]. intros x z Hx [<-|[]]. unfold hlt. unfold fresh in F. rewrite Forall_forall in F. unfold hkey at 2. rewrite E. apply F, Hx.
  - apply Forall_app. split; [exact H|]. constructor; [unfold hnum; rewrite E; exact Ny|constructor].
  - apply Forall_app. split; [exact B|]. constructor; [unfold hkey; rewrite E; lia|constructor].
Qed.
Lemma table_same y raw l raw' : table_ok y raw l -> Permutation raw' raw -> table_ok y raw' l.
Proof. intros (P & R) PP. split; [rewrite PP; exact P|exact R]. Qed.
Lemma table_some y o : nan y = false -> table_ok y (some_entry y o) (some_entry y o).
Proof.
  intros Ny. split; [reflexivity|]. destruct o as [x|]; cbn; (split; [repeat constructor|]); split; repeat constructor; [exact Ny|]. unfold hkey. cbn. lia.
Qed.
Lemma look_some y o h : fle y h = true -> look (some_entry y o) h = o.
Proof. intros H. destruct o as [x|]; [|reflexivity]. cbn. unfold look, look_from. cbn. rewrite H. reflexivity. Qed.
Lemma when_not j o e : o <> Some j -> when_is j o e = [].
Proof. intros H. destruct o as [x|]; [|reflexivity]. cbn. unfold on. destruct (Nat.eqb_spec j x); [congruence|reflexivity]. Qed.
Lemma when_yes j e : when_is j (Some j) e = [e].
Proof. cbn. unfold on. rewrite Nat.eqb_refl. reflexivity. Qed.
Lemma when_dec j o e : {o = Some j /\ when_is j o e = [e]} + {o <> Some j /\ when_is j o e = []}.
Proof. destruct o as [x|]; [|right; split; [discriminate|reflexivity]]. destruct (Nat.eq_dec x j) as [->|N]; [left; split; [reflexivity|apply when_yes]|right; split; [congruence|apply when_not; congruence]]. Qed.

Section Step.
Context {W : Type}.
Variables (y : f64) (Lc M D Rc : list nat) (t t' : topo W) (fl fl' : nat -> bool).
Notation N := (length (t_wind t)).
Notation N' := (length (t_wind t')).
Hypothesis Ny : nan y = false.
Hypothesis SS : sstep y Lc D Rc t t'.
Hypothesis FO : forall o, o < N -> fl' o = fl o.
Hypothesis FN : forall o, N <= o < N' -> fl' o = false <-> In o D.
Hypothesis BW : forall o w, o < N -> west1 t o = Some w -> w < o.
Hypothesis BE : forall o w, o < N -> east1 t o = Some w -> w < o.
Hypothesis BA : forall y w e, In (y, w, e) (t_after t) -> (forall o, w = Some o -> o < N) /\ (forall o, e = Some o -> o < N).
Hypothesis ND : NoDup (Lc ++ M ++ Rc).
Variables Wl El : nat -> list sentry.
Hypothesis TW : forall o, o < N -> table_ok y (west_table t fl o) (Wl o).
Hypothesis TE : forall o, o < N -> table_ok y (east_table t fl o) (El o).
Hypothesis AD : forall h, fle y h = true -> adjacent Wl El (Lc ++ M ++ Rc) h.
Hypothesis FW : forall o, hd_error Rc = Some o -> fresh y (Wl o).
Hypothesis FE : forall o, lastof Lc = Some o -> fresh y (El o).

Definition next_w (o : nat) : list sentry := if o <? N then Wl o ++ when_is o (hd_error Rc) (y, lastof (Lc ++ D)) else west_table t' fl' o.
Definition next_e (o : nat) : list sentry := if o <? N then El o ++ when_is o (lastof Lc) (y, hd_error (D ++ Rc)) else east_table t' fl' o.

Lemma next_w_ok o : o < N' -> table_ok y (west_table t' fl' o) (next_w o).
Proof.
  intros L. unfold next_w. destruct (Nat.ltb_spec o N) as [Lo|Lo].
  - pose proof (west_table_old y Lc D Rc t t' fl fl' SS FO FN o Lo) as P. destruct (when_dec o (hd_error Rc) (y, lastof (Lc ++ D))) as [[E Q]|[_ Q]]; rewrite Q in *.
    + eapply table_snoc; [exact Ny|apply TW, Lo|apply FW, E|exact P|reflexivity].
    + rewrite app_nil_r in *. eapply table_same; [apply TW, Lo|exact P].
  - destruct (in_dec Nat.eq_dec o D) as [X|X].
    + apply in_split in X. destruct X as (D1 & D2 & E). rewrite (west_new_down y Lc D Rc t t' fl fl' SS FO FN BW BE BA D1 o D2 E). apply table_some, Ny.
    + rewrite (west_new_flat y Lc D Rc t t' fl fl' SS FO FN BW BE BA o) by (try lia; exact X). apply (table_some y None Ny).
Qed.
Lemma next_e_ok o : o < N' -> table_ok y (east_table t' fl' o) (next_e o).
Proof.
  intros L. unfold next_e. destruct (Nat.ltb_spec o N) as [Lo|Lo].
  - pose proof (east_table_old y Lc D Rc t t' fl fl' SS FO FN BW BE BA o Lo) as P. destruct (when_dec o (lastof Lc) (y, hd_error (D ++ Rc))) as [[E Q]|[_ Q]]; rewrite Q in *.
    + eapply table_snoc; [exact Ny|apply TE, Lo|apply FE, E|exact P|reflexivity].
    + rewrite app_nil_r in *. eapply table_same; [apply TE, Lo|exact P].
  - destruct (in_dec Nat.eq_dec o D) as [X|X].
    + apply in_split in X. destruct X as (D1 & D2 & E). rewrite (east_new_down y Lc D Rc t t' fl fl' SS FO FN BW BE BA D1 o D2 E). apply table_some, Ny.
    + rewrite (east_new_flat y Lc D Rc t t' fl fl' SS FO FN BW BE BA o) by (try lia; exact X). apply (table_some y None Ny).
Qed.
(** Entries are old ones, or are at [y] and belong to a segment that has been created there, or that is next to the range. *)
Lemma next_rows o e : o < N' -> In e (next_w o) \/ In e (next_e o) ->
  (o < N /\ (In e (Wl o) \/ In e (El o))) \/ (hkey e = key y /\ (In o D \/ hd_error Rc = Some o \/ lastof Lc = Some o)).
Proof.
  intros L H. destruct (Nat.ltb_spec o N) as [Lo|Lo].
  - unfold next_w, next_e in H. rewrite (proj2 (Nat.ltb_lt o N) Lo) in H. rewrite !in_app_iff in H. destruct H as [[H|H]|[H|H]]; [left; auto| |left; auto|].
    + destruct (when_dec o (hd_error Rc) (y, lastof (Lc ++ D))) as [[E Q]|[_ Q]]; rewrite Q in H; [|destruct H]. destruct H as [<-|[]]. right. split; [reflexivity|]. right. left. exact E.
    + destruct (when_dec o (lastof Lc) (y, hd_error (D ++ Rc))) as [[E Q]|[_ Q]]; rewrite Q in H; [|destruct H]. destruct H as [<-|[]]. right. split; [reflexivity|]. right. right. exact E.
  - unfold next_w, next_e in H. rewrite (proj2 (Nat.ltb_ge o N) Lo) in H. right. destruct (in_dec Nat.eq_dec o D) as [X|X].
    + split; [|left; exact X]. apply in_split in X. destruct X as (D1 & D2 & E). rewrite (west_new_down y Lc D Rc t t' fl fl' SS FO FN BW BE BA D1 o D2 E), (east_new_down y Lc D Rc t t' fl fl' SS FO FN BW BE BA D1 o D2 E) in H.
      destruct H as [H|H]; unfold some_entry in H; [destruct (lastof (Lc ++ D1))|destruct (hd_error (D2 ++ Rc))]; cbn in H; intuition (subst; reflexivity).
    + exfalso. rewrite (west_new_flat y Lc D Rc t t' fl fl' SS FO FN BW BE BA o), (east_new_flat y Lc D Rc t t' fl fl' SS FO FN BW BE BA o) in H by (try lia; exact X). destruct H as [[]|[]].
Qed.
(** Answers above [y] stay. *)
Lemma next_w_above o h : o < N -> flt h y = true -> look (next_w o) h = look (Wl o) h.
Proof.
  intros L H. destruct (flt_nonnan _ _ H) as [Nh _]. unfold next_w. destruct (Nat.ltb_spec o N); [|lia]. destruct (when_dec o (hd_error Rc) (y, lastof (Lc ++ D))) as [[_ Q]|[_ Q]]; rewrite Q; [|rewrite app_nil_r; reflexivity].
  rewrite look_snoc. cbn [fst]. assert (X : fle y h = false) by (fk; zb; lia). rewrite X. reflexivity.
Qed.
Lemma next_e_above o h : o < N -> flt h y = true -> look (next_e o) h = look (El o) h.
Proof.
  intros L H. destruct (flt_nonnan _ _ H) as [Nh _]. unfold next_e. destruct (Nat.ltb_spec o N); [|lia]. destruct (when_dec o (lastof Lc) (y, hd_error (D ++ Rc))) as [[_ Q]|[_ Q]]; rewrite Q; [|rewrite app_nil_r; reflexivity].
  rewrite look_snoc. cbn [fst]. assert (X : fle y h = false) by (fk; zb; lia). rewrite X. reflexivity.
Qed.
Lemma hd_not_left o : In o Lc -> hd_error Rc <> Some o.
Proof. intros H E. apply hd_in in E. apply nodup_app in ND. destruct ND as (_ & _ & X). apply (X o H). apply in_or_app. right. exact E. Qed.
Lemma last_not_right o : In o Rc -> lastof Lc <> Some o.
Proof. intros H E. apply lastof_in in E. apply nodup_app in ND. destruct ND as (_ & _ & X). apply (X o E). apply in_or_app. right. exact H. Qed.
Lemma next_adjacent h : fle y h = true -> adjacent next_w next_e (Lc ++ D ++ Rc) h.
Proof.
  intros H A o B E. specialize (AD h H). apply app_split in E. destruct E as [(Z & E & ->)|(X & -> & E)]; [|apply app_split in E; destruct E as [(Z & E & ->)|(Y & -> & E)]].
  - assert (Lo : o < N) by (apply (ss_old _ _ _ _ _ _ SS); left; rewrite E; apply in_or_app; right; left; reflexivity). unfold next_w, next_e. destruct (Nat.ltb_spec o N); [|lia].
    destruct (AD A o (Z ++ M ++ Rc)) as [A1 A2]. { rewrite E, <- app_assoc. reflexivity. }
    split.
    + rewrite when_not by (apply hd_not_left; rewrite E; apply in_or_app; right; left; reflexivity). rewrite app_nil_r. exact A1.
    + destruct Z as [|z Z].
      * rewrite E, lastof_snoc, when_yes, look_snoc. cbn [fst snd app]. rewrite H. reflexivity.
      * rewrite when_not; [rewrite app_nil_r; exact A2|]. rewrite E. change (A ++ o :: z :: Z) with (A ++ [o] ++ z :: Z). rewrite app_assoc, lastof_app. destruct (lastof (z :: Z)) as [u|] eqn:Q; [|apply lastof_none in Q; discriminate]. cbn.
        intros V. injection V as ->. apply lastof_in in Q. apply nodup_app in ND. destruct ND as (NL & _). rewrite E in NL. apply NoDup_remove_2 in NL. apply NL. apply in_or_app. right. exact Q.
  - assert (Hd : In o D) by (rewrite E; apply in_or_app; right; left; reflexivity). pose proof (ss_D _ _ _ _ _ _ SS o Hd) as Ld. unfold next_w, next_e. destruct (Nat.ltb_spec o N); [lia|].
    rewrite (west_new_down y Lc D Rc t t' fl fl' SS FO FN BW BE BA X o Z E), (east_new_down y Lc D Rc t t' fl fl' SS FO FN BW BE BA X o Z E), !look_some by exact H. auto.
  - assert (Lo : o < N) by (apply (ss_old _ _ _ _ _ _ SS); right; rewrite E; apply in_or_app; right; left; reflexivity). unfold next_w, next_e. destruct (Nat.ltb_spec o N); [|lia].
    destruct (AD (Lc ++ M ++ Y) o B) as [A1 A2]. { rewrite E, <- !app_assoc. reflexivity. }
    split.
    + destruct Y as [|z Y].
      * rewrite E. cbn [hd_error app]. rewrite when_yes, look_snoc. cbn [fst snd]. rewrite H. rewrite app_nil_r. reflexivity.
      * rewrite when_not.
        -- rewrite app_nil_r, A1, !lastof_app. destruct (lastof (z :: Y)) eqn:Q; [reflexivity|]. apply lastof_none in Q. discriminate.
        -- rewrite E. cbn. intros V. injection V as ->. apply nodup_app in ND. destruct ND as (_ & NR & _). apply nodup_app in NR. destruct NR as (_ & NR & _). rewrite E in NR. cbn in NR. inversion NR as [|? ? NI _]; subst. apply NI. apply in_or_app. right. left. reflexivity.
    + rewrite when_not by (apply last_not_right; rewrite E; apply in_or_app; right; left; reflexivity). rewrite app_nil_r. exact A2.
Qed.
(** Freshness to the right. *)
Lemma next_fresh_e o : In o Rc -> fresh y (El o) -> fresh y (next_e o).
Proof.
  intros H F. assert (Lo : o < N) by (apply (ss_old _ _ _ _ _ _ SS); right; exact H). unfold next_e. destruct (Nat.ltb_spec o N); [|lia]. rewrite when_not by (apply last_not_right, H). rewrite app_nil_r. exact F.
Qed.
Lemma next_fresh_w o : In o (tl Rc) -> fresh y (Wl o) -> fresh y (next_w o).
Proof.
  intros H F. assert (HR : In o Rc) by (destruct Rc; [destruct H|right; exact H]). assert (Lo : o < N) by (apply (ss_old _ _ _ _ _ _ SS); right; exact HR). unfold next_w. destruct (Nat.ltb_spec o N); [|lia].
  rewrite when_not; [rewrite app_nil_r; exact F|]. apply nodup_app in ND. destruct ND as (_ & NR & _). apply nodup_app in NR. destruct NR as (_ & NR & _). clear - H NR. destruct Rc as [|x R]; [destruct H|]. cbn in *. intros E. injection E as ->. inversion NR; contradiction.
Qed.
Lemma next_nodup : NoDup (Lc ++ D ++ Rc).
Proof.
  pose proof ND as NN. apply nodup_app in NN. destruct NN as (N1 & N2 & N3). apply nodup_app in N2. destruct N2 as (_ & N4 & _). apply nodup_app. split; [exact N1|]. split.
  - apply nodup_app. split; [eapply nodup_D, SS|]. split; [exact N4|]. intros x Hx Hr. apply (ss_D _ _ _ _ _ _ SS) in Hx. assert (x < N) by (apply (ss_old _ _ _ _ _ _ SS); right; exact Hr). lia.
  - intros x Hx Hr. apply in_app_iff in Hr. destruct Hr as [Hr|Hr]; [|apply (N3 x Hx); apply in_or_app; right; exact Hr]. apply (ss_D _ _ _ _ _ _ SS) in Hr. assert (x < N) by (apply (ss_old _ _ _ _ _ _ SS); left; exact Hx). lia.
Qed.
End Step.
