(** Proofs about contours: walking along one. *)
From Coq Require Import List Bool ZArith Arith Lia Permutation.
From Verif Require RangeProofs3.
From Verif Require Import F64 TreeVecModel SegmentsModel SegmentsProofs SweepModel TopoModel TopoSpec TopoProofs TopoProofs2 TopoProofs7 TopoProofs10 ContoursModel ContoursSpec ContoursProofs.
Import ListNotations.

Lemma upd_spec' {A} (l : list A) i x l' : upd l i x = Some l' ->
  length l' = length l /\ nth_error l' i = Some x /\ forall j, j <> i -> nth_error l' j = nth_error l j.
Proof.
  intros H. apply upd_spec in H as (_ & L & G). split; [exact L|]. split; [rewrite G, Nat.eqb_refl; reflexivity|].
  intros j N. rewrite G. apply Nat.eqb_neq in N. rewrite N. reflexivity.
Qed.

Section Walk.
Context {W : Type}.
Variable t : topo W.
Variable inside : W -> bool.
Hypothesis WF : well_formed t.
Notation n := (length (t_wind t)).
Notation bend := (bend t inside).
Notation after := (after t inside).

Inductive trail : nat -> list half -> nat -> Prop :=
| tr_nil p : trail p [] p
| tr_cons p q r h l : pt t (other_half h) = Some p -> pt t h = Some q -> trail q l r -> trail p (h :: l) r.
Lemma trail_app p l q m r : trail p l q -> trail q m r -> trail p (l ++ m) r.
Proof. induction 1; intros; [assumption|]. cbn. econstructor; eauto. Qed.
Lemma trail_split l : forall p m r, trail p (l ++ m) r -> exists q, trail p l q /\ trail q m r.
Proof.
  induction l as [|h l IH]; intros p m r H; [exists p; split; [constructor | exact H]|].
  cbn in H. inversion_clear H as [|? q ? ? ? A B C]. destruct (IH _ _ _ C) as (x & X & Y). exists x. split; [econstructor; eauto | exact Y].
Qed.
Lemma trail_hd p h l r : trail p (h :: l) r -> pt t (other_half h) = Some p.
Proof. inversion 1; assumption. Qed.
Lemma trail_closed p l : l <> [] -> trail p l p -> closed_walk t l.
Proof.
  intros N H. split; [exact N|]. destruct l as [|h l]; [congruence|]. rewrite cyclic_cons.
  apply trail_hd in H as HH.
  assert (G : forall l h q r, trail q (h :: l) r -> pt t (other_half h) = Some q -> 
    forall z, pt t (other_half z) = Some r ->
    Forall (fun hk => exists p, pt t (fst hk) = Some p /\ pt t (other_half (snd hk)) = Some p) (pairs (h :: l ++ [z]))).
  { clear. induction l as [|k l IH]; intros h q r H A z Z.
    - inversion_clear H as [|? q' ? ? ? _ B C]. inversion C; subst. cbn. constructor; [|constructor]. cbn. eauto.
    - inversion_clear H as [|? q' ? ? ? _ B C]. cbn [app]. rewrite pairs_cons. constructor; [|eapply IH; [exact C | eapply trail_hd; exact C | exact Z]].
      cbn. apply trail_hd in C. eauto. }
  eapply G; eauto.
Qed.

Lemma present_pt h : present t h -> exists p, pt t h = Some p /\ p < length (t_points t).
Proof.
  intros P. destruct (wf_rings _ WF) as (R & [RP RN RA RT RL] & _).
  pose proof P as I. apply RA, in_concat in I as (r & Hr & Hh). apply In_nth_error in Hr as (p & Hr). exists p. split; [eapply RT; eassumption|].
  rewrite <- RP. apply nth_error_Some. congruence.
Qed.
Lemma point_idx_ok h p : pt t h = Some p -> point_idx t h = Ok p.
Proof. unfold pt, point_idx. destruct (hv_get (t_pidx t) h) as [o|]; [|discriminate]. intros ->. reflexivity. Qed.
Lemma present_other h : present t h -> present t (other_half h).
Proof. intros H. exact H. Qed.

Lemma bends_bound l : NoDup l -> Forall bend l -> length l <= n.
Proof.
  intros N F. rewrite <- (map_length h_idx). rewrite <- (seq_length n 0). apply NoDup_incl_length.
  - rewrite Forall_forall in F. clear - N F. induction N as [|h l NI N IH]; [constructor|]. cbn. constructor.
    + intros I. apply in_map_iff in I as (k & E & I). assert (k = h) as -> by (eapply bend_uniq; [apply F; right; exact I | apply F; left; reflexivity | exact E]). contradiction.
    + apply IH. intros x I. apply F. right. exact I.
  - intros o I. apply in_map_iff in I as (h & <- & I). rewrite Forall_forall in F. apply in_seq. split; [lia|]. cbn. apply (present_lt t WF), F, I.
Qed.

Lemma assign_spec l c : forall v, (forall h, In h l -> h_idx h < length v) -> exists v', assign_contour l c v = Ok v' /\ length v' = length v /\
  (forall h, In h l -> nth_error v' (h_idx h) = Some (Some c)) /\
  (forall o, (forall h, In h l -> h_idx h <> o) -> nth_error v' o = nth_error v o).
Proof.
  induction l as [|h l IH]; intros v V.
  - exists v. split; [reflexivity|]. split; [reflexivity|]. split; [intros h []|]. reflexivity.
  - cbn [assign_contour]. destruct (upd_in_range v (h_idx h) (Some c)) as (v1 & E); [apply V; left; reflexivity|]. rewrite E. cbn [orerr rbind].
    apply upd_spec' in E as (L & G & O).
    destruct (IH v1) as (v' & E' & L' & G' & O'). { intros k I. rewrite L. apply V. right. exact I. }
    exists v'. split; [exact E'|]. split; [congruence|]. split.
    + intros k [<-|I]; [|apply G', I].
      destruct (in_dec Nat.eq_dec (h_idx h) (map h_idx l)) as [X|X].
      * apply in_map_iff in X as (k & Ek & I). rewrite <- Ek. apply G', I.
      * rewrite O'; [exact G|]. intros k I Ek. apply X. apply in_map_iff. eauto.
    + intros o NO. rewrite O'; [apply O; intros ->; apply (NO h); [left|]; reflexivity|]. intros k I. apply NO. right. exact I.
Qed.

Record winv (start : half) (base : list contour) (c : contour) (D0 P : list half) (next : half) (segs : list half) (loops : list contour) (st : cstate) : Prop := {
  wi_cs : cs_contours st = base ++ c :: loops;
  wi_perm : Permutation P (concat (map c_segs loops) ++ segs);
  wi_nodup : NoDup (D0 ++ P ++ [next]);
  wi_bend : Forall bend (P ++ [next]);
  wi_chain : Forall (fun p => after (fst p) (other_half (snd p))) (pairs (P ++ [next]));
  wi_hd : hd_error (P ++ [next]) = Some (other_half start);
  wi_trail : exists p0 q, pt t start = Some p0 /\ trail p0 segs q /\ pt t (other_half next) = Some q;
  wi_loops : Forall (fun l => c_parent l = Some (length base) /\ c_outer l = negb (c_outer c) /\ c_segs l <> [] /\ exists p, trail p (c_segs l) p /\ visits_once t (c_segs l)) loops;
  wi_vlen : length (cs_visited st) = n;
  wi_vis : forall o, nth_error (cs_visited st) o = Some true <-> exists h, In h (D0 ++ P) /\ h_idx h = o;
  wi_slen : length (cs_seg st) = n;
  wi_seg : forall h, In h (D0 ++ concat (map c_segs loops)) -> exists ci, nth_error (cs_seg st) (h_idx h) = Some (Some ci) /\ ci < length (cs_contours st);
  wi_last : length (cs_last st) = length (t_points t);
  wi_mark : forall i h, nth_error (segs ++ [next]) i = Some h -> exists p, pt t (other_half h) = Some p /\ nth_error (cs_last st) p = Some (Some i) }.

Record wend (start : half) (base : list contour) (c : contour) (D0 P : list half) (segs : list half) (loops : list contour) (st : cstate) : Prop := {
  we_cs : cs_contours st = base ++ c :: loops;
  we_perm : Permutation P (concat (map c_segs loops) ++ segs);
  we_nodup : NoDup (D0 ++ P);
  we_bend : Forall bend P;
  we_start : In (other_half start) P;
  we_pred : forall h, In h P -> exists k, In k P /\ after k (other_half h);
  we_trail : segs <> [] /\ exists p, trail p segs p /\ visits_once t segs;
  we_loops : Forall (fun l => c_parent l = Some (length base) /\ c_outer l = negb (c_outer c) /\ c_segs l <> [] /\ exists p, trail p (c_segs l) p /\ visits_once t (c_segs l)) loops;
  we_vlen : length (cs_visited st) = n;
  we_vis : forall o, nth_error (cs_visited st) o = Some true <-> exists h, In h (D0 ++ P) /\ h_idx h = o;
  we_slen : length (cs_seg st) = n;
  we_seg : forall h, In h (D0 ++ concat (map c_segs loops)) -> exists ci, nth_error (cs_seg st) (h_idx h) = Some (Some ci) /\ ci < length (cs_contours st);
  we_last : length (cs_last st) = length (t_points t) }.

(** In a chain, everything but the first element has a predecessor. *)
Lemma chain_pred (R : half -> half -> Prop) l : Forall (fun p => R (fst p) (snd p)) (pairs l) -> forall h, In h l -> hd_error l = Some h \/ exists k, In k l /\ R k h.
Proof.
  induction l as [|x l IH]; intros F h I; [destruct I|]. destruct I as [<-|I]; [left; reflexivity|].
  right. destruct l as [|y l]; [destruct I|]. rewrite pairs_cons in F. inversion_clear F as [|? ? A B].
  destruct (IH B h I) as [H|(k & K & H)].
  - cbn in H. injection H as ->. exists x. split; [left; reflexivity | exact A].
  - exists k. split; [right; exact K | exact H].
Qed.

Lemma marks_once (last : list (option nat)) l : (forall i h, nth_error l i = Some h -> exists p, pt t (other_half h) = Some p /\ nth_error last p = Some (Some i)) -> visits_once t l.
Proof.
  intros H. apply NoDup_nth_error. intros i j L E. rewrite map_length in L.
  destruct (nth_error l i) as [h|] eqn:Ei; [|apply nth_error_None in Ei; lia]. destruct (H i h Ei) as (p & P & Q).
  rewrite !nth_error_map', Ei in E. cbn [option_map] in E. destruct (nth_error l j) as [k|] eqn:Ej; [|discriminate E]. cbn [option_map] in E.
  destruct (H j k Ej) as (p' & P' & Q'). congruence.
Qed.
Lemma once_skipn i l : visits_once t l -> visits_once t (skipn i l).
Proof. unfold visits_once. rewrite <- skipn_map. intros N. rewrite <- (firstn_skipn i (map _ l)) in N. apply nodup_app in N. tauto. Qed.

Lemma walk_spec fuel : forall start base c D0 P next segs loops st,
  winv start base c D0 P next segs loops st -> n < fuel + length P ->
  (forall h, In h D0 -> bend h) -> (forall h, In h D0 -> exists k, In k D0 /\ after k (other_half h)) ->
  exists P' segs' loops' st', walk t inside fuel (length base) start next segs st = Ok (segs', st') /\ wend start base c D0 P' segs' loops' st'.
Proof.
  induction fuel as [|fuel IH]; intros start base c D0 P next segs loops st I FU DB DP; pose proof I as [CS PE ND BE CH HD TR LO VL VI SL SE LA MK].
  - exfalso. assert (length (P ++ [next]) <= n) as X. { apply bends_bound; [apply nodup_app in ND as (_ & N & _); exact N | exact BE]. }
    rewrite app_length in X. cbn in X. lia.
  - cbn [walk].
    assert (BN : bend next). { rewrite Forall_forall in BE. apply BE, in_or_app. right. left. reflexivity. }
    pose proof BN as (PN & AN & AN').
    assert (LN : h_idx next < n) by (apply (present_lt t WF), PN).
    destruct (upd_in_range (cs_visited st) (h_idx next) true) as (vis & EV); [rewrite VL; exact LN|]. rewrite EV. cbn [orerr rbind].
    apply upd_spec' in EV as (VL' & VG & VO).
    rewrite (in_cw_ok t inside next LN), (in_ccw_ok t inside next LN). cbn [rbind]. rewrite AN, AN'. cbn [negb orb].
    destruct (turn_spec t inside WF next BN) as (y & k & CY & LY & IY & TU & AF & BK & LK).
    unfold cw in CY. destruct (hv_get (t_nbrs t) next) as [nb|] eqn:EN; [|discriminate]. cbn [option_map] in CY. injection CY as CY.
    cbn [orerr rbind]. rewrite CY. rewrite (in_ccw_ok t inside y LY). cbn [rbind]. rewrite IY. cbn [negb].
    rewrite TU. cbn [rbind cs_contours cs_seg cs_visited cs_last].
    set (st1 := mkCs (cs_contours st) (cs_seg st) vis (cs_last st)).
    assert (VI' : forall o, nth_error vis o = Some true <-> exists h, In h (D0 ++ P ++ [next]) /\ h_idx h = o).
    { intros o. destruct (Nat.eq_dec o (h_idx next)) as [->|N].
      - split; [|intros _; exact VG]. intros _. exists next. split; [|reflexivity]. apply in_or_app; right; apply in_or_app; right; left; reflexivity.
      - rewrite (VO o N), VI. split; intros (h & Hh & E); exists h; split; auto.
        + rewrite !in_app_iff in *. tauto.
        + rewrite !in_app_iff in *. cbn in Hh. destruct Hh as [Hh|[Hh|[->|[]]]]; [tauto..|]. congruence. }
    destruct TR as (p0 & q & PS & TR & QN).
    destruct (after_pt t inside _ _ AF) as (p & PNX & PK).
    assert (TR' : trail p0 (segs ++ [next]) p). { eapply trail_app; [exact TR|]. econstructor; [exact QN | exact PNX | constructor]. }
    destruct (half_eqb k start) eqn:EK.
    + apply half_eqb_spec in EK. subst k. exists (P ++ [next]), (segs ++ [next]), loops, st1. split; [reflexivity|].
      assert (p0 = p) by congruence. subst p0.
      constructor; cbn [cs_contours cs_seg cs_visited cs_last st1]; auto.
      * rewrite PE, <- app_assoc. reflexivity.
      * destruct (P ++ [next]) as [|x l] eqn:EP; [destruct P; discriminate EP|]. cbn in HD. injection HD as ->. left. reflexivity.
      * intros h Hh. destruct (chain_pred (fun a b => after a (other_half b)) _ CH h Hh) as [X|X]; [|exact X].
        assert (h = other_half start) as -> by congruence. exists next. split; [apply in_or_app; right; left; reflexivity|]. rewrite other_other. exact AF.
      * split; [intros X; apply app_eq_nil in X as (_ & X); discriminate X|]. exists p. split; [exact TR'|]. eapply marks_once, MK.
      * congruence.
    + rewrite (point_idx_ok k p PK). cbn [rbind].
      assert (p < length (t_points t)) as LP. { destruct (present_pt next PN) as (p' & A & B). congruence. }
      assert (CH' : Forall (fun p => after (fst p) (other_half (snd p))) (pairs ((P ++ [next]) ++ [other_half k]))).
      { rewrite <- app_assoc. cbn [app]. rewrite pairs_snoc. apply Forall_app. split; [exact CH|]. constructor; [|constructor]. cbn [fst snd]. rewrite other_other. exact AF. }
      assert (ND' : NoDup (D0 ++ (P ++ [next]) ++ [other_half k])).
      { rewrite app_assoc. apply nodup_app. split; [exact ND|]. split; [constructor; [intros []|constructor]|].
        intros x Hx [<-|[]]. apply in_app_iff in Hx as [Hx|Hx].
        - destruct (DP _ Hx) as (j & Hj & Aj). rewrite other_other in Aj.
          assert (j = next) as -> by (apply (after_inj t inside j next k); auto).
          apply nodup_app in ND as (_ & _ & X). apply (X next Hj). apply in_or_app. right. left. reflexivity.
        - destruct (chain_pred (fun a b => after a (other_half b)) _ CH _ Hx) as [X|(j & Hj & Aj)].
          + assert (other_half start = other_half k) as X0 by congruence. clear X. rename X0 into X. apply (f_equal other_half) in X. rewrite !other_other in X. subst k. rewrite half_eqb_refl in EK. discriminate EK.
          + rewrite other_other in Aj. rewrite Forall_forall in BE. assert (j = next) as -> by (apply (after_inj t inside j next k); auto).
            clear Hj Aj. (* other_half k occurs in the chain at a position after next, which is the last *)
            apply nodup_app in ND as (_ & ND & _). rewrite Forall_forall in CH.
            assert (G : forall l, NoDup (l ++ [next]) -> (forall q, In q (pairs (l ++ [next])) -> after (fst q) (other_half (snd q))) -> (forall z, In z (l ++ [next]) -> bend z) ->
               In (other_half k) (l ++ [next]) -> hd_error (l ++ [next]) = Some (other_half k)).
            { clear - AF WF. intros l. induction l as [|x l IH]; intros ND CH BE I.
              - destruct I as [I|[]]. cbn. congruence.
              - cbn [app] in I. destruct I as [I|I]; [cbn; congruence|]. exfalso.
                cbn [app] in *. inversion ND as [|? ? NI ND']; subst.
                assert (hd_error (l ++ [next]) = Some (other_half k)) as HK.
                { apply IH; auto; [|intros z Hz; apply BE; right; exact Hz]. intros q Hq. apply CH. destruct (l ++ [next]) as [|z m]; [destruct Hq|]. rewrite pairs_cons. right. exact Hq. }
                destruct (l ++ [next]) as [|z m] eqn:EL; [discriminate HK|]. cbn in HK. injection HK as ->.
                assert (after x (other_half (other_half k))) as AX by (apply (CH (x, other_half k)); left; reflexivity).
                rewrite other_other in AX. assert (x = next) as ->.
                { apply (after_inj t inside x next k); auto; apply BE.
                  - left; reflexivity.
                  - right. rewrite <- EL. apply in_or_app. right. left. reflexivity. }
                apply NI. rewrite <- EL. apply in_or_app. right. left. reflexivity. }
            specialize (G P ND CH BE Hx). assert (other_half start = other_half k) as X0 by congruence. clear G. rename X0 into G. apply (f_equal other_half) in G. rewrite !other_other in G. subst k. rewrite half_eqb_refl in EK. discriminate EK. }
      assert (HD' : hd_error ((P ++ [next]) ++ [other_half k]) = Some (other_half start)).
      { destruct (P ++ [next]) as [|x l] eqn:EP; [destruct P; discriminate EP|]. exact HD. }
      assert (BE' : Forall bend ((P ++ [next]) ++ [other_half k])). { apply Forall_app. split; [exact BE|]. constructor; [exact BK|constructor]. }
      unfold recent. destruct (nth_error (cs_last st) p) as [lv|] eqn:EL; [|apply nth_error_None in EL; lia].
      cbn [orerr rbind].
      (* the loop is cut off or not *)
      assert (CASES : (match lv with None => Ok None | Some i => match nth_error (segs ++ [next]) i with None => Ok None
            | Some h => do! q := point_idx t (other_half h) in Ok (if q =? p then Some i else None) end end = Ok None) \/
         exists i h, lv = Some i /\ nth_error (segs ++ [next]) i = Some h /\ pt t (other_half h) = Some p /\
           (match lv with None => Ok None | Some i => match nth_error (segs ++ [next]) i with None => Ok None
            | Some h => do! q := point_idx t (other_half h) in Ok (if q =? p then Some i else None) end end = Ok (Some i))).
      { destruct lv as [i|]; [|left; reflexivity]. destruct (nth_error (segs ++ [next]) i) as [h|] eqn:EH; [|left; reflexivity].
        assert (present t h) as PH.
        { apply nth_error_In in EH. rewrite Forall_forall in BE. apply in_app_iff in EH as [EH|[<-|[]]]; [|exact PN].
          assert (In h P) as X. { apply (Permutation_in _ (Permutation_sym PE)). apply in_or_app. right. exact EH. }
          apply (BE h). apply in_or_app. left. exact X. }
        destruct (present_pt _ (present_other h PH)) as (q' & Q1 & _). rewrite (point_idx_ok _ _ Q1). cbn [rbind].
        destruct (Nat.eqb_spec q' p) as [->|N]; [right; exists i, h; auto | left; reflexivity]. }
      destruct CASES as [NONE|(i & h & -> & EH & PH & ->)]; [rewrite NONE|]; cbn [rbind].
      * destruct (upd_in_range (cs_last st1) p (Some (length (segs ++ [next])))) as (la & ELA); [cbn; rewrite LA; exact LP|]. cbn [cs_last st1] in ELA. cbn [cs_last st1]. rewrite ELA. cbn [orerr rbind].
        apply upd_spec' in ELA as (LA' & LAG & LAO).
        apply (IH start base c D0 (P ++ [next]) (other_half k) (segs ++ [next]) loops); auto; [|rewrite app_length; cbn; lia].
        constructor; cbn [cs_contours cs_seg cs_visited cs_last st1]; auto; try congruence.
        -- rewrite PE, <- app_assoc. reflexivity.
        -- exists p0, p. rewrite other_other. auto.
        -- intros i h Eh. destruct (Nat.lt_ge_cases i (length (segs ++ [next]))) as [L|L].
           ++ rewrite nth_error_app1 in Eh by exact L. destruct (MK i h Eh) as (p1 & P1 & Q1). exists p1. split; [exact P1|]. rewrite LAO; [exact Q1|].
              intros ->. assert (lv = Some i) by congruence. subst lv. rewrite Eh, (point_idx_ok _ _ P1) in NONE. cbn [rbind] in NONE. rewrite Nat.eqb_refl in NONE. discriminate NONE.
           ++ rewrite nth_error_app2 in Eh by exact L. destruct (i - length (segs ++ [next])) as [|j] eqn:J; [|destruct j; discriminate Eh]. cbn in Eh. injection Eh as <-.
              exists p. rewrite other_other. split; [exact PK|]. rewrite LAG. do 2 f_equal. lia.
      * assert (IN : forall x, In x (segs ++ [next]) -> In x (P ++ [next])).
        { intros x Hx. rewrite in_app_iff in *. destruct Hx as [Hx|Hx]; [left|right; exact Hx]. apply (Permutation_in _ (Permutation_sym PE)). apply in_or_app. right. exact Hx. }
        destruct (assign_spec (skipn i (segs ++ [next])) (length (cs_contours st)) (cs_seg st)) as (v & EA & LV & GA & OA).
        { intros x Hx. rewrite SL. apply (present_lt t WF). rewrite Forall_forall in BE. apply BE, IN.
          rewrite <- (firstn_skipn i (segs ++ [next])). apply in_or_app. right. exact Hx. }
        cbn [cs_contours cs_seg cs_visited cs_last st1]. rewrite EA. cbn [rbind].
        rewrite CS. rewrite nth_error_app2, Nat.sub_diag by lia. cbn [nth_error orerr rbind].
        rewrite <- CS.
        assert (LI : i < length (segs ++ [next])) by (apply nth_error_Some; congruence).
        rewrite <- (firstn_skipn i (segs ++ [next])) in TR'. apply trail_split in TR' as (q' & T1 & T2).
        assert (exists tl, skipn i (segs ++ [next]) = h :: tl) as (tl & ES).
        { clear - EH. revert i EH. induction (segs ++ [next]) as [|x l IH]; intros [|i] H; try discriminate H; cbn in *; [injection H as ->; eauto | eauto]. }
        assert (q' = p). { rewrite ES in T2. apply trail_hd in T2. congruence. } subst q'.
        apply (IH start base c D0 (P ++ [next]) (other_half k) (firstn i (segs ++ [next])) (loops ++ [mkContour (skipn i (segs ++ [next])) (Some (length base)) (negb (c_outer c))])); auto; [|rewrite app_length; cbn; lia].
        constructor; cbn [cs_contours cs_seg cs_visited cs_last]; auto; try congruence.
        -- rewrite CS, <- app_assoc. reflexivity.
        -- rewrite map_app, concat_app. cbn [map concat c_segs]. rewrite app_nil_r, <- app_assoc.
           rewrite PE, <- app_assoc. apply Permutation_app_head.
           rewrite <- (firstn_skipn i (segs ++ [next])) at 1. apply Permutation_app_comm.
        -- exists p0, p. rewrite other_other. auto.
        -- apply Forall_app. split; [exact LO|]. constructor; [|constructor]. cbn [c_parent c_outer c_segs]. split; [reflexivity|]. split; [reflexivity|].
           split; [rewrite ES; discriminate|]. exists p. split; [exact T2|]. apply once_skipn. eapply marks_once, MK.
        -- intros x Hx. rewrite map_app, concat_app in Hx. cbn [map concat c_segs] in Hx. rewrite app_nil_r in Hx. rewrite app_assoc in Hx. rewrite app_length. cbn [length].
           destruct (in_dec half_dec x (skipn i (segs ++ [next]))) as [Q|Q].
           ++ exists (length (cs_contours st)). split; [apply GA, Q | lia].
           ++ apply in_app_iff in Hx as [Hx|Hx]; [|contradiction]. destruct (SE x Hx) as (ci & E1 & E2). exists ci. split; [|lia].
              rewrite OA; [exact E1|]. intros z Hz E. apply Q.
              assert (bend z). { rewrite Forall_forall in BE. apply BE, IN. rewrite <- (firstn_skipn i (segs ++ [next])). apply in_or_app. right. exact Hz. }
              assert (bend x). { apply in_app_iff in Hx as [Hx|Hx]; [apply DB, Hx|]. rewrite Forall_forall in BE. apply BE. apply in_or_app. left. apply (Permutation_in _ (Permutation_sym PE)). apply in_or_app. left. exact Hx. }
              assert (x = z) as -> by (apply (bend_uniq t inside); auto). exact Hz.
        -- intros j g Ej. destruct (Nat.lt_ge_cases j i) as [L|L].
           ++ apply MK. rewrite nth_error_app1 in Ej by (rewrite firstn_length; lia). rewrite RangeProofs3.nth_error_firstn in Ej by exact L. exact Ej.
           ++ rewrite nth_error_app2, firstn_length in Ej by (rewrite firstn_length; lia). replace (min i (length (segs ++ [next]))) with i in Ej by lia.
              destruct (j - i) as [|d] eqn:J; [|destruct d; discriminate Ej]. cbn in Ej. injection Ej as <-.
              exists p. rewrite other_other. split; [exact PK|]. rewrite EL. do 2 f_equal. lia.
Qed.
End Walk.
