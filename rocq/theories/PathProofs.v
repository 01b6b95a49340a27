(** Proofs about drawing contours. *)
From Coq Require Import List Bool Sorted ZArith Arith Lia.
From Verif Require Import F64 F64Arith TreeVecModel GeomModel SegmentsModel CurveOrderModel CurveOrderProofs SweepModel SweepSpec TopoModel TopoSpec PosModel PosSpec PosProofs3 PathModel PathSpec.
Import ListNotations.

Lemma half_eqb_eq h k : half_eqb h k = true <-> h = k.
Proof.
  unfold half_eqb. rewrite andb_true_iff, Nat.eqb_eq, Bool.eqb_true_iff. destruct h, k; cbn. split; [intros [-> ->]; reflexivity|intro E; injection E; auto].
Qed.
Lemma other_other h : other_half (other_half h) = h.
Proof. destruct h as [i b]. unfold other_half. cbn. rewrite negb_involutive. reflexivity. Qed.
Lemma other_idx h : h_idx (other_half h) = h_idx h.
Proof. reflexivity. Qed.
Lemma sorted_snoc {A} (R : A -> A -> Prop) l k : Sorted R l -> (forall x, last_opt l = Some x -> R x k) -> Sorted R (l ++ [k]).
Proof.
  induction l as [|x l IH]; intros S L; [repeat constructor|]. cbn [app]. inversion S; subst. constructor.
  - apply IH; [assumption|]. intros y Hy. apply L. destruct l; [discriminate Hy|exact Hy].
  - destruct l as [|y l]; cbn [app]; constructor; [apply L; reflexivity|]. match goal with H : HdRel _ _ _ |- _ => inversion H; subst; assumption end.
Qed.

(** ** Walking backwards *)
Lemma last_cons_map l : forall (e : pel) p, last (map pel_end (e :: l)) p = last (map pel_end l) (pel_end e).
Proof.
  induction l as [|f l IH]; intros e p; [reflexivity|]. change (last (map pel_end (e :: f :: l)) p) with (last (map pel_end (f :: l)) p). rewrite !IH. reflexivity.
Qed.
Lemma controls_app l : forall p l', controls p (l ++ l') = controls p l ++ controls (last (map pel_end l) p) l'.
Proof.
  induction l as [|e l IH]; intros p l'; [reflexivity|]. rewrite last_cons_map. cbn [app controls]. rewrite IH. reflexivity.
Qed.
Lemma back_ok l : forall p acc r, Forall drawn l -> back_els p l acc = Ok r -> Forall drawn acc ->
  Forall drawn r /\ exists b, r = b ++ acc /\ length b = length l /\ controls (last (map pel_end l) p) b = rev (map (@rev point) (controls p l)) /\ last (map pel_end b) (last (map pel_end l) p) = p.
Proof.
  induction l as [|e l IH]; intros p acc r D H DA; cbn [back_els] in H.
  - injection H as <-. split; [exact DA|]. exists []. repeat split; reflexivity.
  - inversion D as [|? ? De Dl]; subst. destruct (pel_back p e) as [b|] eqn:B; [|discriminate H]. cbn [rbind] in H.
    assert (X : drawn b /\ pel_end b = p /\ control (pel_end e) b = rev (control p e)). { destruct e; try destruct De; cbn in B; injection B as <-; repeat split; reflexivity. }
    destruct X as (X1 & X2 & X3). destruct (IH (pel_end e) (b :: acc) r Dl H ltac:(constructor; assumption)) as (Dr & b' & -> & L & C & E). split; [exact Dr|].
    exists (b' ++ [b]). split; [rewrite <- app_assoc; reflexivity|]. split; [rewrite app_length, L; cbn; lia|]. rewrite last_cons_map. rewrite controls_app, C, E. cbn [controls]. rewrite X3. split; [reflexivity|].
    rewrite map_app. cbn [map]. rewrite last_last. exact X2.
Qed.
Lemma back_total l : forall p acc, Forall drawn l -> exists r, back_els p l acc = Ok r.
Proof.
  induction l as [|e l IH]; intros p acc D; cbn [back_els]; [eauto|]. inversion D; subst. destruct e; [contradiction|..]; cbn [pel_back rbind]; apply IH; assumption.
Qed.
Lemma last_opt_last {A B} (f : A -> B) l : forall d q, option_map f (last_opt l) = Some q -> last (map f l) d = q.
Proof.
  induction l as [|x l IH]; intros d q H; [discriminate H|]. destruct l as [|y l]; [cbn in *; congruence|]. cbn [map last]. apply (IH d). exact H.
Qed.

Section Path.
Variable dbg : bool.
Variable a : arena.
Context {W : Type}.
Variable t : topo W.
Variable positions : list posn.
Variable root : segment -> f64 -> f64.
Variable sub_input : pathseg -> f64 -> f64 -> pel.
Notation cut := (cut a t positions).
Notation param_at := (param_at a t root).
Notation along := (along t positions).
Notation rejoined := (rejoined a t positions).
Notation run_drawn := (run_drawn a t positions root sub_input).
Notation separate := (separate a t positions).
Notation can_merge := (can_merge dbg a t positions root).
Notation draw := (draw dbg a t positions root sub_input).

(** What is needed of one output segment. *)
Record fine (o : nat) : Prop := {
  fi_seg : exists i s sp orient input x p q, nth_error (t_orig t) o = Some i /\ nth_error (segs a) i = Some s /\ nth_error (split_from a) i = Some sp /\ nth_error (orientation a) i = Some orient /\
    nth_error (input_segs a) i = Some input /\ nth_error positions o = Some x /\ ends_at t (first_half o) p /\ ends_at t (second_half o) q /\ complete p q x /\
    fle (py (seg_start s)) (py p) = true /\ fle (py p) (py q) = true /\ fle (py q) (py (seg_end s)) = true /\ fle (py (seg_start s)) (py (seg_end s)) = true /\
    is_horizontal s = Some (feq (py (seg_start s)) (py (seg_end s)));
  fi_nbrs : exists n, nth_error (t_nbrs t) o = Some n }.

Lemma point_ends h x : ends_at t h x <-> point_of t h = Ok x.
Proof.
  unfold ends_at, pt, point_of. split.
  - intros (p & E & H). destruct (hv_get (t_pidx t) h) as [u|]; [|discriminate E]. subst u. cbn [orerr rbind]. rewrite H. reflexivity.
  - destruct (hv_get (t_pidx t) h) as [[p|]|]; try discriminate. cbn [orerr rbind]. intro H. exists p. split; [reflexivity|]. destruct (nth_error (t_points t) p); [|discriminate H]. cbn in H. congruence.
Qed.
Lemma ends_fun h x y : ends_at t h x -> ends_at t h y -> x = y.
Proof. rewrite !point_ends. congruence. Qed.

Lemma along_ok h : fine (h_idx h) -> exists l, oriented_els positions h = Ok l /\ along h l /\ l <> [] /\ forall x, nth_error positions (h_idx h) = Some x -> length (ps_path x) = S (length l).
Proof.
  intros F. destruct (fi_seg _ F) as (i & s & sp & orient & input & x & p & q & Ho & Hs & Hsp & Hor & Hin & Hx & Ep & Eq & (rest & P & D & L & K) & _). unfold oriented_els. rewrite Hx. cbn [orerr rbind].
  pose proof (last_opt_last pel_end rest p q L) as LL. assert (rest <> []) as NE by (intros ->; discriminate L).
  unfold PathSpec.along. destruct h as [o b]. cbn [h_idx h_first other_half] in *. destruct b; cbn [negb].
  - unfold reverse_subpaths. rewrite P. destruct (back_total rest p [] D) as (r & B). rewrite B. cbn [rbind tl]. destruct (back_ok rest p [] r D B) as (D' & b & -> & LB & C & E); [constructor|]. rewrite app_nil_r in *. exists b. split; [reflexivity|]. split.
    + exists x, p, q, rest. rewrite <- LL at 3. repeat split; assumption.
    + split; [intros ->; destruct rest; [congruence|discriminate LB]|]. intros x' X. assert (x' = x) as -> by congruence. rewrite P. cbn. lia.
  - rewrite P. cbn [rbind tl]. exists rest. split; [reflexivity|]. split; [exists x, p, q, rest; repeat split; assumption|]. split; [exact NE|]. intros x' X. assert (x' = x) as -> by congruence. rewrite P. reflexivity.
Qed.
Lemma along_len h l x : along h l -> nth_error positions (h_idx h) = Some x -> length (ps_path x) = S (length l) /\ l <> [].
Proof.
  intros (x' & p & q & rest & Hx & P & _ & _ & L & _ & _ & C) Hx'. assert (x = x') as -> by congruence. rewrite P. assert (LC : forall l p, length (controls p l) = length l) by (intro l0; induction l0; intros; cbn; auto).
  assert (length rest = length l). { destruct (h_first h); [|congruence]. rewrite <- (LC l q), C, rev_length, map_length, LC. reflexivity. }
  split; [cbn; congruence|]. intros ->. destruct rest; [discriminate L|discriminate].
Qed.

Lemma merge_spec h : fine (h_idx h) -> (cut h /\ exists v, param_at (other_half h) v /\ can_merge h = Ok (Some v)) \/ (~ cut h /\ can_merge h = Ok None).
Proof.
  intros F. destruct (fi_seg _ F) as (i & s & (lo, hi) & orient & input & x & p & q & Ho & Hs & Hsp & Hor & Hin & Hx & Ep & Eq & (rest & P & D & L & K) & Y1 & Y2 & Y3 & Y4 & HZ). destruct (fi_nbrs _ F) as (n & Hn).
  assert (NE : rest <> []) by (intros ->; discriminate L).
  assert (EX : exists ph qh, ends_at t h ph /\ ends_at t (other_half h) qh /\ fle (py (seg_start s)) (py qh) = true /\ fle (py qh) (py (seg_end s)) = true).
  { destruct h as [o b]. destruct b; cbn [other_half h_idx h_first negb] in *; [exists p, q|exists q, p]; (split; [assumption|]); (split; [assumption|]); split; try assumption; [exact (fle_tr _ _ _ Y1 Y2)|exact (fle_tr _ _ _ Y2 Y3)]. }
  destruct EX as (ph & qh & Eh & Eq' & Z1 & Z2). clear Ep Eq Y1 Y2 Y3.
  assert (NT : exists nb, hv_get (t_nbrs t) h = Some nb). { unfold hv_get. rewrite Hn. cbn. eauto. } destruct NT as (nb & Hnb).
  set (tail := let u := if feq (py qh) (py (seg_start s)) then fzero else if feq (py qh) (py (seg_end s)) then fone else root s (py qh) in
    clamp01 (if (orient : bool) then fadd lo (fmul u (fsub hi lo)) else fsub hi (fmul u (fsub hi lo)))).
  assert (PA : param_at (other_half h) tail).
  { exists i, s, lo, hi, orient, qh. cbn [other_half h_idx]. repeat split; try assumption. unfold tail, clamp01, fgt. set (w := if orient then _ else _). destruct (flt w fzero); [|reflexivity].
    replace (flt fone fzero) with false by (vm_compute; reflexivity). reflexivity. }
  unfold PathModel.can_merge. rewrite Hx. cbn [orerr rbind]. rewrite Ho. cbn [orerr rbind]. rewrite Hs. cbn [orerr rbind]. rewrite HZ. cbn [orerr rbind].
  assert (CU : cut h <-> feq (py (seg_start s)) (py (seg_end s)) = false /\ feq (py ph) (py (if h_first h then seg_start s else seg_end s)) = true /\
    (if Bool.eqb (h_first h) orient then flt fzero lo = true else flt hi fone = true) /\ nb_cw nb = nb_ccw nb /\ ps_copied x = Some (if h_first h then 0 else length (ps_path x) - 2)).
  { unfold PathSpec.cut. split.
    - intros (i' & s' & lo' & hi' & or' & x' & p' & A1 & A2 & A3 & A4 & A5 & A6 & A7 & A8 & A9 & A10 & A11). pose proof (ends_fun _ _ _ A6 Eh) as ->. assert (i' = i) as -> by congruence. assert (s' = s) as -> by congruence. assert (lo' = lo /\ hi' = hi) as [-> ->] by (split; congruence).
      assert (or' = orient) as -> by congruence. assert (x' = x) as -> by congruence. repeat split; try assumption. unfold cw, ccw in A10. rewrite Hnb in A10. cbn in A10. congruence.
    - intros (B1 & B2 & B3 & B4 & B5). exists i, s, lo, hi, orient, x, ph. repeat split; try assumption. unfold cw, ccw. rewrite Hnb. cbn. congruence. }
  destruct (feq (py (seg_start s)) (py (seg_end s))) eqn:SL; [right; split; [rewrite CU; intros (A & _); discriminate A|reflexivity]|].
  assert (EXT : (if h_first h then Ok (some_eqb (ps_copied x) 0) else if length (ps_path x) <? 2 then Err EAssert else Ok (some_eqb (ps_copied x) (length (ps_path x) - 2))) = Ok (some_eqb (ps_copied x) (if h_first h then 0 else length (ps_path x) - 2))).
  { destruct (h_first h); [reflexivity|]. replace (length (ps_path x) <? 2) with false; [reflexivity|]. symmetry. apply Nat.ltb_ge. rewrite P. destruct rest; [congruence|cbn; lia]. }
  rewrite EXT. cbn [rbind]. rewrite Hor. cbn [orerr rbind]. rewrite (proj1 (point_ends _ _) Eh). cbn [rbind]. rewrite (proj1 (point_ends _ _) Eq'). cbn [rbind]. rewrite Hsp. cbn [orerr rbind].
  assert (ST : solve_t dbg root s (py qh) = Ok (if feq (py qh) (py (seg_start s)) then fzero else if feq (py qh) (py (seg_end s)) then fone else root s (py qh))).
  { unfold solve_t. rewrite Z1, Z2. assert (flt (py (seg_start s)) (py (seg_end s)) = true) as ->. { clear - SL Y4. apply fle_split in Y4. destruct Y4 as (N1 & N2 & K). apply flt_intro; auto. rewrite feq_key in SL by assumption. apply Z.eqb_neq in SL. lia. } rewrite andb_false_r. reflexivity. }
  assert (IT : forall u, input_seg_t a t (h_idx h) u = Ok (clamp01 (if orient then fadd lo (fmul u (fsub hi lo)) else fsub hi (fmul u (fsub hi lo))))).
  { intro u. unfold input_seg_t. rewrite Ho. cbn [orerr rbind]. rewrite Hsp. cbn [orerr rbind]. rewrite Hor. reflexivity. }
  unfold oriented_start, oriented_end. rewrite Hs. cbn. rewrite Hor. cbn.
  unfold is_simple_point. rewrite Hnb. cbn [orerr rbind fst snd].
  assert (CP : some_eqb (ps_copied x) (if h_first h then 0 else length (ps_path x) - 2) = true <-> ps_copied x = Some (if h_first h then 0 else length (ps_path x) - 2)).
  { destruct (ps_copied x) as [k|]; cbn; [|split; discriminate]. rewrite Nat.eqb_eq. split; [intros ->; reflexivity|congruence]. }
  clear EXT. set (cpb := some_eqb (ps_copied x) (if h_first h then 0 else length (ps_path x) - 2)) in *.
  assert (MN : forall b : bool, (b = true <-> (if Bool.eqb (h_first h) orient then flt fzero lo = true else flt hi fone = true)) ->
     (cut h /\ exists v, param_at (other_half h) v /\ rbind (if b && cpb && feq (py ph) (py (if h_first h then seg_start s else seg_end s)) then
         do! u := solve_t dbg root s (py qh) in do! v := input_seg_t a t (h_idx h) u in Ok (Some v) else Ok None) (fun r => Ok (if half_eqb (nb_cw nb) (nb_ccw nb) then r else None)) = Ok (Some v)) \/
     (~ cut h /\ rbind (if b && cpb && feq (py ph) (py (if h_first h then seg_start s else seg_end s)) then
         do! u := solve_t dbg root s (py qh) in do! v := input_seg_t a t (h_idx h) u in Ok (Some v) else Ok None) (fun r => Ok (if half_eqb (nb_cw nb) (nb_ccw nb) then r else None)) = Ok None)).
  { intros b Hb. destruct (b && cpb && feq (py ph) (py (if h_first h then seg_start s else seg_end s))) eqn:BB.
    - rewrite ST. cbn [rbind]. rewrite IT. cbn [rbind]. rewrite !andb_true_iff in BB. destruct BB as ((B1 & B2) & B3). destruct (half_eqb (nb_cw nb) (nb_ccw nb)) eqn:HE.
      + left. apply half_eqb_eq in HE. split; [|exists tail; split; [exact PA|reflexivity]]. apply CU. split; [reflexivity|]. split; [exact B3|]. split; [apply Hb, B1|]. split; [exact HE|apply CP, B2].
      + right. split; [|reflexivity]. rewrite CU. intros (_ & _ & _ & A & _). apply half_eqb_eq in A. congruence.
    - right. split; [|cbn [rbind]; destruct (half_eqb _ _); reflexivity]. rewrite CU. intros (_ & A1 & A2 & _ & A3). apply Hb in A2. apply CP in A3. rewrite A1, A2, A3 in BB. discriminate BB. }
  destruct (Bool.eqb (h_first h) orient) eqn:EB.
  - apply eqb_prop in EB. subst orient. cbn. apply (MN (flt fzero lo)). reflexivity.
  - replace (if orient then seg_end s else seg_start s) with (if h_first h then seg_start s else seg_end s) by (destruct (h_first h), orient; try discriminate EB; reflexivity). apply (MN (flt hi fone)). reflexivity.
Qed.

(** ** Drawing *)
(** A run that is not finished: its last segment ends at a cut. *)
Definition open_run (g : list half) (l : list pel) (t0 : f64) : Prop :=
  exists h g', g = h :: g' /\ run_drawn g l /\ Sorted rejoined g /\ param_at (other_half h) t0 /\ (forall k, last_opt g = Some k -> cut k) /\
    Forall (fun k => exists x, along k [x]) g' /\ exists u x y, along h (u ++ [x]) /\ l = u ++ [y].
Lemma copied_once h l : cut h -> cut (other_half h) -> along h l -> exists x, l = [x].
Proof.
  intros (i & s & lo & hi & orient & x & p & _ & _ & _ & _ & Hx & _ & _ & _ & _ & _ & C) (i' & s' & lo' & hi' & or' & x' & p' & _ & _ & _ & _ & Hx' & _ & _ & _ & _ & _ & C') A.
  cbn [other_half h_idx h_first] in *. assert (x' = x) as -> by congruence. destruct (along_len h l x A Hx) as (L & N). destruct l as [|e [|e' l]]; [congruence|eauto|]. exfalso. rewrite L in *. cbn [length] in *. destruct (h_first h); cbn [negb] in C'; rewrite C in C'; injection C'; lia.
Qed.
Lemma last_opt_cons {A} (x : A) l : l <> [] -> last_opt (x :: l) = last_opt l.
Proof. destruct l; [congruence|reflexivity]. Qed.
Lemma draw_spec l : (forall h, In h l -> fine (h_idx h)) ->
  (forall ret, exists runs ls, draw l ret None = Ok (ret ++ concat ls) /\ concat runs = l /\ Forall2 run_drawn runs ls /\ Sorted separate runs /\ Forall (fun g => g <> []) runs) /\
  (forall g l0 t0 ret, open_run g l0 t0 -> exists runs ls, draw l (ret ++ l0) (Some t0) = Ok (ret ++ concat ls) /\ concat runs = g ++ l /\ Forall2 run_drawn runs ls /\ Sorted separate runs /\ Forall (fun g => g <> []) runs).
Proof.
  induction l as [|h l IH]; intros FI.
  - split.
    + intro ret. exists [], []. cbn. rewrite app_nil_r. repeat split; constructor.
    + intros g l0 t0 ret (h & g' & -> & R & _). exists [h :: g'], [l0]. cbn. rewrite !app_nil_r. repeat split; repeat constructor; [exact R|discriminate].
  - destruct (IH (fun k I => FI k (or_intror I))) as [IH1 IH2]. pose proof (FI h (or_introl eq_refl)) as Fh. destruct (along_ok h Fh) as (els & E & A & NE & _). clear IH.
    assert (JN : forall g runs, (forall k, last_opt g = Some k -> ~ cut k) -> Sorted separate runs -> Sorted separate (g :: runs)).
    { intros g runs NC S. constructor; [exact S|]. destruct runs; constructor. intros x y Hx _ (C & _). exact (NC x Hx C). }
    (* as long as nothing is joined to the run before *)
    assert (START : forall ret, exists runs ls, (do! n := can_merge h in draw l (ret ++ els) n) = Ok (ret ++ concat ls) /\ concat runs = h :: l /\ Forall2 run_drawn runs ls /\ Sorted separate runs /\ Forall (fun g => g <> []) runs /\
        exists g rest, runs = (h :: g) :: rest).
    { intro ret. destruct (merge_spec h Fh) as [(C & v & PV & M)|(C & M)]; rewrite M; cbn [rbind].
      - destruct (IH2 [h] els v ret) as (runs & ls & D & CC & R & S & NN).
        { exists h, []. split; [reflexivity|]. split; [constructor; exact A|]. split; [repeat constructor|]. split; [exact PV|]. split; [intros k K; cbn in K; injection K as <-; exact C|]. split; [constructor|]. destruct (exists_last NE) as (u & x & ->). exists u, x, x. auto. }
        exists runs, ls. repeat (split; [assumption|]). destruct runs as [|[|k g] rest]; [discriminate CC|inversion NN; congruence|]. cbn in CC. injection CC as -> _. eauto.
      - destruct (IH1 (ret ++ els)) as (runs & ls & D & CC & R & S & NN). exists ([h] :: runs), (els :: ls). cbn [concat app]. rewrite D, <- app_assoc, CC. split; [reflexivity|]. split; [reflexivity|].
        split; [constructor; [constructor; exact A|exact R]|]. split; [apply JN; [intros k K; cbn in K; injection K as <-; exact C|exact S]|]. split; [constructor; [discriminate|exact NN]|]. eauto. }
    split.
    + intro ret. cbn [PathModel.draw]. rewrite E. cbn [rbind]. destruct (START ret) as (runs & ls & D & CC & R & S & NN & _). exists runs, ls.
      split; [|auto]. assert (exists m, can_merge (other_half h) = Ok m) as (m & M) by (destruct (merge_spec (other_half h) Fh) as [(_ & v & _ & M)|(_ & M)]; eauto). rewrite M. cbn [rbind]. destruct m; exact D.
    + intros g l0 t0 ret (h0 & g' & -> & RD & SR & P0 & CL & SG & u & x & y & A0 & ->). cbn [PathModel.draw]. rewrite E. cbn [rbind]. destruct (merge_spec (other_half h) Fh) as [(C & v & PV & M)|(C & M)]; rewrite M; cbn [rbind].
      * destruct (fi_seg _ Fh) as (i & s & sp & orient & input & x' & p & q & Ho & Hs & Hsp & Hor & Hin & _). rewrite Ho. cbn [orerr rbind]. rewrite Hin. cbn [orerr rbind].
        replace (match ret ++ u ++ [y] with [] => true | _ => false end) with false by (destruct ret; [destruct u|]; reflexivity).
        replace (removelast (ret ++ u ++ [y])) with (ret ++ u) by (rewrite app_assoc; symmetry; apply removelast_last).
        rewrite other_other in PV. destruct els as [|ey ev]; [congruence|]. cbn [tl].
        assert (RB : rebuilt sub_input input t0 v = if flt t0 v then sub_input input t0 v else sub_input (backwards input) (fsub fone t0) (fsub fone v)) by reflexivity.
        assert (SR' : Sorted rejoined (h0 :: g' ++ [h])). { change (h0 :: g' ++ [h]) with ((h0 :: g') ++ [h]). apply sorted_snoc; [exact SR|]. intros k K. split; [apply CL, K|exact C]. }
        assert (RD' : run_drawn (h0 :: g' ++ [h]) (u ++ rebuilt sub_input input t0 v :: ev)). { rewrite RB. eapply run_many; eassumption. }
        assert (EQ : forall ws : list pel, ((ret ++ u) ++ [rebuilt sub_input input t0 v]) ++ ws = ret ++ u ++ rebuilt sub_input input t0 v :: ws) by (intro ws; rewrite <- !app_assoc; reflexivity). rewrite EQ.
        destruct (merge_spec h Fh) as [(C1 & v1 & PV1 & M1)|(C1 & M1)]; rewrite M1; cbn [rbind].
        -- destruct (copied_once h (ey :: ev) C1 C A) as (ez & EZ). injection EZ as -> ->.
           destruct (IH2 (h0 :: g' ++ [h]) (u ++ [rebuilt sub_input input t0 v]) t0 ret) as (runs & ls & D & CC & R & S & NN).
           { exists h0, (g' ++ [h]). split; [reflexivity|]. split; [exact RD'|]. split; [exact SR'|]. split; [exact P0|]. split.
             - intros k K. change (h0 :: g' ++ [h]) with ((h0 :: g') ++ [h]) in K. rewrite last_opt_app in K. injection K as <-. exact C1.
             - split; [apply Forall_app; split; [exact SG|constructor; [eauto|constructor]]|]. exists u, x, (rebuilt sub_input input t0 v). auto. }
           exists runs, ls. split; [exact D|]. split; [rewrite CC; cbn [app]; rewrite <- app_assoc; reflexivity|auto].
        -- destruct (IH1 (ret ++ u ++ rebuilt sub_input input t0 v :: ev)) as (runs & ls & D & CC & R & S & NN). exists ((h0 :: g' ++ [h]) :: runs), ((u ++ rebuilt sub_input input t0 v :: ev) :: ls).
           rewrite D. cbn [concat]. rewrite <- (app_assoc ret). split; [reflexivity|]. split; [rewrite CC; cbn [app]; rewrite <- app_assoc; reflexivity|]. split; [constructor; assumption|]. split; [|constructor; [discriminate|exact NN]].
           apply JN; [|exact S]. intros k K. change (h0 :: g' ++ [h]) with ((h0 :: g') ++ [h]) in K. rewrite last_opt_app in K. injection K as <-. exact C1.
      * destruct (START (ret ++ u ++ [y])) as (runs & ls & D & CC & R & S & NN & g2 & rest & ->). exists ((h0 :: g') :: (h :: g2) :: rest), ((u ++ [y]) :: ls). cbn [concat] in *. rewrite CC. split; [rewrite D, <- (app_assoc ret); reflexivity|]. split; [reflexivity|].
        split; [constructor; assumption|]. split; [|constructor; [discriminate|exact NN]]. constructor; [exact S|]. constructor. intros k k' _ K' (_ & C'). cbn in K'. injection K' as <-. exact (C C').
Qed.
Lemma find_start_spec l : (forall h, In h l -> fine (h_idx h)) -> forall n,
  (find_start dbg a t positions root l n = Err EStart /\ forall h, In h l -> cut (other_half h)) \/
  exists k h, find_start dbg a t positions root l n = Ok (n + k) /\ nth_error l k = Some h /\ ~ cut (other_half h).
Proof.
  induction l as [|h l IH]; intros F n; cbn [find_start]; [left; split; [reflexivity|intros h []]|]. destruct (merge_spec (other_half h) (F h (or_introl eq_refl))) as [(C & v & _ & M)|(C & M)]; rewrite M; cbn [rbind].
  - destruct (IH (fun k I => F k (or_intror I)) (S n)) as [(E & X)|(k & h' & E & Hk & N)].
    + left. split; [exact E|]. intros k [<-|I]; [exact C|apply X, I].
    + right. exists (S k), h'. split; [rewrite E; f_equal; lia|]. split; [exact Hk|exact N].
  - right. exists 0, h. split; [f_equal; lia|]. split; [reflexivity|exact C].
Qed.
Lemma path_spec l : (forall h, In h l -> fine (h_idx h)) ->
  (segs_to_path dbg a t positions root sub_input l = Err EStart /\ forall h, In h l -> cut (other_half h)) \/
  exists path, segs_to_path dbg a t positions root sub_input l = Ok path /\ draws a t positions root sub_input l path.
Proof.
  intros F. unfold segs_to_path. destruct (find_start_spec l F 0) as [(E & X)|(k & h & E & Hk & N)]; rewrite E; cbn [rbind]; [left; split; [reflexivity|exact X]|]. right. cbn [Nat.add]. rewrite Hk. cbn [orerr rbind].
  destruct (fi_seg _ (F h (nth_error_In _ _ Hk))) as (i & s & sp & orient & input & x & p & q & _ & _ & _ & _ & _ & _ & Ep & Eq & _).
  assert (exists w, ends_at t (other_half h) w) as (w & Ew). { destruct h as [o []]; cbn in *; eauto. }
  rewrite (proj1 (point_ends _ _) Ew). cbn [rbind].
  assert (FI : forall h', In h' (skipn k l ++ firstn k l) -> fine (h_idx h')). { intros h' I. apply F. rewrite <- (firstn_skipn k l). apply in_app_iff. apply in_app_iff in I. tauto. }
  destruct (draw_spec _ FI) as [D _]. destruct (D [MoveTo w]) as (runs & ls & E1 & CC & R & S & _). rewrite E1. eexists. split; [reflexivity|]. exists k, w, runs, ls, h. auto 10.
Qed.
End Path.
