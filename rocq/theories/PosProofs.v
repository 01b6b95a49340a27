(** Laying out the output curves: paths only grow, and are completed up to their end points (C40). *)
From Coq Require Import List Bool ZArith Arith Lia.
From Verif Require Import F64 F64Arith TreeVecModel GeomModel SegmentsModel CurveOrderModel SweepModel TopoModel TopoProofs ScanModel PosModel PosSpec.
Import ListNotations.

(** Some elements of kind [P] have been appended to some paths. *)
Definition grown (P : nat -> pel -> Prop) (o : nat) (x x' : posn) : Prop :=
  exists l, ps_path x' = ps_path x ++ l /\ Forall (P o) l /\
    (ps_copied x' = ps_copied x \/ exists k, ps_copied x' = Some k /\ length (ps_path x) <= S k < length (ps_path x) + length l).
Definition ext (P : nat -> pel -> Prop) (out out' : list posn) : Prop :=
  length out' = length out /\ forall o x, nth_error out o = Some x -> exists x', nth_error out' o = Some x' /\ grown P o x x'.

Lemma grown_refl P o x : grown P o x x.
Proof. exists []. rewrite app_nil_r. split; [reflexivity|]. split; [constructor|]. left. reflexivity. Qed.
Lemma grown_trans P o x y z : grown P o x y -> grown P o y z -> grown P o x z.
Proof.
  intros (l & E & F & C) (l' & E' & F' & C'). exists (l ++ l'). split; [rewrite E', E, app_assoc; reflexivity|]. split; [apply Forall_app; split; assumption|].
  rewrite app_length. destruct C' as [C'|(k & Ck & B)].
  - destruct C as [C|(k & Ck & B)]; [left; congruence|]. right. exists k. split; [congruence|]. lia.
  - right. exists k. split; [exact Ck|]. rewrite E, app_length in B. lia.
Qed.
Lemma ext_refl P out : ext P out out.
Proof. split; [reflexivity|]. intros o x H. exists x. split; [exact H|apply grown_refl]. Qed.
Lemma ext_trans P x y z : ext P x y -> ext P y z -> ext P x z.
Proof.
  intros [L E] [L' E']. split; [congruence|]. intros o p H. destruct (E o p H) as (p' & H' & G). destruct (E' o p' H') as (p'' & H'' & G'). exists p''. split; [exact H''|eapply grown_trans; eassumption].
Qed.
Lemma ext_weak (P Q : nat -> pel -> Prop) x y : (forall o e, P o e -> Q o e) -> ext P x y -> ext Q x y.
Proof.
  intros W [L E]. split; [exact L|]. intros o p H. destruct (E o p H) as (p' & H' & l & E1 & F & C). exists p'. split; [exact H'|]. exists l. split; [exact E1|]. split; [|exact C]. eapply Forall_impl; [|exact F]. apply W.
Qed.

Lemma rbind_ok {A B} (r : res A) (f : A -> res B) y : rbind r f = Ok y -> exists x, r = Ok x /\ f x = Ok y.
Proof. destruct r as [x|e]; cbn [rbind]; intro H; [exists x; split; [reflexivity|exact H]|discriminate H]. Qed.
Lemma orerr_some {A} e (x : option A) y : orerr e x = Ok y -> x = Some y.
Proof. destruct x; cbn; intro H; [congruence|discriminate]. Qed.
(** Taking apart one step of a computation that succeeds. *)
Ltac ok H x E := apply rbind_ok in H; destruct H as (x & E & H).
Ltac okp H x y E := apply rbind_ok in H; destruct H as ([x y] & E & H); cbv beta iota in H.

Lemma append_ext (P : nat -> pel -> Prop) out o e out' : P o e -> append out o e = Ok out' -> ext P out out'.
Proof.
  intros HP H. unfold append in H. ok H p E. apply orerr_some in E, H. destruct (upd_spec _ _ _ _ H) as (_ & L & N). split; [exact L|].
  intros j x Hj. rewrite N. destruct (Nat.eqb_spec j o) as [->|]; [|exists x; split; [exact Hj|apply grown_refl]].
  eexists. split; [reflexivity|]. assert (x = p) as -> by congruence. exists [e]. split; [reflexivity|]. split; [constructor; [exact HP|constructor]|]. left. reflexivity.
Qed.
Lemma append_copied_ext (P : nat -> pel -> Prop) out o e out' : P o e -> (forall x, nth_error out o = Some x -> ps_path x <> []) -> append_copied out o e = Ok out' -> ext P out out'.
Proof.
  intros HP NE H. unfold append_copied in H. ok H p E. apply orerr_some in E, H. destruct (upd_spec _ _ _ _ H) as (_ & L & N). split; [exact L|].
  intros j x Hj. rewrite N. destruct (Nat.eqb_spec j o) as [->|]; [|exists x; split; [exact Hj|apply grown_refl]].
  eexists. split; [reflexivity|]. assert (x = p) as -> by congruence. exists [e]. split; [reflexivity|]. split; [constructor; [exact HP|constructor]|]. right. eexists. split; [reflexivity|].
  specialize (NE p E). destruct (ps_path p) as [|e0 l]; [congruence|]. cbn [length]. lia.
Qed.
(** No path is empty. *)
Definition begun (out : list posn) : Prop := Forall (fun x => ps_path x <> []) out.
Lemma begun_at out o x : begun out -> nth_error out o = Some x -> ps_path x <> [].
Proof. intros B H. unfold begun in B. rewrite Forall_forall in B. apply B. eapply nth_error_In, H. Qed.
Lemma ext_begun P out out' : ext P out out' -> begun out -> begun out'.
Proof.
  intros [L E] B. apply Forall_forall. intros x' H. apply In_nth_error in H. destruct H as (o & H).
  assert (exists x, nth_error out o = Some x) as (x & Hx). { destruct (nth_error out o) eqn:N; [eauto|]. apply nth_error_None in N. assert (o < length out') by (apply nth_error_Some; congruence). lia. }
  destruct (E o x Hx) as (y & Hy & l & El & _). assert (y = x') as -> by congruence. rewrite El. pose proof (begun_at _ _ _ B Hx) as NE. destruct (ps_path x); [congruence|discriminate].
Qed.

Section P.
Variable dbg : bool.
Variable a : arena.
Variable cmp : nat -> nat -> curve_order.
Variable sub : segment -> f64 -> f64 -> cubic.
Variables trans_after trans_before : cubic -> cubic -> f64 -> bool.
Variable est : cubic -> parab.
Variable pop : list qentry -> option (qentry * list qentry).
Variable orig : list nat.
Variable ends : list (point * point).
Variable order : scan_order.
Variable accuracy : f64.
Notation stop_of := (stop_of ends).
Notation catch_up := (catch_up dbg a sub ends).
Notation approximate := (approximate dbg a sub est accuracy).
Notation pieces := (pieces dbg a sub est accuracy).
Notation two_apart := (two_apart dbg a sub trans_after trans_before ends).
Notation ordered_curves := (ordered_curves dbg a sub trans_after trans_before est ends accuracy).
Notation group := (group cmp orig ends order).
Notation handle := (handle dbg a cmp sub trans_after trans_before est orig ends order accuracy).
Notation turn := (turn dbg a cmp sub trans_after trans_before est pop orig ends order accuracy).
Notation turns := (turns dbg a cmp sub trans_after trans_before est pop orig ends order accuracy).
Notation finish := (finish dbg a sub orig ends).
Notation finish_all := (finish_all dbg a sub orig ends).
Notation compute_positions := (compute_positions dbg a cmp sub trans_after trans_before est pop orig ends order accuracy).

(** The end of the next part of a curve. *)
Lemma next_end s path y1 q c : next_subsegment dbg sub s path y1 q = Ok c -> feq (py q) y1 = true /\ cb3 c = q \/ py (cb3 c) = y1.
Proof.
  intro H. unfold next_subsegment in H. ok H p E. ok H d E'. injection H as <-. cbn [cb3]. destruct (feq (py q) y1) eqn:F; [left; split; reflexivity|]. right.
  unfold y_subsegment in E'. destruct (_ && _); [discriminate|]. injection E' as <-. reflexivity.
Qed.

Lemma catch_up_ext (P : nat -> pel -> Prop) y0 l :
  (forall o q, In o (map snd l) -> stop_of o = Ok q -> P o (LineTo q)) ->
  (forall o q c1 c2 z, In o (map snd l) -> stop_of o = Ok q -> (feq (py q) y0 = true /\ z = q \/ py z = y0) -> P o (CurveTo c1 c2 z)) ->
  forall out out', begun out -> catch_up y0 l out = Ok out' -> ext P out out'.
Proof.
  intros H1 H2. induction l as [|[i o] l IH]; intros out out' B H.
  { injection H as <-. apply ext_refl. }
  cbn [PosModel.catch_up] in H. ok H p E. apply orerr_some in E. ok H y Ey. ok H out1 E1.
  assert (X : ext P out out1).
  { destruct (flt y y0); [|injection E1 as <-; apply ext_refl]. ok E1 q Hq. ok E1 s Es. destruct (is_line s).
    - eapply append_copied_ext; [|intros x Hx; exact (begun_at _ _ _ B Hx)|exact E1]. apply H1; [left; reflexivity|exact Hq].
    - ok E1 c Ec. eapply append_copied_ext; [|intros x Hx; exact (begun_at _ _ _ B Hx)|exact E1]. apply H2 with q; [left; reflexivity|exact Hq|]. apply next_end in Ec. tauto. }
  eapply ext_trans; [exact X|]. eapply IH; [| |eapply ext_begun; eassumption|exact H]; intros.
  - apply H1; [right|]; assumption.
  - apply H2 with q; [right| |]; assumption.
Qed.

Lemma quads_ext (P : nat -> pel -> Prop) y0 y1 l : (forall o c z, In o (map snd l) -> py z = y1 -> P o (QuadTo c z)) ->
  forall xm xe out out', quads y0 y1 xm xe l out = Ok out' -> ext P out out'.
Proof.
  intros HP. induction l as [|[q o] l IH]; intros xm xe out out' H; [injection H as <-; apply ext_refl|].
  cbn [quads] in H. ok H out1 E. eapply ext_trans; [eapply append_ext; [|exact E]|].
  - apply HP; [left; reflexivity|reflexivity].
  - eapply IH; [|exact H]. intros; apply HP; [right|]; assumption.
Qed.
Lemma in_combine_snd {A B} (l : list A) (l' : list B) y : In y (map snd (combine l l')) -> In y l'.
Proof. intro H. apply in_map_iff in H. destruct H as ([x z] & <- & H). apply in_combine_r in H. exact H. Qed.

Lemma pieces_ext (P : nat -> pel -> Prop) (I : f64 -> Prop) is os y1 :
  (forall o c z, In o os -> I (py z) -> P o (QuadTo c z)) ->
  (forall fuel y next l, I y -> flt y y1 = true -> approximate fuel y y1 is = Ok (next, l) -> I next) ->
  forall fuel y0 out out', I y0 -> pieces fuel y0 y1 is os out = Ok out' -> ext P out out'.
Proof.
  intros HP HI. induction fuel as [|fuel IH]; intros y0 out out' Hy H; [discriminate|].
  cbn [PosModel.pieces] in H. destruct (flt y0 y1) eqn:L; [|injection H as <-; apply ext_refl].
  okp H next l E. ok H out1 E1. assert (Hn : I next) by (eapply HI; eassumption).
  eapply ext_trans; [|eapply IH; [exact Hn|exact H]]. eapply quads_ext; [|exact E1]. intros o c z Ho Hz. apply HP; [eapply in_combine_snd, Ho|]. rewrite Hz. exact Hn.
Qed.

Lemma ordered_ext (P : nat -> pel -> Prop) (I : f64 -> Prop) is os y0 y1 :
  (forall o q, In o os -> stop_of o = Ok q -> P o (LineTo q)) ->
  (forall o q c1 c2 z, In o os -> stop_of o = Ok q -> (feq (py q) y0 = true /\ z = q \/ py z = y0) -> P o (CurveTo c1 c2 z)) ->
  (forall o c z, In o os -> I (py z) -> P o (QuadTo c z)) ->
  (forall fuel y next l, I y -> flt y y1 = true -> approximate fuel y y1 is = Ok (next, l) -> I next) -> I y0 ->
  forall fuel out out', begun out -> ordered_curves fuel is os out y0 y1 = Ok out' -> ext P out out'.
Proof.
  intros H1 H2 H3 H4 H5 fuel out out' B H. unfold PosModel.ordered_curves in H. ok H b Eb. destruct b; [injection H as <-; apply ext_refl|].
  ok H b Eb'. destruct b; [injection H as <-; apply ext_refl|]. ok H out1 E. eapply ext_trans.
  - eapply catch_up_ext; [| |exact B|exact E]; intros; [apply H1|apply H2 with q]; try assumption; eapply in_combine_snd; eassumption.
  - eapply pieces_ext with (I := I); eassumption.
Qed.

(** What a turn changes. *)
Lemma handle_out fuel y0 o s s' : handle fuel y0 o s = Ok s' -> exists y1 ns out,
  group fuel o y0 = Ok (y1, ns) /\ st_out s' = out /\
  (length ns = 1 /\ ((feq y0 y1 = true /\ exists q, stop_of o = Ok q /\ append_copied (st_out s) o (LineTo q) = Ok out) \/ (feq y0 y1 = false /\ out = st_out s)) \/
   length ns <> 1 /\ exists is, rmap_orig orig ns = Ok is /\ ordered_curves fuel is ns (st_out s) y0 y1 = Ok out) /\
  requeue ends y1 ns (st_last s) (st_queue s) = Ok (st_last s', st_queue s').
Proof.
  intro H. unfold PosModel.handle in H. okp H y1 ns E. ok H out Eo. okp H ly qu Er. injection H as <-. exists y1, ns, out. cbn [st_out st_last st_queue]. split; [exact E|]. split; [reflexivity|]. split; [|exact Er].
  destruct (Nat.eqb_spec (length ns) 1) as [L|L].
  - left. split; [exact L|]. destruct (feq y0 y1); [left|right].
    + split; [reflexivity|]. ok Eo q Hq. exists q. split; assumption.
    + split; [reflexivity|]. congruence.
  - right. split; [exact L|]. ok Eo is Ei. exists is. split; assumption.
Qed.

(** Elements appended during the turns. *)
Definition only_drawn (_ : nat) (e : pel) : Prop := drawn e.
Lemma handle_drawn fuel y0 o s s' : begun (st_out s) -> handle fuel y0 o s = Ok s' -> ext only_drawn (st_out s) (st_out s').
Proof.
  intros B H. destruct (handle_out _ _ _ _ _ H) as (y1 & ns & out & _ & -> & C & _). destruct C as [(_ & [(_ & q & _ & E)|(_ & ->)])|(_ & is & _ & E)].
  - eapply append_copied_ext with (o := o) (e := LineTo q); [exact I|intros x Hx; exact (begun_at _ _ _ B Hx)|exact E].
  - apply ext_refl.
  - eapply ordered_ext with (I := fun _ => True); [| | | | |exact B|exact E]; intros; exact I.
Qed.
Lemma turn_drawn fuel s e s' : begun (st_out s) -> turn fuel s = Ok (Some (e, s')) -> ext only_drawn (st_out s) (st_out s').
Proof.
  intros B H. unfold PosModel.turn in H. destruct (pop (st_queue s)) as [[[y0 o] qu]|]; [|discriminate]. cbv zeta in H. ok H ly E. destruct (fgt ly y0).
  - injection H as _ <-. apply ext_refl.
  - ok H s2 E2. injection H as _ <-. apply handle_drawn in E2; exact E2 || exact B.
Qed.
Lemma turns_drawn fuel n : forall s s', begun (st_out s) -> turns fuel n s = Ok s' -> ext only_drawn (st_out s) (st_out s').
Proof.
  induction n as [|n IH]; intros s s' B H; [discriminate|]. cbn [PosModel.turns] in H. ok H r E. destruct r as [[e s1]|].
  - pose proof (turn_drawn _ _ _ _ B E) as X. eapply ext_trans; [exact X|]. eapply IH; [eapply ext_begun; eassumption|exact H].
  - injection H as <-. apply ext_refl.
Qed.

Lemma start_spec n : forall o out queue, start_paths ends n o = Ok (out, queue) -> length out = n /\
  (forall k x, nth_error out k = Some x -> exists p q, nth_error ends (o + k) = Some (p, q) /\
     (feq (py p) (py q) = true /\ x = mkPosn [MoveTo p; LineTo q] (Some 0) \/ feq (py p) (py q) = false /\ x = mkPosn [MoveTo p] None)) /\
  (forall y o', In (y, o') queue <-> exists p q, o <= o' < o + n /\ nth_error ends o' = Some (p, q) /\ feq (py p) (py q) = false /\ y = py p).
Proof.
  induction n as [|n IH]; intros o out queue H.
  { injection H as <- <-. split; [reflexivity|]. split; [intros [|k] x Hx; discriminate|]. intros y o'. split; [intros []|]. intros (p & q & L & _). lia. }
  cbn [start_paths] in H. ok H p Ep. ok H q Hq. okp H out1 qu1 E. unfold PosModel.start_of, PosModel.stop_of in Ep, Hq. ok Ep e Ee. apply orerr_some in Ee. rewrite Ee in Hq. cbn [orerr rbind] in Hq. injection Ep as Ep. injection Hq as Hq. destruct e as [p' q']. cbn [fst snd] in Ep, Hq. subst p' q'.
  destruct (IH _ _ _ E) as (L & S1 & S2). destruct (feq (py p) (py q)) eqn:F; injection H as <- <-.
  - split; [cbn [length]; congruence|]. split.
    + intros [|k] x Hx.
      * injection Hx as <-. exists p, q. rewrite Nat.add_0_r. split; [exact Ee|]. left. split; [exact F|reflexivity].
      * destruct (S1 k x Hx) as (p' & q' & N & X). exists p', q'. rewrite Nat.add_succ_r. split; [exact N|exact X].
    + intros y o'. rewrite S2. split; intros (p' & q' & R & N & F' & ->); exists p', q'; (split; [|split; [exact N|split; [exact F'|reflexivity]]]); [lia|]. assert (o' <> o) by (intros ->; congruence). lia.
  - split; [cbn [length]; congruence|]. split.
    + intros [|k] x Hx.
      * injection Hx as <-. exists p, q. rewrite Nat.add_0_r. split; [exact Ee|]. right. split; [exact F|reflexivity].
      * destruct (S1 k x Hx) as (p' & q' & N & X). exists p', q'. rewrite Nat.add_succ_r. split; [exact N|exact X].
    + intros y o'. cbn [In]. rewrite S2. split.
      * intros [X|(p' & q' & R & N & F' & ->)]; [injection X as <- <-; exists p, q; split; [lia|]; split; [exact Ee|]; split; [exact F|reflexivity]|]. exists p', q'. split; [lia|]. split; [exact N|]. split; [exact F'|reflexivity].
      * intros (p' & q' & R & N & F' & ->). destruct (Nat.eq_dec o' o) as [->|D]; [left; congruence|]. right. exists p', q'. split; [lia|]. split; [exact N|]. split; [exact F'|reflexivity].
Qed.

Lemma finish_all_spec l : forall o l', finish_all o l = Ok l' -> length l' = length l /\ forall k x, nth_error l k = Some x -> exists x', nth_error l' k = Some x' /\ finish (o + k) x = Ok x'.
Proof.
  induction l as [|p l IH]; intros o l' H; cbn [PosModel.finish_all] in H.
  { injection H as <-. split; [reflexivity|]. intros [|k] x Hx; discriminate. }
  ok H p' E. ok H l1 E1. injection H as <-. destruct (IH _ _ E1) as (L & N). split; [cbn [length]; congruence|]. intros [|k] x Hx.
  - injection Hx as <-. exists p'. rewrite Nat.add_0_r. split; [reflexivity|exact E].
  - destruct (N k x Hx) as (x' & Hx' & Ex). exists x'. rewrite Nat.add_succ_r. split; assumption.
Qed.

Lemma last_opt_app {A} (l : list A) x : last_opt (l ++ [x]) = Some x.
Proof. induction l as [|y l IH]; [reflexivity|]. destruct l; [reflexivity|]. exact IH. Qed.
Lemma last_opt_split {A} (l : list A) x : last_opt l = Some x -> l = removelast l ++ [x].
Proof.
  induction l as [|y l IH]; intro H; [discriminate|]. destruct l as [|z l]; [injection H as <-; reflexivity|]. cbn [removelast app]. f_equal. apply IH. exact H.
Qed.

Lemma finish_complete o p q x x' : nth_error ends o = Some (p, q) -> fle (py p) (py q) = true ->
  (exists rest, ps_path x = MoveTo p :: rest /\ Forall drawn rest /\ (rest = [] -> feq (py p) (py q) = false) /\ (forall k, ps_copied x = Some k -> k < length rest)) ->
  finish o x = Ok x' -> complete p q x'.
Proof.
  intros N LE (rest & E & D & NE & C) H. unfold PosModel.finish in H. ok H q' Hq. unfold PosModel.stop_of in Hq. rewrite N in Hq. injection Hq as <-. ok H y Ey. destruct (flt y (py q)) eqn:L.
  - ok H i Ei. ok H s Es. assert (SELF : feq (py q) (py q) = true). { destruct (nan (py q)) eqn:NQ; [exfalso|rewrite feq_key by assumption; apply Z.eqb_refl]. destruct (py q); try discriminate NQ. destruct y as [[]|[]| |[]]; discriminate L. }
    destruct (is_line s).
    + injection H as <-. exists (rest ++ [LineTo q]). cbn [ps_path ps_copied]. split; [rewrite E; reflexivity|]. split; [apply Forall_app; split; [exact D|repeat constructor]|]. split; [rewrite last_opt_app; reflexivity|]. intros k Hk. injection Hk as <-. rewrite E, app_length. cbn [length]. lia.
    + ok H c Ec. injection H as <-. exists (rest ++ [CurveTo (cb1 c) (cb2 c) (cb3 c)]). cbn [ps_path ps_copied]. split; [rewrite E; reflexivity|]. split; [apply Forall_app; split; [exact D|repeat constructor]|].
      split; [|intros k Hk; injection Hk as <-; rewrite E, app_length; cbn [length]; lia]. rewrite last_opt_app. cbn [option_map pel_end]. f_equal.
      unfold next_subsegment in Ec. ok Ec p0 E0. ok Ec d Ed. injection Ec as <-. cbn [cb3]. rewrite SELF. reflexivity.
  - ok H e Ee. injection H as <-. apply orerr_some in Ee. unfold complete. cbn [ps_path ps_copied]. destruct rest as [|r0 rest].
    + exfalso. specialize (NE eq_refl). rewrite E in Ee, Ey. cbn in Ee. injection Ee as <-. cbn in Ey. injection Ey as <-.
      destruct (nan (py p)) eqn:NP; [destruct (py p) as [[]|[]| |[]]; try discriminate NP; discriminate LE|]. destruct (nan (py q)) eqn:NQ; [destruct (py q) as [[]|[]| |[]]; try discriminate NQ; destruct (py p) as [[]|[]| |[]]; discriminate LE|].
      rewrite flt_key in L by assumption. rewrite fle_key in LE by assumption. rewrite feq_key in NE by assumption. apply Z.ltb_ge in L. apply Z.leb_le in LE. apply Z.eqb_neq in NE. lia.
    + rewrite E in Ee. rewrite E. change (last_opt (r0 :: rest) = Some e) in Ee. pose proof (last_opt_split _ _ Ee) as S. set (r := r0 :: rest) in *. change (removelast (MoveTo p :: r)) with (MoveTo p :: removelast r).
      exists (removelast r ++ [pel_set_end e q]). split; [reflexivity|]. rewrite S in D. apply Forall_app in D. destruct D as [D De]. split; [apply Forall_app; split; [exact D|]; apply Forall_inv in De; destruct e; constructor; try exact De; constructor|].
      split; [rewrite last_opt_app; destruct e; reflexivity|]. intros k Hk. specialize (C k Hk). rewrite S, app_length in C. rewrite app_length. exact C.
Qed.

Lemma compute_complete fuel out : compute_positions fuel = Ok out ->
  (forall o p q, nth_error ends o = Some (p, q) -> fle (py p) (py q) = true) ->
  length out = length orig /\ forall o x, nth_error out o = Some x -> exists p q, nth_error ends o = Some (p, q) /\ complete p q x.
Proof.
  intros H LE. unfold PosModel.compute_positions in H. okp H out0 queue E0. ok H s E1. destruct (start_spec _ _ _ _ E0) as (L0 & S0 & _).
  assert (B : begun out0). { apply Forall_forall. intros x Hx. apply In_nth_error in Hx. destruct Hx as (k & Hk). destruct (S0 k x Hk) as (p & q & _ & [(_ & ->)|(_ & ->)]); discriminate. }
  assert (B' : begun (st_out (mkPS out0 (repeat fzero (length orig)) queue))) by exact B. pose proof (turns_drawn _ _ _ _ B' E1) as [L1 X]. cbn [st_out] in L1, X. destruct (finish_all_spec _ _ _ H) as (L2 & F). split; [congruence|].
  intros o x Hx. assert (exists x1, nth_error (st_out s) o = Some x1) as (x1 & H1). { destruct (nth_error (st_out s) o) eqn:N; [eauto|]. apply nth_error_None in N. assert (o < length out) by (apply nth_error_Some; congruence). lia. }
  assert (exists x0, nth_error out0 o = Some x0) as (x0 & H0). { destruct (nth_error out0 o) eqn:N; [eauto|]. apply nth_error_None in N. assert (o < length (st_out s)) by (apply nth_error_Some; congruence). lia. }
  destruct (F o x1 H1) as (x' & Hx' & Fx). assert (x' = x) as -> by congruence. destruct (X o x0 H0) as (y & Hy & l & El & D & C). assert (y = x1) as -> by congruence.
  destruct (S0 o x0 H0) as (p & q & N & Cx). cbn [Nat.add] in N. exists p, q. split; [exact N|]. eapply finish_complete; [exact N|eapply LE, N| |exact Fx].
  destruct Cx as [(FE & ->)|(FE & ->)]; cbn [ps_path ps_copied length] in El, C.
  - exists (LineTo q :: l). split; [exact El|]. split; [constructor; [exact I|exact D]|]. split; [discriminate|]. intros k Hk. cbn [length]. destruct C as [C|(k' & C & R)]; [rewrite C in Hk; injection Hk as <-; lia|]. rewrite C in Hk. injection Hk as <-. lia.
  - exists l. split; [exact El|]. split; [exact D|]. split; [intros _; exact FE|]. intros k Hk. destruct C as [C|(k' & C & R)]; [rewrite C in Hk; discriminate|]. rewrite C in Hk. injection Hk as <-. lia.
Qed.
End P.
