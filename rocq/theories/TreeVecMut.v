(** Mutable iteration: writing through the references of [iter_mut] / [range_mut] writes the elements they stand for. *)
From Coq Require Import List Arith Bool ZArith Lia ZifyBool ZifyNat.
From Verif Require Import TreeVecModel TreeVecSpec TreeVecProofs.
Import ListNotations.

Fixpoint slots_from {T} (pre : list nat) (i : nat) (cs : list (node T)) : list (node (list nat)) :=
  match cs with [] => [] | c :: cs' => slots (pre ++ [i]) c :: slots_from pre (S i) cs' end.
Lemma slots_internal {T} pre size (cs : list (node T)) : slots pre (Internal size cs) = Internal size (slots_from pre 0 cs).
Proof. cbn [slots]. f_equal. generalize 0. induction cs as [|c cs IH]; intros i; cbn; [reflexivity|]. f_equal. apply IH. Qed.

Section M.
Context {T : Type} (B : nat) (HB : 4 <= B).

Lemma slots_from_app pre (l1 l2 : list (node T)) : forall i, slots_from pre i (l1 ++ l2) = slots_from pre i l1 ++ slots_from pre (i + length l1) l2.
Proof. induction l1 as [|c l1 IH]; intros i; cbn; [rewrite Nat.add_0_r; reflexivity|]. f_equal. rewrite IH, <- plus_n_Sm. reflexivity. Qed.

Lemma slots_wf h : forall (n : node T) pre lo, wf B lo h n -> wf B lo h (slots pre n) /\ ln (slots pre n) = ln n.
Proof.
  induction h as [|h IH]; intros [d|sz cs] pre lo Hwf; cbn [wf] in Hwf; try tauto.
  - cbn [slots wf]. unfold ln. cbn [elems]. rewrite map_length, seq_length. auto.
  - rewrite slots_internal. destruct Hwf as (Hl & -> & Hf).
    assert (HH : forall i, length (slots_from pre i cs) = length cs /\ map ln (slots_from pre i cs) = map ln cs /\ Forall (wf B (B/2) h) (slots_from pre i cs)).
    { clear Hl. induction Hf as [|c cs Hc Hf IHf]; intros i; cbn; [auto|]. destruct (IHf (S i)) as (L & M & F). destruct (IH c (pre ++ [i]) _ Hc) as [W E].
      split; [lia|]. split; [congruence|]. constructor; assumption. }
    destruct (HH 0) as (L & M & F). split.
    + cbn [wf]. rewrite L, M. auto.
    + unfold ln. cbn [elems]. rewrite !flat_map_length, M. reflexivity.
Qed.

(** Writing to the place of the [k]-th element is [node_set] of the [k]-th element. *)
Lemma poke_ok (f : T -> T) h : forall (n : node T) pre lo k x p, wf B lo h n -> nth_error (elems (slots pre n)) k = Some p -> nth_error (elems n) k = Some x ->
  exists q n', p = pre ++ q /\ poke f n q = Some n' /\ node_set n k (f x) = Some (Some n') /\ forall pre', slots pre' n' = slots pre' n.
Proof.
  induction h as [|h IH]; intros [d|sz cs] pre lo k x p Hwf Hp Hx; cbn [wf] in Hwf; try tauto.
  - cbn [slots elems] in *. assert (L : k < length d) by (apply nth_error_Some; congruence).
    rewrite nth_error_map in Hp. replace (nth_error (seq 0 (length d)) k) with (Some k) in Hp.
    2:{ symmetry. rewrite (nth_error_nth' _ 0) by (rewrite seq_length; lia). rewrite seq_nth by lia. reflexivity. }
    cbn in Hp. injection Hp as <-. exists [k].
    cbn [poke node_set]. rewrite Hx. cbn [option_bind]. unfold slice_set. rewrite (proj2 (Nat.ltb_lt _ _) L). cbn [option_bind].
    eexists. split; [reflexivity|]. split; [reflexivity|]. split; [reflexivity|]. intros pre'. cbn [slots]. do 3 f_equal. apply (length_upd k (f x) d L).
  - rewrite slots_internal in Hp. destruct Hwf as (Hl & -> & Hf). cbn [elems] in *.
    assert (L : k < sum (map ln cs)) by (rewrite <- flat_map_length; apply nth_error_Some; congruence).
    destruct (child_idx_lt ln cs k L) as (l1 & c & l2 & o & -> & CI & Ho & Hlo).
    apply Forall_app in Hf. destruct Hf as [Hf1 Hf]. apply Forall_cons_iff in Hf. destruct Hf as [Hc Hf2].
    rewrite slots_from_app in Hp. cbn [slots_from] in Hp. rewrite Nat.add_0_l in Hp.
    assert (L1 : length (flat_map elems (slots_from pre 0 l1)) = sum (map ln l1)).
    { rewrite flat_map_length. f_equal. clear -Hf1 HB. assert (G : forall i, map ln (slots_from pre i l1) = map ln l1); [|apply G]. induction l1 as [|a l1 IHl]; intros i; cbn; [reflexivity|]. rename Hf1 into Hf.
      apply Forall_cons_iff in Hf. destruct Hf as [Ha Hf]. f_equal; [eapply slots_wf; exact Ha|]. apply IHl, Hf. }
    destruct (slots_wf h c (pre ++ [length l1]) _ Hc) as [_ Ec].
    rewrite flat_map_app in Hp. cbn [flat_map] in Hp. rewrite nth_error_app2 in Hp by lia. rewrite nth_error_app1 in Hp by (unfold ln in Ec; unfold ln in *; lia).
    rewrite flat_map_app in Hx. cbn [flat_map] in Hx. rewrite nth_error_app2 in Hx by (rewrite flat_map_length; lia).
    rewrite nth_error_app1 in Hx by (rewrite flat_map_length; unfold ln in *; lia).
    rewrite L1 in Hp. rewrite flat_map_length in Hx. replace (k - sum (map ln l1)) with o in * by lia.
    destruct (IH c (pre ++ [length l1]) _ o x p Hc Hp Hx) as (q & c' & -> & P1 & P2 & P3).
    exists (length l1 :: q). eexists. split; [rewrite <- app_assoc; reflexivity|].
    cbn [poke node_set]. rewrite CI, !with_nth_mid, P1, P2. cbn [option_bind]. rewrite !slice_set_mid. cbn [option_bind].
    split; [reflexivity|]. split; [reflexivity|]. intros pre'. rewrite !slots_internal, !slots_from_app. cbn [slots_from]. rewrite P3. reflexivity.
Qed.

Lemma nth_skip {A} (l : list A) : forall i x, nth_error l i = Some x -> skipn i l = x :: skipn (S i) l.
Proof. induction l as [|a l IH]; intros [|i] x H; cbn in *; try discriminate; [congruence|]. apply IH, H. Qed.
Lemma first_app {A} n (a b : list A) : length a = n -> firstn n (a ++ b) = a.
Proof. intros <-. rewrite firstn_app, firstn_all, Nat.sub_diag. cbn. apply app_nil_r. Qed.
Lemma skip_app {A} n m (a b : list A) : length a = n -> skipn (n + m) (a ++ b) = skipn m b.
Proof. intros <-. induction a as [|x a IH]; cbn; auto. Qed.
Lemma skip_skip {A} n : forall m (l : list A), skipn n (skipn m l) = skipn (m + n) l.
Proof. induction m as [|m IH]; intros [|x l]; cbn; auto. destruct n; reflexivity. Qed.

(** Writing to consecutive places. *)
Lemma poke_all_ok (P : node T -> node T -> Prop) h lo (f : nat -> T -> T) :
  (forall n n' i x, wf B lo h n -> node_set n i x = Some (Some n') -> P n n') -> (forall n, wf B lo h n -> P n n) -> (forall a b c, P a b -> P b c -> P a c) ->
  forall m k s (n : node T), wf B lo h n -> s + m <= ln n ->
  exists n', poke_all f k (firstn m (skipn s (elems (slots [] n)))) n = Some n' /\ wf B lo h n' /\ P n n' /\
    elems n' = firstn s (elems n) ++ mapi_from k f (firstn m (skipn s (elems n))) ++ skipn (s + m) (elems n).
Proof.
  intros PS PR PT. induction m as [|m IH]; intros k s n W L.
  - cbn [firstn poke_all mapi_from]. exists n. rewrite Nat.add_0_r. cbn [app]. rewrite firstn_skipn. auto.
  - destruct (slots_wf h n [] lo W) as [_ EL]. unfold ln in *.
    destruct (nth_error (elems n) s) as [x|] eqn:X; [|apply nth_error_None in X; lia].
    destruct (nth_error (elems (slots [] n)) s) as [p|] eqn:Pp; [|apply nth_error_None in Pp; lia].
    rewrite (nth_skip _ _ _ Pp), (nth_skip _ _ _ X). cbn [firstn poke_all mapi_from].
    destruct (poke_ok (f k) h n [] lo s x p W Pp X) as (q & n1 & -> & P1 & P2 & P3). cbn [app] in *. rewrite P1. cbn [option_bind].
    assert (Ls : s < length (elems n)) by lia.
    destruct (node_set_ok B HB h n lo s (f k x) W) as [N1 _]. destruct (N1 Ls) as (n1' & E1 & W1 & EE). rewrite P2 in E1. injection E1 as <-.
    rewrite <- (P3 []). assert (L1 : S s + m <= length (elems n1)) by (rewrite EE, length_upd; lia).
    destruct (IH (S k) (S s) n1 W1 L1) as (n' & Q1 & Q2 & Q3 & Q4). exists n'. split; [exact Q1|]. split; [exact Q2|].
    split; [eapply PT; [eapply PS; [exact W|exact P2]|exact Q3]|]. rewrite Q4, EE. unfold upd.
    assert (Lf : length (firstn s (elems n)) = s) by (rewrite firstn_length; lia).
    replace (firstn s (elems n) ++ f k x :: skipn (S s) (elems n)) with ((firstn s (elems n) ++ [f k x]) ++ skipn (S s) (elems n)) by (rewrite <- app_assoc; reflexivity).
    assert (Ln : length (firstn s (elems n) ++ [f k x]) = S s) by (rewrite app_length, Lf; cbn; lia).
    rewrite (first_app _ _ _ Ln), (skip_app _ _ _ _ Ln).
    rewrite <- (Nat.add_0_r (S s)) at 1. rewrite (skip_app _ _ _ _ Ln). change (skipn 0 (skipn (S s) (elems n))) with (skipn (S s) (elems n)). rewrite <- app_assoc. cbn [app]. do 3 f_equal.
    rewrite skip_skip. f_equal. lia.
Qed.

(** The references of [range_mut] and [iter_mut], written through in order. *)
Lemma tv_range_mut_ok (P : node T -> node T -> Prop) h (f : nat -> T -> T) :
  (forall n n' i x, tv_wf B h n -> node_set n i x = Some (Some n') -> P n n') -> (forall n, tv_wf B h n -> P n n) -> (forall a b c, P a b -> P b c -> P a c) ->
  forall (t : node T) a b, tv_wf B h t ->
  (a <= b -> b <= length (elems t) -> exists t', tv_range_mut t a b f = Some t' /\ tv_wf B h t' /\ P t t' /\
     elems t' = firstn a (elems t) ++ mapi_from 0 f (firstn (b - a) (skipn a (elems t))) ++ skipn b (elems t)) /\
  (~ (a <= b <= length (elems t)) -> tv_range_mut t a b f = None).
Proof.
  intros PS PR PT t a b W. destruct (slots_wf h t [] _ W) as [WS EL]. unfold tv_range_mut. split.
  - intros Ha Hb. destruct (tv_range_ok B HB h (slots [] t) a b WS Ha) as (it & -> & Hg & He); [unfold ln in EL; lia|]. cbn [option_bind].
    rewrite (iter_collect_ok B HB it); [|assumption|].
    + cbn [option_bind]. rewrite He. destruct (poke_all_ok P h _ f PS PR PT (b - a) 0 a t W) as (t' & Q1 & Q2 & Q3 & Q4); [unfold ln; lia|].
      replace (a + (b - a)) with b in Q4 by lia. exists t'. auto.
    + rewrite He, firstn_length, skipn_length, (tv_len_ok B h t W). unfold ln in EL. lia.
  - intros N. rewrite (tv_range_oob B HB h (slots [] t) a b WS); [reflexivity|]. unfold ln in EL. lia.
Qed.
Lemma tv_iter_mut_ok (P : node T -> node T -> Prop) h (f : nat -> T -> T) :
  (forall n n' i x, tv_wf B h n -> node_set n i x = Some (Some n') -> P n n') -> (forall n, tv_wf B h n -> P n n) -> (forall a b c, P a b -> P b c -> P a c) ->
  forall (t : node T), tv_wf B h t ->
  exists t', tv_iter_mut t f = Some t' /\ tv_wf B h t' /\ P t t' /\ elems t' = mapi_from 0 f (elems t).
Proof.
  intros PS PR PT t W. destruct (slots_wf h t [] _ W) as [WS EL]. unfold tv_iter_mut.
  destruct (tv_iter_ok B HB h (slots [] t) WS) as (it & -> & Hg & He). cbn [option_bind].
  rewrite (iter_collect_ok B HB it) by (rewrite ?He, ?(tv_len_ok B h t W); auto; unfold ln in EL; lia). cbn [option_bind]. rewrite He.
  destruct (poke_all_ok P h _ f PS PR PT (length (elems t)) 0 0 t W) as (t' & Q1 & Q2 & Q3 & Q4); [unfold ln; lia|].
  cbn [skipn] in Q1, Q4. unfold ln in EL. rewrite <- EL, firstn_all in Q1. rewrite firstn_all, Nat.add_0_l, skipn_all, app_nil_r in Q4. exists t'. auto.
Qed.
End M.
