(** Monotonicity facts about binary64 addition, subtraction and halving, used for slop and
    midpoints.  These rest on Flocq's correctness theorems and hence on Coq's real numbers. *)
From Coq Require Import ZArith Bool Lia Reals Lra.
From Flocq Require Import Core BinarySingleNaN.
From Verif Require Import F64.
Local Open Scope R_scope.

Notation fexp64 := (SpecFloat.fexp 53 1024).
Notation rnd64 := (round radix2 fexp64 (round_mode mode_NE)).

#[local] Instance vexp : Valid_exp fexp64 := fexp_correct 53 1024 _.
#[local] Instance mexp : Monotone_exp fexp64 := fexp_monotone 53 1024.

Lemma B2R_key (x : f64) : fin x = true -> B2R x = IZR (key x) * bpow radix2 (-1074).
Proof.
  destruct x as [s|s| |s m e H]; try discriminate; intros _.
  - simpl. lra.
  - pose proof (bounded_digits m e H) as (He & _ & _).
    unfold B2R, F2R, key. cbn [Fnum Fexp]. cbv zeta.
    replace (if s then (- (Z.pos m * 2 ^ (e + 1074)))%Z else (Z.pos m * 2 ^ (e + 1074))%Z)
      with (cond_Zopp s (Z.pos m) * 2 ^ (e + 1074))%Z by (destruct s; cbn [cond_Zopp]; ring).
    rewrite mult_IZR. rewrite (IZR_Zpower radix2) by lia. rewrite Rmult_assoc, <- bpow_plus.
    do 2 f_equal. lia.
Qed.

Lemma key_le_R (x y : f64) : fin x = true -> fin y = true -> (key x <= key y)%Z <-> B2R x <= B2R y.
Proof.
  intros Hx Hy. rewrite !B2R_key by assumption.
  pose proof (bpow_gt_0 radix2 (-1074)) as Hp. split; intros H.
  - apply Rmult_le_compat_r; [lra|]. apply IZR_le, H.
  - apply le_IZR. apply Rmult_le_reg_r in H; assumption.
Qed.

Lemma key_inf_ge (x : f64) : nan x = false -> (- key_inf <= key x <= key_inf)%Z.
Proof.
  destruct x as [s|s| |s m e H]; try discriminate; intros _.
  - split; vm_compute; discriminate.
  - destruct s; split; vm_compute; discriminate.
  - pose proof (key_finite_bound m e H). unfold key. destruct s; lia.
Qed.

(** Adding a finite non-negative amount never yields NaN and never decreases. *)
Lemma fadd_ge (x s : f64) : nan x = false -> fin s = true -> fle fzero s = true ->
  nan (fadd x s) = false /\ (key x <= key (fadd x s))%Z.
Proof.
  intros Hx Hs Hle.
  assert (Hks : (0 <= key s)%Z).
  { rewrite fle_key in Hle by (try apply fin_nonnan; auto). apply Z.leb_le in Hle. exact Hle. }
  destruct (fin x) eqn:Fx.
  - pose proof (Bplus_correct 53 1024 _ _ mode_NE x s Fx Hs) as H. fold (fadd x s) in H.
    assert (Hsr : 0 <= B2R s).
    { change 0 with (B2R fzero). apply key_le_R; auto. }
    assert (Hmono : B2R x <= rnd64 (B2R x + B2R s)).
    { rewrite <- (round_generic radix2 fexp64 (round_mode mode_NE) (B2R x)) at 1 by apply generic_format_B2R.
      apply round_le; [typeclasses eauto..|]. lra. }
    destruct (Rlt_bool _ _).
    + destruct H as (HR & HF & _). split; [apply fin_nonnan; exact HF|].
      apply key_le_R; [assumption|exact HF|]. rewrite HR. exact Hmono.
    + destruct H as (HS & Hsign).
      assert (Hxs : Bsign s = false \/ B2R s = 0).
      { destruct s as [ss|ss| |ss m e Hb]; try discriminate; [right; reflexivity|].
        destruct ss; [|left; reflexivity]. exfalso. pose proof (key_finite_bound m e Hb). unfold key in Hks. lia. }
      destruct Hxs as [Hxs|Hxs].
      * rewrite Hxs in Hsign. rewrite Hsign in HS. unfold binary_overflow in HS. cbn in HS.
        destruct (fadd x s) as [?|s'| |] eqn:E; try discriminate. injection HS as ->.
        split; [reflexivity|]. pose proof (key_inf_ge x Hx). unfold key at 2. lia.
      * (* adding zero: handled by the generic format *)
        destruct s as [ss|ss| |ss m e Hb]; try discriminate.
        -- destruct x as [sx|sx| |sx mx ex Hbx]; try discriminate; destruct sx, ss; discriminate HS.
        -- exfalso. unfold B2R in Hxs. apply eq_0_F2R in Hxs. destruct ss; discriminate.
  - destruct x as [sx|sx| |sx mx ex Hbx]; try discriminate.
    destruct s as [ss|ss| |ss m e Hb]; try discriminate; (split; [reflexivity|apply Z.le_refl]).
Qed.

Lemma key_fneg x : key (fneg x) = (- key x)%Z.
Proof.
  destruct x as [s|s| |s m e H]; try reflexivity.
  - unfold key, fneg, Bopp. destruct s; cbn [negb]; lia.
  - unfold key, fneg, Bopp. destruct s; cbn [negb]; lia.
Qed.

Lemma nan_fneg x : nan (fneg x) = nan x.
Proof. destruct x; reflexivity. Qed.

Lemma fsub_fneg x s : fsub x s = fadd x (fneg s).
Proof. destruct x, s; reflexivity. Qed.

Lemma fadd_le (x s : f64) : nan x = false -> fin s = true -> (key s <= 0)%Z ->
  nan (fadd x s) = false /\ (key (fadd x s) <= key x)%Z.
Proof.
  intros Hx Hs Hks.
  destruct (fin x) eqn:Fx.
  - pose proof (Bplus_correct 53 1024 _ _ mode_NE x s Fx Hs) as H. fold (fadd x s) in H.
    assert (Hsr : B2R s <= 0).
    { change 0 with (B2R fzero). apply key_le_R; auto. }
    assert (Hmono : rnd64 (B2R x + B2R s) <= B2R x).
    { rewrite <- (round_generic radix2 fexp64 (round_mode mode_NE) (B2R x)) at 2 by apply generic_format_B2R.
      apply round_le; [typeclasses eauto..|]. lra. }
    destruct (Rlt_bool _ _).
    + destruct H as (HR & HF & _). split; [apply fin_nonnan; exact HF|].
      apply key_le_R; [exact HF|assumption|]. rewrite HR. exact Hmono.
    + destruct H as (HS & Hsign).
      assert (Hxs : Bsign s = true \/ B2R s = 0).
      { destruct s as [ss|ss| |ss m e Hb]; try discriminate; [right; reflexivity|].
        destruct ss; [left; reflexivity|]. exfalso. pose proof (key_finite_bound m e Hb). unfold key in Hks. lia. }
      destruct Hxs as [Hxs|Hxs].
      * rewrite Hxs in Hsign. rewrite Hsign in HS. unfold binary_overflow in HS. cbn in HS.
        destruct (fadd x s) as [?|s'| |] eqn:E; try discriminate. injection HS as ->.
        split; [reflexivity|]. pose proof (key_inf_ge x Hx). unfold key at 1. lia.
      * destruct s as [ss|ss| |ss m e Hb]; try discriminate.
        -- destruct x as [sx|sx| |sx mx ex Hbx]; try discriminate; destruct sx, ss; discriminate HS.
        -- exfalso. unfold B2R in Hxs. apply eq_0_F2R in Hxs. destruct ss; discriminate.
  - destruct x as [sx|sx| |sx mx ex Hbx]; try discriminate.
    destruct s as [ss|ss| |ss m e Hb]; try discriminate; (split; [reflexivity|apply Z.le_refl]).
Qed.

Lemma fsub_le (x s : f64) : nan x = false -> fin s = true -> fle fzero s = true ->
  nan (fsub x s) = false /\ (key (fsub x s) <= key x)%Z.
Proof.
  intros Hx Hs Hle. rewrite fsub_fneg. apply fadd_le; [assumption| |].
  - destruct s; easy.
  - rewrite key_fneg. rewrite fle_key in Hle by (try apply fin_nonnan; auto).
    apply Z.leb_le in Hle. change (key fzero) with 0%Z in Hle. lia.
Qed.

(** ** Midpoints *)

(** Rust's [(a + b) / 2.0]. *)
Definition ftwo : f64 := f64_of_Z 2.
Definition fmid (a b : f64) : f64 := fdiv (fadd a b) ftwo.

Lemma ftwo_R : B2R ftwo = 2.
Proof.
  unfold ftwo. assert (fin (f64_of_Z 2) = true) as F by reflexivity.
  rewrite B2R_key by exact F.
  replace (key (f64_of_Z 2)) with (2 ^ 1075)%Z by (vm_compute; reflexivity).
  rewrite (IZR_Zpower radix2) by lia. rewrite <- bpow_plus. reflexivity.
Qed.

Lemma generic_double (x : f64) : fin x = true -> generic_format radix2 fexp64 (2 * B2R x).
Proof.
  intros Fx. destruct (Req_dec (B2R x) 0) as [E|E]; [rewrite E, Rmult_0_r; apply generic_format_0|].
  replace (2 * B2R x) with (B2R x * bpow radix2 1) by (simpl; lra).
  pose proof (generic_format_B2R 53 1024 x) as G.
  change fexp64 with (FLT_exp (-1074) 53) in *.
  apply generic_format_FLT. apply FLT_format_generic in G; [|reflexivity].
  destruct G as [[m e] G1 G2 G3]. exists (Float radix2 m (e + 1)).
  - rewrite G1. unfold F2R. cbn [Fnum Fexp]. rewrite bpow_plus. ring.
  - exact G2.
  - cbn [Fexp] in *. lia.
Qed.

(** When the sum does not overflow the midpoint lies between its arguments. *)
Lemma fmid_between (a b : f64) : fin a = true -> fin b = true -> (key a <= key b)%Z ->
  fin (fadd a b) = true ->
  fin (fmid a b) = true /\ (key a <= key (fmid a b) <= key b)%Z.
Proof.
  intros Fa Fb Hab Fs.
  pose proof (Bplus_correct 53 1024 _ _ mode_NE a b Fa Fb) as H. fold (fadd a b) in H.
  destruct (Rlt_bool _ _) eqn:E1.
  2: { destruct H as (HS & _). destruct (fadd a b); try discriminate; destruct (Bsign a); discriminate. }
  destruct H as (HR & _ & _). clear E1.
  apply key_le_R in Hab; [|assumption..].
  assert (L1 : 2 * B2R a <= B2R (fadd a b)).
  { rewrite HR. rewrite <- (round_generic radix2 fexp64 (round_mode mode_NE) (2 * B2R a)) by (apply generic_double; assumption).
    apply round_le; [typeclasses eauto..|]. lra. }
  assert (L2 : B2R (fadd a b) <= 2 * B2R b).
  { rewrite HR. rewrite <- (round_generic radix2 fexp64 (round_mode mode_NE) (2 * B2R b)) by (apply generic_double; assumption).
    apply round_le; [typeclasses eauto..|]. lra. }
  clear HR.
  pose proof (Bdiv_correct 53 1024 _ _ mode_NE (fadd a b) ftwo) as H. fold (fmid a b) in H.
  change (Bdiv mode_NE (fadd a b) ftwo) with (fmid a b) in H.
  rewrite ftwo_R in H. specialize (H ltac:(lra)).
  assert (M1 : B2R a <= rnd64 (B2R (fadd a b) / 2)).
  { rewrite <- (round_generic radix2 fexp64 (round_mode mode_NE) (B2R a)) at 1 by apply generic_format_B2R.
    apply round_le; [typeclasses eauto..|]. lra. }
  assert (M2 : rnd64 (B2R (fadd a b) / 2) <= B2R b).
  { rewrite <- (round_generic radix2 fexp64 (round_mode mode_NE) (B2R b)) by apply generic_format_B2R.
    apply round_le; [typeclasses eauto..|]. lra. }
  rewrite Rlt_bool_true in H.
  - destruct H as (HR & HF0 & _).
    assert (HF : fin (fmid a b) = true) by (unfold fin in *; congruence). split; [exact HF|].
    split; apply key_le_R; auto; rewrite HR; assumption.
  - pose proof (abs_B2R_lt_emax 53 1024 a) as A1. pose proof (abs_B2R_lt_emax 53 1024 b) as A2.
    apply Rabs_lt. apply Rabs_def2 in A1, A2. lra.
Qed.
