(** Properties of contours (C34-C36, C52, C53). *)
From Coq Require Import List Bool ZArith Arith Lia Permutation Sorted.
From Verif Require Import F64 F64Arith TreeVecModel GeomModel SegmentsModel SegmentsSpec CurveOrderModel SweepModel SweepSpec RangeModel RangeSpec TopoModel TopoSpec ContoursModel ContoursSpec ContoursProofs ContoursProofs2 ContoursProofs3.
Import ListNotations.

(** C34.  For every topology whose rings and winding numbers are consistent and every set of winding numbers, [contours] returns contours
    without panicking; together they hold every output segment that has the set on exactly one of its sides exactly once, and no other
    segment; every contour is a closed walk with the set on its left. *)
Theorem contours_partition : forall (W : Type) (t : topo W) (inside : W -> bool), well_formed t ->
  exists cs, contours t inside = Ok cs /\
    NoDup (map h_idx (concat (map c_segs cs))) /\
    (forall o, In o (map h_idx (concat (map c_segs cs))) <-> boundary t inside o) /\
    Forall (fun c => closed_walk t (c_segs c) /\ set_on_left t inside (c_segs c)) cs.
Proof.
  intros W t inside WF. destruct (contours_spec t inside WF) as (cs & E & N & B & F & _). exists cs. split; [exact E|]. split; [exact N|]. split; [exact B|].
  eapply Forall_impl; [|exact F]. cbn. tauto.
Qed.

(** C52.  A contour visits every point at most once.  (The code leaves stale entries in its table of visited points; they do no harm.) *)
Theorem contours_simple : forall (W : Type) (t : topo W) (inside : W -> bool) cs, well_formed t -> contours t inside = Ok cs ->
  Forall (fun c => visits_once t (c_segs c)) cs.
Proof.
  intros W t inside cs WF E. destruct (contours_spec t inside WF) as (cs' & E' & _ & _ & F & _). assert (cs = cs') as -> by congruence.
  eapply Forall_impl; [|exact F]. cbn. tauto.
Qed.

(** C35.  Contours without parent are outer, children are outer exactly if their parents are not, parents come first; so following
    parents leads to a contour without parent. *)
Theorem contours_nest : forall (W : Type) (t : topo W) (inside : W -> bool) cs, well_formed t -> contours t inside = Ok cs ->
  contour_forest cs /\ forall i, i < length cs -> exists r c, descends cs i r /\ nth_error cs r = Some c /\ c_parent c = None /\ c_outer c = true.
Proof.
  intros W t inside cs WF E. destruct (contours_spec t inside WF) as (cs' & E' & _ & _ & _ & F). assert (cs = cs') as -> by congruence. split; [exact F|].
  intros i L. destruct (root_of cs') with (i := i) as (r & D & P & LR); auto.
  - intros j p H. unfold par in H. destruct (nth_error cs' j) as [c|] eqn:Ej; [|discriminate]. specialize (F j c Ej). rewrite H in F. apply F.
  - destruct (nth_error cs' r) as [c|] eqn:Er; [|apply nth_error_None in Er; lia]. unfold par in P. rewrite Er in P. exists r, c. split; [exact D|]. split; [exact Er|]. split; [exact P|].
    specialize (F r c Er). rewrite P in F. exact F.
Qed.

(** C36.  Grouping a forest of contours lists each contour exactly once, one group for each contour without parent, which comes first, together
    with its descendants. *)
Theorem grouping : forall cs, contour_forest cs -> forall fuel, length cs <= fuel -> exists gs, grouped fuel cs = Ok gs /\
  Permutation (concat gs) (seq 0 (length cs)) /\
  map (fun g => hd_error g) gs = map Some (filter (fun i => match nth_error cs i with Some c => match c_parent c with None => true | _ => false end | None => false end) (seq 0 (length cs))) /\
  forall g, In g gs -> exists r tl, g = r :: tl /\ forall i, In i g <-> i < length cs /\ descends cs i r.
Proof.
  intros cs F fuel LF. destruct (grouped_spec cs) with (fuel := fuel) as (gs & E & P & H & G); auto.
  - intros j p X. unfold par in X. destruct (nth_error cs j) as [c|] eqn:Ej; [|discriminate]. specialize (F j c Ej). rewrite X in F. apply F.
  - exists gs. split; [exact E|]. split; [exact P|]. split.
    + rewrite H. f_equal. apply filter_ext_in. intros i Hi. apply in_seq in Hi. unfold par. destruct (nth_error cs i) as [c|] eqn:Ei; [reflexivity|]. apply nth_error_None in Ei. lia.
    + intros g Hg. destruct (G g Hg) as (r & tl & A & _ & _ & B). eauto.
Qed.
(** In particular for the contours of a topology. *)
Theorem grouping_contours : forall (W : Type) (t : topo W) (inside : W -> bool) cs, well_formed t -> contours t inside = Ok cs ->
  exists gs, grouped (length cs) cs = Ok gs /\ Permutation (concat gs) (seq 0 (length cs)).
Proof.
  intros W t inside cs WF E. destruct (contours_nest W t inside cs WF E) as (F & _). destruct (grouping cs F (length cs) (le_n _)) as (gs & G & P & _). eauto.
Qed.

(** ** Non-vacuity, and a defect *)
From Verif Require Import SegmentsProofs4 PropsSegments PropsSweep PropsRange PolyExample.

(** The topology of the rhombus with a hole in the shape of a bow tie is consistent, and has three contours. *)
Definition bowtie_contours : res (topo Z * list contour) := do! t := po_from bowtie 100 100 in do! cs := contours t Z.odd in Ok (t, cs).
Lemma bowtie_wf : exists t cs, po_from bowtie 100 100 = Ok t /\ well_formed t /\ contours t Z.odd = Ok cs /\ bowtie_contours = Ok (t, cs).
Proof.
  assert (B : match po_from bowtie 100 100 with Ok t => wf_b t | Err _ => false end = true) by (vm_compute; reflexivity).
  unfold bowtie_contours. destruct (po_from bowtie 100 100) as [t|] eqn:E; [|discriminate B]. apply wf_b_ok in B.
  destruct (contours_partition Z t Z.odd B) as (cs & C & _). exists t, cs. split; [reflexivity|]. split; [exact B|]. split; [exact C|]. cbn [rbind]. rewrite C. reflexivity.
Qed.
Example bowtie_result : match bowtie_contours with
  | Ok (_, cs) => cs = [mkContour [second_half 0; second_half 6; first_half 9; first_half 1] None true;
                        mkContour [first_half 2; second_half 3; second_half 7] (Some 0) false;
                        mkContour [first_half 4; second_half 5; first_half 8] (Some 1) true] /\
                  grouped 3 cs = Ok [[0; 1; 2]]
  | Err _ => False
  end.
Proof. vm_compute. split; reflexivity. Qed.

(** Twice the signed area of a walk. *)
Definition point_at (t : topo Z) (h : half) : point := match TopoSpec.pt t h with Some p => nth p (t_points t) (pt 0 0) | None => pt 0 0 end.
Definition area (t : topo Z) (l : list half) : f64 :=
  fold_right (fun h s => let p := point_at t (other_half h) in let q := point_at t h in fadd s (fsub (fmul (px p) (py q)) (fmul (px q) (py p)))) fzero l.

(** C53.  There are closed contours from which [from_segments] makes a topology, in a sound setting, whose contours include one that
    is reported as outer though it is the boundary of a hole: its area has the sign of inner contours, opposite to that of the outer
    contour without parent. *)
Theorem pinched_hole_outer : exists l t cs c0 c1 c2,
  topo_input (po_tags bowtie) (po_arena bowtie) po_eps (po_cmp po_eps (po_arena bowtie)) (po_cmp po_eps (po_arena bowtie)) ex_min ex_max po_lo po_hi po_aty ex_pps (@isort) l /\
  po_from bowtie 100 100 = Ok t /\ well_formed t /\ contours t Z.odd = Ok cs /\ cs = [c0; c1; c2] /\
  flt (area t (c_segs c0)) fzero = true /\ c_outer c0 = true /\ c_parent c0 = None /\
  flt fzero (area t (c_segs c1)) = true /\ c_outer c1 = false /\ c_parent c1 = Some 0 /\
  flt fzero (area t (c_segs c2)) = true /\ c_outer c2 = true /\ c_parent c2 = Some 1.
Proof.
  destruct bowtie_input as (l & _ & TI). destruct bowtie_wf as (t & cs & E & WF & C & B).
  assert (X : match bowtie_contours with
    | Ok (t, [c0; c1; c2]) =>
        flt (area t (c_segs c0)) fzero && c_outer c0 && match c_parent c0 with None => true | _ => false end &&
        (flt fzero (area t (c_segs c1)) && negb (c_outer c1) && match c_parent c1 with Some 0 => true | _ => false end) &&
        (flt fzero (area t (c_segs c2)) && c_outer c2 && match c_parent c2 with Some 1 => true | _ => false end)
    | _ => false end = true) by (vm_compute; reflexivity).
  rewrite B in X. destruct cs as [|c0 [|c1 [|c2 [|]]]]; try discriminate X. rewrite !andb_true_iff in X. destruct X as ((((X1 & X2) & X3) & ((X4 & X5) & X6)) & ((X7 & X8) & X9)).
  exists l, t, [c0; c1; c2], c0, c1, c2. split; [exact TI|]. split; [exact E|]. split; [exact WF|]. split; [exact C|]. split; [reflexivity|].
  split; [exact X1|]. split; [exact X2|]. split; [destruct (c_parent c0); [discriminate X3 | reflexivity]|].
  split; [exact X4|]. split; [destruct (c_outer c1); [discriminate X5 | reflexivity]|]. split; [destruct (c_parent c1) as [[|]|]; try discriminate X6; reflexivity|].
  split; [exact X7|]. split; [exact X8|]. destruct (c_parent c2) as [[|[|]]|]; try discriminate X9; reflexivity.
Qed.

Print Assumptions contours_partition.
Print Assumptions contours_simple.
Print Assumptions contours_nest.
Print Assumptions grouping.
Print Assumptions grouping_contours.
Print Assumptions pinched_hole_outer.
