(** Model of src/curve/mod.rs:518-629: quadratic functions, their roots and signs. *)
From Coq Require Import ZArith Bool Reals.
From Flocq Require Import BinarySingleNaN.
From Verif Require Import F64 F64Arith TreeVecModel SegmentsModel SweepModel PosModel CompareModel.

(** curve/mod.rs:518-530 [QuadraticSigns]. *)
Record qsigns : Type := mkSigns { q_smaller : f64; q_bigger : f64; q_initial : f64 }.
(** curve/mod.rs:532-541 [Quadratic]. *)
Record quadratic : Type := mkQuad { q_c2 : f64; q_c1 : f64; q_c0 : f64 }.

(** curve/mod.rs:558 [2.0f64.powi(-515)]. *)
Definition q_scale : f64 := fdiv fone (f64_of_Z (2 ^ 515)).
(** curve/mod.rs:545-600 [Quadratic::signs]; [dbg] says whether debug assertions are on.  [n] bounds the depth of the recursion. *)
Fixpoint signs (dbg : bool) (n : nat) (q : quadratic) : res qsigns :=
  match n with
  | O => Err EFuel
  | S n =>
      let c2 := q_c2 q in let c1 := q_c1 q in let c0 := q_c0 q in
      if dbg && negb (fin c2 && fin c1 && fin c0) then Err EAssert else
      let disc := fsub (fmul c1 c1) (fmul (fmul ffour c2) c0) in
      if negb (fin disc) then signs dbg n (mkQuad (fmul c2 q_scale) (fmul c1 q_scale) (fmul c0 q_scale))
      else if flt disc fzero then Ok (mkSigns fneginf fneginf c2)
      else
        let z := fadd c1 (fcopysign (fsqrt disc) c1) in
        let root1 := fdiv (fmul (fneg ftwo) c0) z in
        let root2 := fdiv (fneg z) (fmul ftwo c2) in
        if feq z fzero then Ok (mkSigns fneginf fneginf fzero)
        else if dbg && (nan root1 || nan root2) then Err EAssert
        else Ok (mkSigns (fmin root1 root2) (fmax root1 root2) (if finf root2 then c1 else c2))
  end.
(** curve/mod.rs:602-605 [Quadratic::max_coeff]. *)
Definition max_coeff (q : quadratic) : f64 := fmax (fmax (fabs (q_c2 q)) (fabs (q_c1 q))) (fabs (q_c0 q)).
(** curve/mod.rs:607-610 [Quadratic::eval]. *)
Definition q_eval (q : quadratic) (t : f64) : f64 := fadd (fadd (fmul (fmul (q_c2 q) t) t) (fmul (q_c1 q) t)) (q_c0 q).
(** curve/mod.rs:612-619 [Quadratic::shift], in exact arithmetic: the coefficients of the answer. *)
Definition q_shift (c2 c1 c0 s : R) : R * R * R :=
  (c2, (c1 - 2 * c2 * s)%R, (c0 + c2 * s * s - c1 * s)%R).
