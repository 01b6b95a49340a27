(** What a reader needs to understand the property theorems about curve comparison tables. *)
From Coq Require Import List Bool ZArith.
From Verif Require Import F64 F64Arith CurveOrderModel.
Import ListNotations.

Definition strict (o : order) : Prop := o <> Ish.

(** Adjacent elements are related. *)
Definition adjacent {A} (R : A -> A -> Prop) (l : list A) : Prop :=
  forall i a b, nth_error l i = Some a -> nth_error l (S i) = Some b -> R a b.

(** Heights never decrease along the list. *)
Definition nondecreasing (l : list f64) : Prop := adjacent (fun a b => fle a b = true) l.

(** Neighbouring orders differ and one of the two is "close". *)
Definition alternating (l : list order) : Prop := adjacent (fun a b => a <> b /\ (a = Ish \/ b = Ish)) l.

Definition heights (c : curve_order) : list f64 := co_start c :: map e_end (co_cmps c).
Definition orders (c : curve_order) : list order := map e_order (co_cmps c).

(** A well-formed table: at least one interval, no NaN, heights (start included) nondecreasing,
    orders alternating. *)
Definition table_wf (c : curve_order) : Prop :=
  co_cmps c <> [] /\ Forall (fun h => nan h = false) (heights c) /\
  nondecreasing (heights c) /\ alternating (orders c).

(** The last height of the table. *)
Definition table_end (c : curve_order) : f64 := last (heights c) (co_start c).

(** [interval c i s e o]: the [i]-th interval of the table. *)
Definition interval (c : curve_order) (i : nat) (s e : f64) (o : order) : Prop :=
  nth_error (heights c) i = Some s /\ nth_error (heights c) (S i) = Some e /\
  nth_error (orders c) i = Some o.

(** Equal heights (IEEE equality, or literally the same value). *)
Definition same_height (a b : f64) : Prop := feq a b = true \/ a = b.

(** The order pushed for height [y]: that of the first pushed interval reaching [y]. *)
Definition pushed_at (l : list (f64 * order)) (y : f64) : option order :=
  match find (fun '(e, _) => fge e y) l with Some (_, o) => Some o | None => None end.

(** The answer [r] is defined exactly when [orig] is, and is [orig] or "close". *)
Definition weakens (r orig : option order) : Prop :=
  match r, orig with
  | None, None => True
  | Some a, Some b => a = b \/ a = Ish
  | _, _ => False
  end.

(** Zero-height intervals. *)
Definition zero_height (s e : f64) : Prop := feq s e = true.

(** Any positive-height Right interval ending after [y]. *)
Definition right_later (c : curve_order) (y : f64) (i : nat) : Prop :=
  exists s e, interval c i s e Right /\ fgt e y = true /\ ~ zero_height s e.

Definition touch_post (c : curve_order) (y : f64) (r : touch_result) : Prop :=
  match r with
  | TR None => forall i, ~ right_later c y i
  | TR (Some (Touch h)) => exists i y0 y1 y2,
      interval c i y0 y1 Ish /\ interval c (S i) y1 y2 Left /\ h = fmid y0 y1 /\
      flt y y0 = true /\ forall j, j <= S i -> ~ right_later c y j
  | TR (Some (Cross h)) => exists i s e, interval c i s e Right /\ fgt e y = true /\
      (forall j, j < i -> ~ right_later c y j) /\
      ((h = y /\ (i = 0 \/ fle s y = true)) \/
       (feq h s = true /\ exists k p, i = S k /\ interval c k p s Ish /\ zero_height p s) \/
       (exists k y0, i = S k /\ interval c k y0 s Ish /\ fgt s y = true /\ h = fmid y0 s))
  | _ => False
  end.
