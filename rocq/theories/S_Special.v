(** Fronts and best candidates of values with infinities and NaN, independent of the algorithms. *)
From Coq Require Import List QArith.
From Verif Require Import M_Special.
Import ListNotations.

(** the order of numbers and infinities; NaN has no place in it *)
Definition xle (x y : xval) : Prop :=
  match x, y with
  | XNaN, _ | _, XNaN => False
  | XNInf, _ | _, XPInf => True
  | XNum a, XNum b => (a <= b)%Q
  | _, _ => False
  end.
(** rows of one length *)
Definition xrect (k : nat) (V : list (list xval)) : Prop := Forall (fun r => length r = k) V.
(** a row without NaN, a row of NaN *)
Definition complete (r : list xval) : Prop := ~ In XNaN r.
Definition all_nan (r : list xval) : Prop := Forall (eq XNaN) r.
(** [r] is nowhere larger than [p] *)
Definition xbelow (r p : list xval) : Prop := Forall2 xle r p.
(** row [i] is complete, no row dominates it, and no earlier one equals it *)
Definition xfront (V : list (list xval)) (i : nat) : Prop :=
  exists r, nth_error V i = Some r /\ complete r /\
    (forall j p, nth_error V j = Some p -> xbelow r p -> xbelow p r) /\
    (forall j p, (j < i)%nat -> nth_error V j = Some p -> ~ (xbelow r p /\ xbelow p r)).
(** where both rows have a value, [r] is not larger than [p] *)
Definition nowhere_above (r p : list xval) : Prop :=
  forall k x y, nth_error r k = Some x -> nth_error p k = Some y -> x = XNaN \/ y = XNaN \/ xle x y.
