(** Specification of the Pareto front, independent of the algorithm. *)
From Coq Require Import List QArith Sorted.
Import ListNotations.

(** a matrix whose rows all have [k] columns *)
Definition rect (k : nat) (V : list (list Q)) : Prop := Forall (fun r => length r = k) V.

(** [r] is nowhere larger than [p] *)
Definition weakly_below (r p : list Q) : Prop := Forall2 Qle r p.

(** [p] is strictly larger than [r] in some coordinate *)
Definition better_somewhere (r p : list Q) : Prop :=
  exists k x y, nth_error r k = Some x /\ nth_error p k = Some y /\ (x < y)%Q.

Definition dominated_by (r p : list Q) : Prop := weakly_below r p /\ better_somewhere r p.

(** row [i] is not dominated by any row, and no earlier row has the same values *)
Definition on_front (V : list (list Q)) (i : nat) : Prop :=
  exists r, nth_error V i = Some r /\
    (forall j p, nth_error V j = Some p -> ~ dominated_by r p) /\
    (forall j p, (j < i)%nat -> nth_error V j = Some p -> ~ Forall2 Qeq r p).
