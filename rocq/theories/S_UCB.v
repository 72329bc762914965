(** Specification of the upper-confidence-bound order. *)
From Coq Require Import List Reals.
Import ListNotations.
Local Open Scope R_scope.

(** candidate [y] has no larger bound mean + alpha * standard deviation than [x] *)
Definition ucb_le (alpha : R) (mu var : list R) (y x : nat) : Prop :=
  forall m v m' v', nth_error mu y = Some m -> nth_error var y = Some v -> nth_error mu x = Some m' -> nth_error var x = Some v' ->
    m + alpha * sqrt v <= m' + alpha * sqrt v'.

