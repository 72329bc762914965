(** Specification vocabulary for the synthetic users. *)
From Verif Require Import M_Base M_RBase.
Local Open Scope R_scope.

(** [i] is the first position of the largest entry *)
Definition first_max (v : list R) (i : nat) : Prop :=
  exists m, nth_error v i = Some m /\ (forall j x, nth_error v j = Some x -> x <= m) /\
    (forall j x, (j < i)%nat -> nth_error v j = Some x -> x < m).

(** the probability that an option [d] better than another is preferred by a Luce-Shepard user of rationality [b] is at least
    the threshold below which HumanChoiceUser2 ignores a pair *)
Definition pair_probability (b d : R) : R := exp (Rabs d * b) / (1 + exp (Rabs d * b)).
Definition informative (b d : R) : Prop := 50000001 / 100000000 <= pair_probability b d.
