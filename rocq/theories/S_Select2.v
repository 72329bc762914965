(** Specification vocabulary: what a learner knows when it selects. *)
From Verif Require Import M_Base M_Select.
From Coq Require Import List.
Import ListNotations.

(** the learner chose [i] as number [j] of [l] when it was given the set of all points selected before, each once *)
Definition told (L : learner) (prev l : list nat) (j i : nat) : Prop :=
  exists k idx P, l_greedy L k idx P = Ok i /\ NoDup P /\ forall x, In x P <-> In x prev \/ In x (firstn j l).
