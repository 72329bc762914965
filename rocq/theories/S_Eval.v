(** Specification vocabulary for the evaluation of path problems. *)
From Coq Require Import Reals List Permutation Sorted.
From Verif Require Import M_RBase M_Eval.
Import ListNotations.
Local Open Scope R_scope.

(** a sorting routine: the positions in an order of non-decreasing values, whatever it does with equal values *)
Definition sorts (argsort : list R -> list nat) : Prop :=
  forall v, Permutation (argsort v) (seq 0 (length v)) /\ StronglySorted (fun i j => nth i v 0 <= nth j v 0) (argsort v).
(** the order in which a set is enumerated *)
Definition enumerates (enum : list nat -> list nat) : Prop := forall s, Permutation (enum s) s.
(** a function that values every path *)
Definition values_each {A} (f : list A -> list R) : Prop := forall l, length (f l) = length l.
(** the Pareto paths of a problem are exactly its first paths *)
Definition pareto_first {A} (p : problem A) : Prop :=
  Permutation (pr_pareto p) (seq 0 (length (pr_pareto p))) /\ (length (pr_pareto p) <= length (pr_rewards p))%nat.
(** distinct indices of existing paths *)
Definition proper_pareto {A} (p : problem A) : Prop :=
  NoDup (pr_pareto p) /\ Forall (fun i => (i < length (pr_rewards p))%nat) (pr_pareto p) /\ pr_pareto p <> [].
(** the paths that are evaluated *)
Definition pareto_paths {A} (p : problem A) : list A :=
  flat_map (fun i => match nth_error (pr_rewards p) i with Some x => [x] | None => [] end) (pr_pareto p).
(** the number of entries that are above, or not below, [x] *)
Definition above (u : list R) (x : R) : nat := length (filter (fun y => if Rlt_dec x y then true else false) u).
Definition not_below (u : list R) (x : R) : nat := length (filter (fun y => if Rle_dec x y then true else false) u).
(** [x] is a largest entry *)
Definition largest (u : list R) (x : R) : Prop := In x u /\ forall y, In y u -> y <= x.
(** values whose strict order is the strict order of [u] *)
Definition same_order (u v : list R) : Prop :=
  length u = length v /\ forall i j, (i < length u)%nat -> (j < length u)%nat -> (nth i u 0 < nth j u 0 <-> nth i v 0 < nth j v 0).
