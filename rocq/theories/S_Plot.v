(** Specification vocabulary for plots of preferences. *)
From Coq Require Import Reals List ZArith.
From Verif Require Import M_Base M_Pairs M_Viz S_Viz.
Import ListNotations.
Local Open Scope R_scope.

(** the arrow [a] shows the pair [p] of points placed by [at_] : from the worse to the better point *)
Definition shows (at_ : nat -> R * R) (p : pair) (a : arrow) : Prop :=
  let '(label, i, j) := p in
  (label = (-1)%Z /\ line_from a = at_ j /\ line_to a = at_ i /\ points_to (atail a) (ahead a) (at_ j) (at_ i)) \/
  (label = 1%Z /\ line_from a = at_ i /\ line_to a = at_ j /\ points_to (atail a) (ahead a) (at_ i) (at_ j)).
(** a pair with a label of the library between two of [n] points *)
Definition proper (n : nat) (p : pair) : Prop := let '(label, i, j) := p in (label = (-1)%Z \/ label = 1%Z) /\ (i < n)%nat /\ (j < n)%nat.
(** the pair mentions a point from number [n] on *)
Definition mentions_from (n : nat) (p : pair) : Prop := let '(_, i, j) := p in (n <= i)%nat \/ (n <= j)%nat.
