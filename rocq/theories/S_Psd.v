(** Sums over indices and positive semidefinite matrices. *)
From Verif Require Export M_RBase.
Local Open Scope R_scope.

(** sum of [f 0], ..., [f (n-1)] *)
Fixpoint sumn (n : nat) (f : nat -> R) : R := match n with 0%nat => 0 | S n' => sumn n' f + f n' end.
(** the quadratic form of a matrix given by its entries *)
Definition qform (n : nat) (A : nat -> nat -> R) (c : nat -> R) : R := sumn n (fun i => sumn n (fun j => c i * c j * A i j)).
Definition psd (n : nat) (A : nat -> nat -> R) : Prop := forall c, 0 <= qform n A c.
Definition symmetric (n : nat) (A : nat -> nat -> R) : Prop := forall i j, (i < n)%nat -> (j < n)%nat -> A i j = A j i.
