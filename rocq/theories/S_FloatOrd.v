(** Specification vocabulary for ordinal labels in floating point. *)
From Coq Require Import Reals ZArith List Permutation.
From Flocq Require Import Core.
From Verif Require Import M_Base M_RBase M_Hyper M_OrdProbit M_Float M_FloatProbit M_FloatOrd S_Float.
Import ListNotations.
Local Open Scope R_scope.

(** [a] comes out of multiplying [l], in any order and with any brackets *)
Inductive multiplies (F : fmt) : list fval -> fval -> Prop :=
  | mult_one x : multiplies F [x] x
  | mult_two l1 l2 l a b : multiplies F l1 a -> multiplies F l2 b -> Permutation l (l1 ++ l2) -> multiplies F l (fmul F a b).
Definition products (F : fmt) (pr : list fval -> fval) : Prop := forall l, l <> [] -> multiplies F l (pr l).
(** labels of the probit: between 1 and the number of categories *)
Definition labelled (o : ord_probit) (y : list (nat * nat)) : Prop := forall k u, In (k, u) y -> (1 <= k <= o_n o)%nat.
(** sizes for which nothing can overflow: at least two categories, sigma, breakpoints and values of ordinary size *)
Definition ordinary (o : ord_probit) (f : nat -> R) : Prop :=
  (2 <= o_n o)%nat /\ bpow radix2 (-100) <= o_sigma o <= bpow radix2 100 /\ (forall k, Rabs (breakpoint o k) <= bpow radix2 100) /\ (forall i, Rabs (f i) <= bpow radix2 100).
