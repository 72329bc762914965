(** Specification vocabulary for ratings in floating point. *)
From Coq Require Import Reals ZArith List.
From Flocq Require Import Core.
From Verif Require Import M_Base M_RBase M_Float M_FloatAbs S_Float S_FloatProbit.
Import ListNotations.
Local Open Scope R_scope.

(** sizes of the library functions for ordinary arguments: digamma is at most about 1/x near zero and log x for large x, polygamma(1, x) at
    most about 1/x^2 + 2, and the logarithm of a Beta density of a rating inside (0, 1) is a number, of a missing
    rating is missing *)
Definition regular (sp : special_fl) : Prop :=
  (forall x, bpow radix2 (-100) <= x <= bpow radix2 100 -> exists r, dg sp (Fin x) = Fin r /\ Rabs r <= bpow radix2 101) /\
  (forall x, bpow radix2 (-100) <= x <= bpow radix2 100 -> exists r, tg sp (Fin x) = Fin r /\ Rabs r <= bpow radix2 201) /\
  (forall a b, lpdf sp NaN a b = NaN) /\
  (forall x a b, bpow radix2 (-50) <= x <= 1 - bpow radix2 (-50) -> bpow radix2 (-100) <= a <= bpow radix2 100 -> bpow radix2 (-100) <= b <= bpow radix2 100 ->
     exists r, lpdf sp (Fin x) (Fin a) (Fin b) = Fin r /\ Rabs r <= bpow radix2 201).
(** a rating inside (0, 1) *)
Definition inside (x : fval) : Prop := exists r, x = Fin r /\ bpow radix2 (-50) <= r <= 1 - bpow radix2 (-50).
