(** Specification vocabulary for the fit of the linear model in floating point. *)
From Coq Require Import Reals ZArith List.
From Flocq Require Import Core.
From Verif Require Import M_Base M_RBase M_PrefProbit M_Float S_Float.
Import ListNotations.
Local Open Scope R_scope.

(** a finite number of the format binary64 *)
Definition isdouble (x : R) : Prop := rd b64 x = x /\ Rabs x < bpow radix2 1024.
(** matrices of zeros have no inverse *)
Definition rejects_zero (inv : list (list fval) -> option (list (list fval))) : Prop :=
  forall M, M <> [] -> (forall r, In r M -> r <> [] /\ forall v, In v r -> v = Fin 0) -> inv M = None.
(** every label is contradicted by the values [f] by at least [m] *)
Definition contradicted (m : R) (y : list pair) (f : nat -> R) : Prop := forall p, In p y -> dk_of p * (f (v_of p) - f (u_of p)) <= - m.
