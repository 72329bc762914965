(** Specification vocabulary for the comparison probit in floating point. *)
From Coq Require Import Reals List.
From Verif Require Import M_Base M_RBase M_PrefProbit M_Float.
Local Open Scope R_scope.

(** a number, neither infinite nor NaN *)
Definition finite (v : fval) : Prop := exists x, v = Fin x.
(** the first or the second point is preferred *)
Definition sign (p : pair) : Prop := dk_of p = 1 \/ dk_of p = -1.
