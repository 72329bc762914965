(** Specification vocabulary for objectives that may be missing. *)
From Coq Require Import Reals.
From Verif Require Import M_Float.
Local Open Scope R_scope.

(** the order of the values other than NaN *)
Definition notabove (a b : fval) : Prop :=
  match a, b with NaN, _ | _, NaN => False | NInf, _ | _, PInf => True | Fin x, Fin y => x <= y | _, _ => False end.
(** a number up to the step [t], the value [v] for longer steps *)
Definition until (phi : R -> fval) (t : R) (v : fval) : Prop :=
  (forall lam, lam <= t -> exists x, phi lam = Fin x) /\ forall lam, t < lam -> phi lam = v.
(** the values that the other model of the line searches knows *)
Definition plain (phi : R -> fval) (psi : R -> option R) : Prop := forall lam, phi lam = match psi lam with Some x => Fin x | None => NInf end.
