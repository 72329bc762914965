(** Specification vocabulary for ProbabilityLearner. *)
From Verif Require Export S_PBest.
From Verif Require Import M_Base M_Normal.
From Coq Require Import Reals List.
Import ListNotations.
Local Open Scope R_scope.

(** exact for one normal variable: the chance that it is at most zero *)
Definition exact_zero (f : list R -> list (list R) -> result R) : Prop := forall m v, 0 < v -> f [m] [[v]] = Ok (ndtr (- m / sqrt v)).
(** a routine that never fails, with values in [0, 1] *)
Definition total_cdf (f : list R -> list (list R) -> result R) : Prop := forall mu cov, exists p, f mu cov = Ok p /\ 0 <= p <= 1.
(** a call that ends with an exception *)
Definition fails {A} (r : result A) : Prop := exists e, r = Raise e.
