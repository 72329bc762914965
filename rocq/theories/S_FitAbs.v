(** Specification vocabulary for fitting with ratings. *)
From Coquelicot Require Import Coquelicot.
From Coq Require Import Reals List.
From Verif Require Import M_RBase M_AbsProbit M_Fit S_AbsProbit S_Fit.
Local Open Scope R_scope.

(** ratings only *)
Definition abs_only (a : list (R * nat)) : labels := mkLabels None None (Some a).
(** log density of the rating [x] of a point with value [f], for the probits of the model *)
Definition rated (sp : special) (P : probit_set) (x f : R) : R := rating_ll sp (a_v (ps_a P)) (a_sigma (ps_a P)) x f.
(** no log density of a rating is convex at the current values *)
Definition curved_down (sp : special) (P : probit_set) (y : labels) (F : nat -> R) : Prop :=
  forall a, y_abs y = Some a -> forall p, In p a -> Derive (Derive (rated sp P (fst p))) (F (snd p)) <= 0.
(** no rating pulls the value of its point towards zero *)
Definition outward (sp : special) (P : probit_set) (y : labels) (F : nat -> R) : Prop :=
  forall a, y_abs y = Some a -> forall p, In p a -> 0 <= F (snd p) * Derive (rated sp P (fst p)) (F (snd p)).
