(** Specification vocabulary for the information gained by a rating. *)
From Coquelicot Require Import Coquelicot.
From Coq Require Import Reals List.
From Verif Require Import M_AbsProbit M_Beta S_Gamma S_Psd.
Local Open Scope R_scope.

(** an integration routine which is right whenever there is a total over the unit interval *)
Definition exact_total (integ : (R -> R) -> R) : Prop := forall g l, total g l -> integ g = l.
(** the chance that a point of value [f] is rated above the mean rating of a point of value [g] *)
Definition rated_above (a : abs_probit) (eps f g : R) : R := 1 - abs_cdf true_special a eps (mean_link a eps g) f.
(** the surprise, in natural units, of such a rating averaged over the samples and over which candidate is the best *)
Definition mean_surprise (a : abs_probit) (eps : R) (M N : nat) (p : nat -> R) (all_f : nat -> nat -> R) (c : nat) : R :=
  sumn N (fun B => p B * (sumn M (fun k => - ln (rated_above a eps (all_f k c) (all_f k B))) / INR M)).
(** there is such a routine *)
Definition improper (g : R -> R) : R := RInt_gen (V := R_CompleteNormedModule) g (at_right 0) (at_left 1).
