(** Specification vocabulary for asking for ratings. *)
From Coquelicot Require Import Coquelicot.
From Coq Require Import Reals List.
From Verif Require Import M_AbsProbit M_Beta S_Gamma S_Psd S_Acq.
Local Open Scope R_scope.

(** the density of the rating [q] of a point whose value under sample k is [s k] *)
Definition rating_density (a : abs_probit) (eps : R) (s : nat -> R) (q : R) (k : nat) : R := exp (abs_py true_special a eps s (q, k)).
(** what hearing the rating [q] contributes to the expected alignment *)
Definition heard (a : abs_probit) (eps : R) (M : nat) (f : nat -> nat -> R) (s : nat -> R) (q : R) : R :=
  answer_chance M (rating_density a eps s q) * posterior_alignment M f (rating_density a eps s q).
(** the expected alignment after hearing a rating is [l] *)
Definition expected_after (a : abs_probit) (eps : R) (M : nat) (f : nat -> nat -> R) (s : nat -> R) (l : R) : Prop := total (heard a eps M f s) l.
(** the chance, averaged over the samples, that the rating lies between [y] and [z] *)
Definition chance_between (a : abs_probit) (eps : R) (M : nat) (s : nat -> R) (y z : R) : R :=
  sumn M (fun k => abs_cdf true_special a eps z (s k) - abs_cdf true_special a eps y (s k)) / INR M.
(** an integration routine for lists of functions which is right up to [err] in every component *)
Definition integrates (lo hi err : R) (quad : list (R -> R) -> list R) : Prop :=
  forall gs, length (quad gs) = length gs /\ forall c, (c < length gs)%nat -> ex_RInt (nth c gs (fun _ => 0)) lo hi -> Rabs (nth c (quad gs) 0 - RInt (nth c gs (fun _ => 0)) lo hi) <= err.
(** the routine without error *)
Definition exact_integrals (lo hi : R) (gs : list (R -> R)) : list R := map (fun g => RInt g lo hi : R) gs.
