(** Specification vocabulary for ratings. *)
From Verif Require Export M_RBase.
From Coquelicot Require Import Coquelicot.
From Verif Require Import M_RBase M_Normal M_AbsProbit.
Local Open Scope R_scope.

(** what is used of the special functions: they are derivatives of each other, the trigamma function is positive and the
    tetragamma function is not too small (x psi2 x = - sum 2 x / (n + x)^3 >= - sum 2 / (n + x)^2 = - 2 psi1 x) *)
Record gamma_facts (sp : special) : Prop := mkFacts {
  gf_psi : forall x : R, 0 < x -> is_derive (lgam sp) x (psi sp x);
  gf_psi1 : forall x : R, 0 < x -> is_derive (psi sp) x (psi1 sp x);
  gf_psi2 : forall x : R, 0 < x -> is_derive (psi1 sp) x (psi2 sp x);
  gf_pos : forall x, 0 < x -> 0 < psi1 sp x;
  gf_low : forall x, 0 < x -> - 2 * psi1 sp x <= x * psi2 sp x }.
(** mean rating of a point with value [f] *)
Definition mean_rating (s f : R) : R := ndtr (f / (s * sqrt 2)).
(** log density at [x] of the Beta distribution with mean mu and parameters adding up to v *)
Definition rating_ll (sp : special) (v s x f : R) : R :=
  let mu := mean_rating s f in
  (v * mu - 1) * ln x + (v * (1 - mu) - 1) * ln (1 - x) - (lgam sp (v * mu) + lgam sp (v * (1 - mu)) - lgam sp v).
(** all ratings, repeated or not *)
Definition LLa (sp : special) (v s : R) (y : list (R * nat)) (F : nat -> R) : R := rsum (map (fun p => rating_ll sp v s (fst p) (F (snd p))) y).
(** no clipping *)
Definition free (eps s f : R) : Prop := -30 < f / (s * sqrt 2) < 100 /\ eps < mean_rating s f < 1 - eps.
Definition all_free (eps s : R) (y : list (R * nat)) (F : nat -> R) : Prop := forall p, In p y -> free eps s (F (snd p)).
(** ratings strictly between 0 and 1 *)
Definition ratings_in (y : list (R * nat)) : Prop := forall p, In p y -> 0 < fst p < 1.
