(** The special functions used by the rating probit, as mathematical functions: what scipy.special.gammaln, digamma, polygamma(1, .) and
    polygamma(2, .) stand for.  The logarithm of the gamma function is given by the product formula of Weierstrass. *)
From Coquelicot Require Import Coquelicot.
From Coq Require Import Reals.
From Verif Require Import M_RBase M_AbsProbit.
Local Open Scope R_scope.

(** Euler's constant *)
Definition euler_term (n : nat) : R := / INR (S n) - ln (1 + / INR (S n)).
Definition euler : R := Series euler_term.
Definition lgam_term (x : R) (n : nat) : R := (x - 1) / INR (S n) - ln (1 + (x - 1) / INR (S n)).
Definition psi_term (x : R) (n : nat) : R := / INR (S n) - / (x + INR n).
Definition psi1_term (x : R) (n : nat) : R := / (x + INR n) ^ 2.
Definition psi2_term (x : R) (n : nat) : R := - 2 / (x + INR n) ^ 3.
Definition true_special : special :=
  mkSpecial (fun x => - euler * (x - 1) + Series (lgam_term x)) (fun x => - euler + Series (psi_term x)) (fun x => Series (psi1_term x)) (fun x => Series (psi2_term x)).
(** convex on the positive numbers *)
Definition convex_pos (g : R -> R) : Prop := forall x y t, 0 < x -> 0 < y -> 0 <= t <= 1 -> g (t * x + (1 - t) * y) <= t * g x + (1 - t) * g y.
(** the total of [f] over the open unit interval is [l] *)
Definition total (f : R -> R) (l : R) : Prop := is_RInt_gen f (at_right 0) (at_left 1) l.
(** the total of [f] over the positive numbers is [l] *)
Definition total_pos (f : R -> R) (l : R) : Prop := is_RInt_gen f (at_right 0) (Rbar_locally p_infty) l.
(** the gamma function *)
Definition true_gamma (k : R) : R := exp (lgam true_special k).
