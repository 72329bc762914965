(** Specification vocabulary for the hyper-parameter objective and its gradient. *)
From Verif Require Export M_RBase S_Fit.
From Coquelicot Require Import Coquelicot.
From Verif Require Import M_RBase M_Fit M_Hyper S_Kernel S_Fit.
From Coq Require Import Reals List.
Local Open Scope R_scope.

(** the value of an objective, and whether it has one *)
Definition value_of (r : result (option R)) : R := match r with Ok (Some v) => v | _ => 0 end.
Definition has_value (r : result (option R)) : Prop := exists v, r = Ok (Some v).
(** [l] is the derivative at [x] of an objective that has values around [x] *)
Definition objective_derive (f : R -> result (option R)) (x l : R) : Prop :=
  locally x (fun t => has_value (f t)) /\ is_derive (fun t => value_of (f t)) x l.
(** the probits with another noise of the comparisons *)
Definition with_sigma (P : probit_set) (s : R) : probit_set := mkProbits (mkPref s (p_opt (ps_p P))) (ps_o P) (ps_a P) (ps_eps P).
(** the linear map of the rows of a square matrix that a determinant is: linear in every row, zero when two rows are equal, one for the
    identity *)
Definition with_row (A : nat -> nat -> R) (i : nat) (v : nat -> R) : nat -> nat -> R := fun r c => if Nat.eqb r i then v c else A r c.
Definition is_determinant (n : nat) (D : (nat -> nat -> R) -> R) : Prop :=
  (forall A i a u v, (i < n)%nat -> D (with_row A i (fun c => a * u c + v c)) = a * D (with_row A i u) + D (with_row A i v)) /\
  (forall A i j, (i < n)%nat -> (j < n)%nat -> i <> j -> (forall c, A i c = A j c) -> D A = 0) /\
  D (fun i j => if Nat.eqb i j then 1 else 0) = 1.
(** a model that learns the noise of comparisons, and nothing about other labels *)
Definition noise_model (m : hmodel) : Prop := h_rel m = true /\ h_ord m = false /\ h_abs m = false /\ p_opt (h_p m) = true.
(** validation labels of the kinds the model was trained with *)
Definition same_kinds (m : hmodel) (y : labels) : Prop :=
  (h_rel m = true <-> y_rel y <> None) /\ (h_ord m = true <-> y_ord y <> None) /\ (h_abs m = true <-> y_abs y <> None).
