(** Specification vocabulary for probits: partial derivatives. *)
From Verif Require Export M_RBase.
From Coquelicot Require Import Coquelicot.
From Verif Require Import M_RBase M_PrefProbit.
Local Open Scope R_scope.

(** the vector with entry [i] replaced *)
Definition upd (F : nat -> R) (i : nat) (t : R) : nat -> R := fun a => if Nat.eqb a i then t else F a.
(** [l] is the partial derivative of [f] with respect to entry [i] at [F] *)
Definition has_partial (f : (nat -> R) -> R) (i : nat) (F : nat -> R) (l : R) : Prop := is_derive (fun t : R => f (upd F i t)) (F i) l.
(** the value of the partial derivative *)
Definition partial (i : nat) (f : (nat -> R) -> R) (F : nat -> R) : R := Derive (fun t : R => f (upd F i t)) (F i).
(** no pair is clipped *)
Definition unclipped (s : R) (y : list pair) (F : vec) : Prop := forall p, In p y -> -30 < dk_of p * (F (v_of p) - F (u_of p)) / (s * sqrt 2) < 100.
(** the latent values agree with a stated preference: dk = 1 says that v is preferred, dk = -1 that u is preferred *)
Definition agrees (F : nat -> R) (p : pair) : Prop := (dk_of p = 1 /\ F (u_of p) < F (v_of p)) \/ (dk_of p = -1 /\ F (v_of p) < F (u_of p)).
(** indices below [n] and signs 1 or -1 *)
Definition well_formed (n : nat) (y : list pair) : Prop := forall p, In p y -> (u_of p < n)%nat /\ (v_of p < n)%nat /\ (dk_of p = 1 \/ dk_of p = -1).
(** no pair is below the lower clipping bound *)
Definition not_low (s : R) (y : list pair) (F : vec) : Prop := forall p, In p y -> -30 <= dk_of p * (F (v_of p) - F (u_of p)) / (s * sqrt 2).
(** the derivative of the argument dk (F_v - F_u) / (sigma sqrt 2) of a pair with respect to entry [a] *)
Definition hot (a b : nat) : R := if Nat.eqb a b then 1 else 0.
Definition delta (p : pair) (a : nat) : R := hot a (v_of p) - hot a (u_of p).
Definition coef (s : R) (p : pair) (a : nat) : R := 1 / (s * sqrt 2) * dk_of p * delta p a.
