(** Specification vocabulary for Monte-Carlo sampling: independent draws, the target distribution, chances of proposals. *)
From Coquelicot Require Import Coquelicot.
From Coq Require Import Reals List Arith.
From Verif Require Import M_RBase S_Psd.
Local Open Scope R_scope.

(** put a draw in front of a sequence of draws *)
Definition scons {A} (x : A) (s : nat -> A) (i : nat) : A := match i with O => x | S j => s j end.
(** the mean of [Phi] over [n] rounds of independent draws: in each round one of [m] kinds of proposal, kind v with chance [w v], and a
    threshold uniform between 0 and 1 *)
Fixpoint mean_over (m : nat) (w : nat -> R) (n : nat) (Phi : (nat -> nat) -> (nat -> R) -> R) : R :=
  match n with
  | O => Phi (fun _ => O) (fun _ => 0)
  | S n' => sumn m (fun v0 => w v0 * RInt (fun u0 => mean_over m w n' (fun v u => Phi (scons v0 v) (scons u0 u))) 0 1)
  end.
(** the chance of proposing [y] when at [x] *)
Definition proposes (m : nat) (w : nat -> R) (step : nat -> nat -> nat) (x y : nat) : R := sumn m (fun v => if Nat.eqb (step v x) y then w v else 0).
(** the mass of a state whose log likelihood may be minus infinity *)
Definition mass (l : option R) : R := match l with Some a => exp a | None => 0 end.
(** the mean of [h] under the distribution over [N] states proportional to the masses *)
Definition target_mean (N : nat) (ll : nat -> option R) (h : nat -> R) : R := sumn N (fun x => mass (ll x) * h x) / sumn N (fun x => mass (ll x)).
(** density of the proposal [y] of independent normal distributions around [x] with the given deviation *)
Fixpoint around (std : R) (x y : list R) : R :=
  match x, y with
  | a :: x', b :: y' => exp (- (((b - a) / std) * ((b - a) / std)) / 2) / (std * sqrt (2 * PI)) * around std x' y'
  | _, _ => 1
  end.
(** proposals between [N] states: chances with sum one, states stay in range, and y is proposed from x as often as x from y *)
Definition proposal_ok (N m : nat) (w : nat -> R) (step : nat -> nat -> nat) : Prop :=
  (forall v, (v < m)%nat -> 0 <= w v) /\ sumn m w = 1 /\ (forall v x, (v < m)%nat -> (x < N)%nat -> (step v x < N)%nat) /\ forall x y, (x < N)%nat -> (y < N)%nat -> proposes m w step x y = proposes m w step y x.
