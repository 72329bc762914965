(** Specification vocabulary for Monte-Carlo sampling of real vectors: integrals over boxes and over the whole space, continuity, normal
    draws. *)
From Coquelicot Require Import Coquelicot.
From Coq Require Import Reals List Arith.
From Verif Require Import M_RBase M_Util S_MH.
Import ListNotations.
Local Open Scope R_scope.

(** the integral over the box with the given sides, one coordinate after the other *)
Fixpoint box_int (A : list (R * R)) (f : list R -> R) : R :=
  match A with
  | [] => f []
  | (a, b) :: A' => RInt (fun t => box_int A' (fun v => f (t :: v))) a b
  end.
(** the cube of [d]-vectors with entries between -n and n *)
Definition cube (d n : nat) : list (R * R) := repeat (- INR n, INR n) d.
(** the integral over all [d]-vectors: the limit over growing cubes *)
Definition whole_int (d : nat) (f : list R -> R) : R := real (Lim_seq (fun n => box_int (cube d n) f)).
(** the density of [d] independent standard normal draws *)
Fixpoint bell (z : list R) : R := match z with [] => 1 | t :: z' => exp (- (t * t) / 2) / sqrt (2 * PI) * bell z' end.
(** the mean of [Phi] over [n] rounds of independent draws: in each round a vector of [d] standard normal draws and a threshold uniform
    between 0 and 1 *)
Fixpoint mean_normal (d n : nat) (Phi : (nat -> list R) -> (nat -> R) -> R) : R :=
  match n with
  | O => Phi (fun _ => []) (fun _ => 0)
  | S n' => whole_int d (fun z => bell z * RInt (fun u0 => mean_normal d n' (fun v u => Phi (scons z v) (scons u0 u))) 0 1)
  end.
(** a normal draw around [x] with deviation [std], from a standard normal draw [z] *)
Fixpoint moved (std : R) (x z : list R) : list R := match x, z with a :: x', t :: z' => (a + std * t) :: moved std x' z' | _, _ => [] end.
(** two numbers of size at most [r], closer than [d] *)
Definition close (r d a b : R) : Prop := Rabs a <= r /\ Rabs b <= r /\ Rabs (a - b) < d.
(** [f] is continuous on [k]-vectors, uniformly on bounded sets *)
Definition cont (k : nat) (f : list R -> R) : Prop :=
  forall r e, 0 < r -> 0 < e -> exists d, 0 < d /\ forall u v, length u = k -> Forall2 (close r d) u v -> Rabs (f u - f v) < e.
(** a density: the exponential of [l] has a finite integral over all [d]-vectors *)
Definition finite_mass (d : nat) (l : list R -> R) : Prop := ex_finite_lim_seq (fun n => box_int (cube d n) (fun x => exp (l x))).
(** the mean of [h] under the distribution over [d]-vectors with density proportional to the exponential of [l] *)
Definition density_mean (d : nat) (l h : list R -> R) : R := whole_int d (fun x => exp (l x) * h x) / whole_int d (fun x => exp (l x)).
(** a continuous probability density over [d]-vectors *)
Definition density (d : nat) (p : list R -> R) : Prop := cont d p /\ (forall v, length v = d -> 0 <= p v) /\ is_lim_seq (fun n => box_int (cube d n) p) 1.
(** one round of [metropolis_hastings] from a state drawn with density [p] ends in a state of density [p] *)
Definition stationary (d : nat) (std : R) (l p : list R -> R) : Prop :=
  forall h M, cont d h -> (forall v, length v = d -> Rabs (h v) <= M) ->
  whole_int d (fun x => p x * mean_normal d 1 (fun v u => h (nth 0 (metropolis_hastings (fun x => Some (l x)) (fun i x => moved std x (v i)) u x 1 0) []))) = whole_int d (fun x => p x * h x).
(** the sum of a start and the first [n] moves of a random walk *)
Fixpoint walk (std : R) (x : list R) (z : nat -> list R) (n : nat) : list R := match n with O => x | S n' => moved std (walk std x z n') (z n') end.
