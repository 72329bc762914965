(** Specification vocabulary for the chances of being the best candidate and for the learners built on sampled values. *)
From Verif Require Export M_RBase S_Psd S_GP.
From Verif Require Import M_Base M_Normal.
From Coq Require Import Reals List.
Local Open Scope R_scope.

(** [k] elements of the list have the property *)
Inductive counts {A} (P : A -> Prop) : list A -> nat -> Prop :=
| counts_nil : counts P nil 0
| counts_yes x l k : P x -> counts P l k -> counts P (x :: l) (S k)
| counts_no x l k : ~ P x -> counts P l k -> counts P (x :: l) k.
(** the reward of a point under weights, both of dimension [d] *)
Definition reward (d : nat) (x w : list R) : R := sumn d (fun c => nth c x 0 * nth c w 0).
(** candidate [i] of [n] has the highest value and no candidate before it has the same value *)
Definition first_best (n : nat) (v : nat -> R) (i : nat) : Prop :=
  (i < n)%nat /\ (forall j, (j < n)%nat -> v j <= v i) /\ (forall j, (j < i)%nat -> v j < v i).
(** chances: non-negative numbers with sum one *)
Definition chances (n : nat) (p : list R) : Prop := length p = n /\ (forall q, In q p -> 0 <= q) /\ rsum p = 1.
(** the chance that independent normal variables with these means and variances are all at most zero *)
Definition independent_cdf (mu var : list R) : R := fold_right Rmult 1 (map (fun mv : R * R => ndtr (- fst mv / sqrt (snd mv))) (combine mu var)).
(** mean of [n] numbers; covariance of two sequences of [n] numbers with divisor [d] *)
Definition meann (n : nat) (x : nat -> R) : R := sumn n x / INR n.
Definition covn (n : nat) (d : R) (x y : nat -> R) : R := sumn n (fun k => (x k - meann n x) * (y k - meann n y)) / d.
(** the [j]-th candidate other than [i] *)
Definition other (i j : nat) : nat := if Nat.ltb j i then j else S j.
(** what is assumed of the routine for one normal variable: exact; of the routine for several: an exception unless the covariance is
    positive definite *)
Definition exact_1d (f : list R -> list (list R) -> result R) : Prop := forall x v, 0 < v -> f (x :: nil) ((v :: nil) :: nil) = Ok (ndtr (x / sqrt v)).
Definition rejects_singular (f : list R -> list (list R) -> result R) : Prop :=
  forall mu cov, ~ pd (length cov) (fun i j => nth j (nth i cov nil) 0) -> exists e, f mu cov = Raise e.
(** the representative points, none when the argument is None *)
Definition rep_points (x : option (list (list R))) : list (list R) := match x with Some l => l | None => nil end.
