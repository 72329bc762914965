(** Specification vocabulary for Gaussian processes. *)
From Verif Require Import S_Psd M_Kernel S_Kernel M_GP.
From Coq Require Import List.
Import ListNotations.
Local Open Scope R_scope.

(** strictly positive quadratic form *)
Definition pd (n : nat) (A : nat -> nat -> R) : Prop := forall c, (exists i, (i < n)%nat /\ c i <> 0) -> 0 < qform n A c.
(** [x] solves the linear equations [A x = b] *)
Definition solves (n : nat) (A : nat -> nat -> R) (b x : nat -> R) : Prop := forall i, (i < n)%nat -> sumn n (fun j => A i j * x j) = b i.
(** [B] is a right inverse of [A] *)
Definition right_inverse (n : nat) (A B : nat -> nat -> R) : Prop :=
  forall i j, (i < n)%nat -> (j < n)%nat -> sumn n (fun a => A i a * B a j) = if Nat.eqb i j then 1 else 0.
(** no observation noise hidden in the kernel *)
Fixpoint noiseless (k : kern) : Prop :=
  match k with RBF _ _ n => n = 0 | ZRBF _ _ _ _ => False | KAdd a b | KMul a b => noiseless a /\ noiseless b | _ => True end.
(** covariance of the training observations: kernel noise and observation noise on the diagonal *)
Definition train_cov (k : kern) (Y : list point) (sig : list R) (i j : nat) : R :=
  if Nat.eqb i j then noisy k (pt Y i) (pt Y i) + nth i sig 0 else kcall k (pt Y i) (pt Y j).
(** the text book posterior of Gaussian process regression at [x]: [m] and [v] are the mean and the variance given observations [y]
    (the mean function subtracted) at the points [Y] whose covariance is [A] *)
Definition posterior (k : kern) (Y : list point) (y : list R) (A : nat -> nat -> R) (x : point) (m v : R) : Prop :=
  let n := length Y in
  exists alpha beta,
    solves n A (fun j => nth j y 0) alpha /\ solves n A (fun j => kcall k x (pt Y j)) beta /\
    m = sumn n (fun j => kcall k x (pt Y j) * alpha j) /\ v = noisy k x x - sumn n (fun j => kcall k x (pt Y j) * beta j).
(** the query points are separate from the data, or the kernel carries no noise *)
Definition separate (k : kern) (X Y : list point) : Prop := noiseless k \/ (no_zeroed k /\ forall x, In x X -> ~ In x Y).
(** training data given as a list of (point, observation, noise) *)
Definition points_of (l : list (point * R * R)) : list point := map (fun t => fst (fst t)) l.
Definition obs_of (l : list (point * R * R)) : list R := map (fun t => snd (fst t)) l.
Definition noise_of (l : list (point * R * R)) : list R := map snd l.
(** the identity plus the product of two matrices *)
Definition one_plus (n : nat) (W K : nat -> nat -> R) (i j : nat) : R := (if Nat.eqb i j then 1 else 0) + sumn n (fun a => W i a * K a j).
(** a routine that inverts every invertible matrix *)
Definition inverts (inv : nat -> (nat -> nat -> R) -> nat -> nat -> R) : Prop :=
  forall n A B, right_inverse n A B -> right_inverse n A (inv n A).
Definition store (l : list (point * R * R)) : option gp_data := Some {| gX := points_of l; gy := obs_of l; gsig := noise_of l |}.
(** a history of calls of [add] with (points, observations, noise) *)
Definition adds (l : list (list point * list R * sigma_arg)) : list gp_op := map (fun a => GAdd (fst (fst a)) (snd (fst a)) (snd a)) l.
Definition sig_of (a : list point * list R * sigma_arg) : list R :=
  match snd a with SScalar s => map (fun _ : R => s) (snd (fst a)) | SSeq q => q end.
Definition same_number (a : list point * list R * sigma_arg) : Prop := length (snd (fst a)) = length (fst (fst a)).
(** the data store holds the points [X], the observations [y] minus the mean function, and the noises [sig] *)
Definition prior_mean (mean : option (point -> R)) (x : point) : R := match mean with Some m => m x | None => 0 end.
Definition stored (mean : option (point -> R)) (X : list point) (y sig : list R) (st : option gp_data) : Prop :=
  exists d, st = Some d /\ gX d = X /\ gsig d = sig /\ length (gy d) = length X /\ length y = length X /\
    forall i, (i < length X)%nat -> nth i (gy d) 0 = nth i y 0 - prior_mean mean (pt X i).
