(** Specification vocabulary for kernels. *)
From Verif Require Import S_Psd M_Kernel.
Local Open Scope R_scope.

(** entry (i,j) of a matrix *)
Definition entry (M : matrix) (i j : nat) : R := nth j (nth i M []) 0.
Definition shape (n m : nat) (M : matrix) : Prop := length M = n /\ forall row, In row M -> length row = m.
(** i-th point *)
Definition pt (X : list point) (i : nat) : point := nth i X [].
Definition dim (d : nat) (X : list point) : Prop := forall x, In x X -> length x = d.

(** the kernel uses no zeroed RBF *)
Fixpoint no_zeroed (k : kern) : Prop :=
  match k with ZRBF _ _ _ _ => False | KAdd a b | KMul a b => no_zeroed a /\ no_zeroed b | _ => True end.
(** parameters for which the formulas are defined: no division by zero, no negative noise, zero point of dimension [d] *)
Fixpoint valid (d : nat) (k : kern) : Prop :=
  match k with
  | RBF _ l n => l <> 0 /\ 0 <= n
  | Lin _ _ _ => True
  | Per _ l p => l <> 0 /\ p <> 0
  | ZRBF s l n z => s <> 0 /\ l <> 0 /\ 0 <= n /\ match z with Some z => length z = d | None => True end
  | KAdd a b | KMul a b => valid d a /\ valid d b
  end.
(** periodic parts occur only for points of dimension one *)
Fixpoint periodic_1d (d : nat) (k : kern) : Prop :=
  match k with Per _ _ _ => d = 1%nat | KAdd a b | KMul a b => periodic_1d d a /\ periodic_1d d b | _ => True end.
(** the kernel with its observation noise *)
Fixpoint noisy (k : kern) (u v : point) : R :=
  match k with
  | RBF _ _ n | ZRBF _ _ n _ => kcall k u v + n
  | KAdd a b => noisy a u v + noisy b u v
  | KMul a b => noisy a u v * noisy b u v
  | _ => kcall k u v
  end.
(** only sums of RBF and linear kernels *)
Fixpoint additive (k : kern) : Prop :=
  match k with RBF _ _ _ | Lin _ _ _ => True | KAdd a b => additive a /\ additive b | _ => False end.
(** the parameters whose derivative the code gets right: everything except length scales and periods *)
Fixpoint right_parameter (k : kern) : list bool :=
  match k with
  | RBF _ _ _ => [true; false]
  | Lin _ _ _ => [true; true; true]
  | Per _ _ _ => [true; false; false]
  | ZRBF _ _ _ _ => [false; false]
  | KAdd a b | KMul a b => right_parameter a ++ right_parameter b
  end.
(** the kernel value as a function of its i-th parameter *)
Definition at_param (k : kern) (i : nat) (u v : point) (t : R) : R :=
  match kset k (set_nth i t (kparam k)) with Ok k' => kcall k' u v | Raise _ => 0 end.
(** the log prior as a function of the i-th parameter *)
Definition prior_at (g : R -> R) (k : kern) (i : nat) (t : R) : R :=
  match kset k (set_nth i t (kparam k)) with
  | Ok k' => match kprior g k' with Some x => x | None => 0 end
  | Raise _ => 0
  end.
