(** Common vocabulary of the model: exceptions as values, python list helpers. *)
From Coq Require Export List Arith ZArith QArith Lia Bool.
Export ListNotations.
Open Scope nat_scope.

(** The python exception classes that the modelled code can raise.  [OutOfFuel] is not a python exception: it is
    the value of a fuelled loop whose fuel ran out, and every theorem that matters excludes it. *)
Inductive exn : Type :=
| IndexError | TypeError | ValueError | KeyError | AttributeError
| ZeroDivisionError | NameError | NotImplementedError | UnboundLocalError
| LinAlgError | GenericException | OutOfFuel.

(** Result of a python call: a returned value or a raised exception. *)
Inductive result (A : Type) : Type :=
| Ok (a : A)
| Raise (e : exn).
Arguments Ok {A} a.
Arguments Raise {A} e.

(** Sequencing of python statements: an exception aborts the rest. *)
Definition bind {A B} (m : result A) (f : A -> result B) : result B :=
  match m with Ok a => f a | Raise e => Raise e end.
Notation "'do' x <- m ; f" := (bind m (fun x => f))
  (at level 200, x name, m at level 100, f at level 200, only parsing).

(** python [l[i]] for a non-negative index *)
Definition getitem {A} (l : list A) (i : nat) : result A :=
  match nth_error l i with Some a => Ok a | None => Raise IndexError end.

(** python [[f(x) for x in l]], where [f] may raise *)
Fixpoint mapM {A B} (f : A -> result B) (l : list A) : result (list B) :=
  match l with
  | [] => Ok []
  | x :: l' => do y <- f x; do ys <- mapM f l'; Ok (y :: ys)
  end.

(** python [enumerate(l)], starting at [i] *)
Fixpoint enumerate_from {A} (i : nat) (l : list A) : list (nat * A) :=
  match l with
  | [] => []
  | x :: l' => (i, x) :: enumerate_from (S i) l'
  end.
Definition enumerate {A} (l : list A) : list (nat * A) := enumerate_from 0 l.

(** python [x in l] for natural numbers *)
Definition mem (x : nat) (l : list nat) : bool := existsb (Nat.eqb x) l.

(** numpy boolean-mask indexing [l[mask]] (equal lengths) *)
Fixpoint mask_filter {A} (mask : list bool) (l : list A) : list A :=
  match mask, l with
  | b :: mask', x :: l' => if b then x :: mask_filter mask' l' else mask_filter mask' l'
  | _, _ => []
  end.

(** [np.sum] of a boolean array *)
Fixpoint count_true (l : list bool) : nat :=
  match l with [] => 0 | b :: l' => (if b then 1 else 0) + count_true l' end.

(** assignment [l[i] = x] (no effect out of range; callers guard the index) *)
Fixpoint set_nth {A} (i : nat) (x : A) (l : list A) : list A :=
  match l, i with
  | [], _ => []
  | _ :: l', 0 => x :: l'
  | y :: l', S i' => y :: set_nth i' x l'
  end.

(** python [l.remove(x)]: removes the first occurrence; the python call raises ValueError when [x] is absent *)
Fixpoint remove_first (x : nat) (l : list nat) : list nat :=
  match l with
  | [] => []
  | y :: l' => if Nat.eqb x y then l' else y :: remove_first x l'
  end.

(** strict comparison of finite floats, as rationals *)
Definition Qlt_bool (x y : Q) : bool := negb (Qle_bool y x).

(** python [min] position: [np.argmin] of a list of naturals, first minimum; undefined (0) on the empty list,
    where numpy raises ValueError *)
Fixpoint argmin_from (best besti i : nat) (l : list nat) : nat :=
  match l with
  | [] => besti
  | x :: l' => if x <? best then argmin_from x i (S i) l' else argmin_from best besti (S i) l'
  end.
Definition argmin_nat (l : list nat) : nat :=
  match l with [] => 0 | x :: l' => argmin_from x 0 1 l' end.

(** python [sorted] / [list.sort] on naturals *)
Fixpoint insert_nat (x : nat) (l : list nat) : list nat :=
  match l with
  | [] => [x]
  | y :: l' => if x <=? y then x :: l else y :: insert_nat x l'
  end.
Fixpoint sort_nat (l : list nat) : list nat :=
  match l with [] => [] | x :: l' => insert_nat x (sort_nat l') end.
