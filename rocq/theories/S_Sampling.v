(** Specification vocabulary for sampling subsets (independent of the code). *)
From Coq Require Import List Arith Sorted Permutation.
Import ListNotations.

(** a [k]-element subset of [0 .. s-1], written in ascending order *)
Definition is_subset (s k : nat) (r : list nat) : Prop :=
  length r = k /\ StronglySorted lt r /\ Forall (fun x => x < s) r.

(** what [np.random.choice(s, k, replace=False)] may return *)
Definition is_draw (s k : nat) (d : list nat) : Prop :=
  length d = k /\ NoDup d /\ Forall (fun x => x < s) d.

(** dictionary order: at the first difference [a] is smaller *)
Definition dict_lt (a b : list nat) : Prop :=
  exists p x y a' b', a = p ++ x :: a' /\ b = p ++ y :: b' /\ x < y.

(** number of [k]-element subsets of an [s]-element set *)
Fixpoint binom (s k : nat) : nat :=
  match s, k with
  | _, 0 => 1
  | 0, S _ => 0
  | S s', S k' => binom s' k' + binom s' k
  end.

(** the random source is fair in the weakest useful sense: every subset is drawn at least once *)
Definition fair (s k : nat) (draws : nat -> list nat) : Prop :=
  forall r, is_subset s k r -> exists t, Permutation r (draws t).
