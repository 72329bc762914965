(** Specification vocabulary for candidate selection. *)
From Verif Require Import M_Base M_Select.
From Coq Require Import Permutation Sorted.

(** candidates that may still be selected: in range and not in [prev] *)
Definition allowed (N : nat) (prev : list nat) (i : nat) : Prop := i < N /\ ~ In i prev.

(** the number of allowed candidates *)
Definition n_allowed (N : nat) (prev : list nat) : nat := length (filter (fun i => if in_dec Nat.eq_dec i prev then false else true) (seq 0 N)).

(** [l] consists of [n] different allowed candidates *)
Definition good_selection (N n : nat) (prev l : list nat) : Prop :=
  length l = n /\ NoDup l /\ forall i, In i l -> allowed N prev i.

(** preferred candidates come first, and a non-preferred one appears only when every allowed preferred one is there *)
Definition preferred_first (N : nat) (prev pref l : list nat) : Prop :=
  exists l1 l2, l = l1 ++ l2 /\ (forall i, In i l1 -> In i pref) /\ (forall i, In i l2 -> ~ In i pref) /\
    (l2 <> [] -> forall i, In i pref -> allowed N prev i -> In i l1).

(** order of candidates by value; [le y x]: [y] is not better than [x] *)
Definition val_le (mu : list Q) (y x : nat) : Prop :=
  forall a b, nth_error mu y = Some a -> nth_error mu x = Some b -> (a <= b)%Q.
(** best first, and nothing better left out of the allowed set [S] *)
Definition ranked (le : nat -> nat -> Prop) (S : nat -> Prop) (l : list nat) : Prop :=
  StronglySorted (fun x y => le y x) l /\ (forall x y, In x l -> S y -> ~ In y l -> le y x).

(** an enumeration order of sets *)
Definition enumerates (e : list nat -> list nat) : Prop := forall l, Permutation (e l) l.

(** a learner that answers every non-empty request about valid candidates with one of the offered candidates *)
Definition answers (g : nat -> list nat -> list nat -> result nat) (N : nat) : Prop :=
  forall k idx P, idx <> [] -> (forall i, In i idx -> i < N) -> exists i, g k idx P = Ok i /\ In i idx.
(** the same for a pair-selecting learner offered at least two candidates *)
Definition answers_pairs (f : nat -> list nat -> list nat -> result (nat * nat)) (N : nat) : Prop :=
  forall k idx P, NoDup idx -> 2 <= length idx -> (forall i, In i idx -> i < N) ->
    exists a b, f k idx P = Ok (a, b) /\ In a idx /\ In b idx /\ a <> b.

(** number of allowed candidates among the preferred ones *)
Definition n_pref_allowed (N : nat) (prev P : list nat) : nat :=
  length (filter (fun i => if in_dec Nat.eq_dec i prev then false else i <? N) P).

(** what [argsort] (reversed) guarantees about a flattened N x N matrix: every flat index once, larger entries first;
    [None] is minus infinity *)
Definition ext_le (a b : option Q) : Prop := match a, b with None, _ => True | Some _, None => False | Some x, Some y => (x <= y)%Q end.
Definition descending (N : nat) (entry : nat -> option Q) (srt : list nat) : Prop :=
  Permutation srt (seq 0 (N * N)) /\ StronglySorted (fun i j => ext_le (entry j) (entry i)) srt.

(** the pair with the largest metric among the pairs of different candidates that are not both selected already *)
Definition best_fresh_pair (N : nat) (m : nat -> nat -> Q) (prev : list nat) (a b : nat) : Prop :=
  a < N /\ b < N /\ a <> b /\ ~ (In a prev /\ In b prev) /\
  forall c d, c < N -> d < N -> c <> d -> ~ (In c prev /\ In d prev) -> (m c d <= m a b)%Q.
