(** Specification vocabulary for information gains. *)
From Verif Require Import M_RBase.
Local Open Scope R_scope.

(** Shannon entropy of a vector of positive probabilities, in bits *)
Definition entropy_bits (p : list R) : R := - rsum (map (fun x => x * (ln x / ln 2)) p).
(** arithmetic mean of a list of numbers, and of a list of vectors of length [n] entry by entry *)
Definition mean (l : list R) : R := rsum l / INR (length l).
Definition mean_vec (n : nat) (ps : list (list R)) : list R := map (fun i => mean (map (fun p => nth i p 0) ps)) (seq 0 n).
(** mutual information of a uniformly drawn row number and a choice made with the probabilities of that row *)
Definition mutual_information (n : nat) (ps : list (list R)) : R := entropy_bits (mean_vec n ps) - mean (map entropy_bits ps).
(** two reward vectors that differ by a constant on the alternatives [Q] *)
Definition same_differences (Q : list nat) (r r' : list R) : Prop :=
  forall i j a b a' b', In i Q -> In j Q -> nth_error r i = Some a -> nth_error r j = Some b ->
    nth_error r' i = Some a' -> nth_error r' j = Some b' -> a - b = a' - b'.
(** all rows have an entry for every index *)
Definition has_cols (rows : list (list R)) (Q : list nat) : Prop := forall r i, In r rows -> In i Q -> (i < length r)%nat.
(** a probability vector, zeros allowed *)
Definition prob_vector (p : list R) : Prop := (forall x, In x p -> 0 <= x) /\ rsum p = 1.
(** likelihood matrices: entries for all candidates, all positive *)
Definition positive_matrix (n : nat) (P : list (list R)) : Prop :=
  length P = n /\ forall row, In row P -> length row = n /\ forall x, In x row -> 0 < x.
