(** Specification vocabulary for cross-validation folds and for restricting labels (independent of the code). *)
From Coq Require Import List Arith ZArith Permutation Sorted.
Import ListNotations.
Open Scope bool_scope.

(** the folds split [0 .. N-1]: every index occurs in exactly one fold, exactly once *)
Definition splits_data (N : nat) (folds : list (list nat)) : Prop := Permutation (concat folds) (seq 0 N).
Definition ascending (f : list nat) : Prop := StronglySorted lt f.

(** [N] divided by [k], rounded up: the least [c] with [N <= c * k] *)
Definition is_ceil_div (N k c : nat) : Prop := N <= c * k /\ forall c', N <= c' * k -> c <= c'.

(** sizes of any two folds differ by at most one *)
Definition nearly_equal (folds : list (list nat)) : Prop :=
  forall a b, In a folds -> In b folds -> length a <= length b + 1.

(** position [j] of the subset [sub] is the old point [i] *)
Definition same_point (sub : list nat) (i j : nat) : Prop := nth_error sub j = Some i.

(** old pair [p] and new pair [q] say the same thing about the same two points *)
Definition same_pair (sub : list nat) (p q : Z * nat * nat) : Prop :=
  fst (fst q) = fst (fst p) /\ same_point sub (snd (fst p)) (snd (fst q)) /\ same_point sub (snd p) (snd q).
Definition same_label {A} (sub : list nat) (p q : A * nat) : Prop :=
  fst q = fst p /\ same_point sub (snd p) (snd q).

Definition inb (sub : list nat) (i : nat) : bool := existsb (Nat.eqb i) sub.

(** the new pair family is the restriction of the old one to [sub], [None] when nothing is left *)
Definition pairs_restricted (sub : list nat) (old new : option (list (Z * nat * nat))) : Prop :=
  match old with
  | None => new = None
  | Some ps => exists qs, Forall2 (same_pair sub) (filter (fun p => inb sub (snd (fst p)) && inb sub (snd p)) ps) qs /\
                 new = match qs with [] => None | _ => Some qs end
  end.
Definition labels_restricted {A} (sub : list nat) (old new : option (list A * list nat)) : Prop :=
  match old with
  | None => new = None
  | Some (lab, pt) => exists qs, Forall2 (same_label sub) (filter (fun p => inb sub (snd p)) (combine lab pt)) qs /\
                 new = match qs with [] => None | _ => Some (map fst qs, map snd qs) end
  end.
Definition one_point_per_label {A} (y : option (list A * list nat)) : Prop :=
  match y with None => True | Some (lab, pt) => length lab = length pt end.
