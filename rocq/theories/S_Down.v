(** Specification vocabulary for down-selection. *)
From Verif Require Import M_Base.

(** [l] consists of rows of [X] at different positions *)
Definition subset_of {A} (X l : list A) : Prop :=
  exists idx, NoDup idx /\ Forall2 (fun i x => nth_error X i = Some x) idx l.
(** [k] different positions of [n] *)
Definition positions (n k : nat) (idx : list nat) : Prop := NoDup idx /\ length idx = k /\ Forall (fun i => i < n) idx.
(** what the libraries promise *)
Definition good_medoids {A} (medoids : nat -> list A -> list nat) : Prop :=
  forall k X, 1 <= k <= length X -> positions (length X) k (medoids k X).
Definition good_hull {A} (hull : list A -> list nat) : Prop := forall X, positions (length X) (length (hull X)) (hull X).
Definition good_draw (draw : nat -> nat -> list nat) : Prop := forall n k, k <= n -> positions n k (draw n k).
