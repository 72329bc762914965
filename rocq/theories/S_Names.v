(** Specification vocabulary for the order of names. *)
From Coq Require Import List Arith Lia.
Import ListNotations.

(** [s] comes before [t] in the order of a dictionary, by the codes of the characters *)
Inductive sorted_before : list nat -> list nat -> Prop :=
  | sb_end c t : sorted_before [] (c :: t)
  | sb_lt c d s t : c < d -> sorted_before (c :: s) (d :: t)
  | sb_eq c s t : sorted_before s t -> sorted_before (c :: s) (c :: t).
(** the number written by a list of digits, most significant first *)
Definition value (ds : list nat) : nat := fold_left (fun a d => 10 * a + d) ds 0.
