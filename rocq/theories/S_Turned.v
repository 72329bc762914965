(** Specification vocabulary for answers turned upside down. *)
From Verif Require Import M_RBase M_PrefProbit M_OrdProbit M_AbsProbit M_Fit S_Mode.
Local Open Scope R_scope.

(** a rating on the scale from 0 to 1, seen from the other end *)
Definition turned_rating (a : R * nat) : R * nat := (1 - fst a, snd a).
(** an ordinal label on the scale from 1 to n, seen from the other end *)
Definition turned_label (n : nat) (k : nat * nat) : nat * nat := ((n + 1 - fst k)%nat, snd k).
(** all answers turned upside down: every comparison decided the other way, every rating seen from the other end *)
Definition turned (P : probit_set) (y : labels) : labels :=
  mkLabels (option_map (map contrary) (y_rel y)) (option_map (map (turned_label (o_n (ps_o P)))) (y_ord y)) (option_map (map turned_rating) (y_abs y)).
Definition opposite (F : nat -> R) : nat -> R := fun i => - F i.
(** results of a fit: number of rounds and values *)
Definition turn_fit (r : result (nat * list R)) : result (nat * list R) := match r with Ok (k, F) => Ok (k, map Ropp F) | Raise e => Raise e end.
Definition turn_norm (r : result (nat * option (list R))) : result (nat * option (list R)) :=
  match r with Ok (k, F) => Ok (k, option_map (map Ropp) F) | Raise e => Raise e end.
