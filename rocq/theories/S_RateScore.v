(** Specification vocabulary for ratings computed from utilities. *)
From Coq Require Import Reals List.
Import ListNotations.
Local Open Scope R_scope.

(** lower end of bin [k] of five equal bins from [lo] to [hi]; the first bin starts at zero *)
Definition bin_start (lo hi : R) (k : nat) : R := match k with O => 0 | _ => lo + INR k * (hi - lo) / 5 end.
(** [y] belongs to bin [k]; the last bin has no upper end *)
Definition in_bin (lo hi : R) (k : nat) (y : R) : Prop := bin_start lo hi k < y /\ (k = 4%nat \/ (k < 4)%nat /\ y <= bin_start lo hi (S k)).
