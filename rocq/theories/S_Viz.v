(** Specification vocabulary for the pictures of a run. *)
From Coq Require Import Reals List ZArith.
Import ListNotations.
Local Open Scope R_scope.

(** [n] equal steps from [a] to [b]: the [i]-th of them *)
Definition tick (a b : R) (n i : nat) : R := a + INR i * (b - a) / INR (n - 1).
(** a point of the rectangle *)
Definition in_box (x0 x1 y0 y1 : R) (p : R * R) : Prop := x0 <= fst p <= x1 /\ y0 <= snd p <= y1.
(** the arrow from [t] to [h] points from [p] towards [q] *)
Definition points_to (t h p q : R * R) : Prop :=
  exists c, 0 < c /\ fst h - fst t = c * (fst q - fst p) /\ snd h - snd t = c * (snd q - snd p).
(** [m] lies on the segment from [p] to [q] *)
Definition on_segment (m p q : R * R) : Prop :=
  exists t, 0 <= t <= 1 /\ fst m = (1 - t) * fst p + t * fst q /\ snd m = (1 - t) * snd p + t * snd q.
(** what a label of a pair [(label, i, j)] says: -1 prefers [i], 1 prefers [j] *)
Definition preferred_of (label : Z) (i j : nat) : option nat :=
  if Z.eqb label (-1) then Some i else if Z.eqb label 1 then Some j else None.
