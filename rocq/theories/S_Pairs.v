(** Specification vocabulary for preference pairs (independent of the code that builds them). *)
From Coq Require Import List ZArith QArith Relations.
Import ListNotations.

(** "(d,u,v) tells the truth about the values Y": the documented encoding of README.md, section
    "Pairwise preferences": -1 means the first named point is at least as good, 1 means it is strictly worse. *)
Definition truthful (Y : list Q) (p : Z * nat * nat) : Prop :=
  let '(d, u, v) := p in
  u <> v /\
  exists yu yv, nth_error Y u = Some yu /\ nth_error Y v = Some yv /\
    ((d = (-1)%Z /\ (yv <= yu)%Q) \/ (d = 1%Z /\ (yu < yv)%Q)).

(** [beats ps a b]: some pair of [ps] says that point [a] is preferred to point [b]. *)
Definition beats (ps : list (Z * nat * nat)) (a b : nat) : Prop :=
  In ((-1)%Z, a, b) ps \/ In (1%Z, b, a) ps.

Definition acyclic (R : nat -> nat -> Prop) : Prop := forall a, ~ clos_trans nat R a a.

(** the two points a pair talks about *)
Definition pts (p : Z * nat * nat) : nat * nat := (snd (fst p), snd p).
