(** Specification vocabulary for ordinal labels. *)
From Verif Require Import M_RBase M_Hyper M_Normal.
Local Open Scope R_scope.

(** probability of the labels 1..k given the value f: the normal distribution function at (b_k - f) / sigma, 0 for k = 0 and 1 for k = n *)
Definition cumulative (n : nat) (sigma : R) (b : list R) (k : nat) (f : R) : R :=
  if Nat.eqb k 0 then 0 else if Nat.ltb k n then ndtr ((nth (k - 1) b 0 - f) / sigma) else 1.
(** probability of label k *)
Definition label_prob (n : nat) (sigma : R) (b : list R) (k : nat) (f : R) : R := cumulative n sigma b k f - cumulative n sigma b (k - 1) f.
(** no breakpoint used by label [k] is clipped at value [f] *)
Definition label_unclipped (n : nat) (sigma : R) (b : list R) (k : nat) (f : R) : Prop :=
  ((k < n)%nat -> -30 < (nth (k - 1) b 0 - f) / sigma < 100) /\ ((1 < k)%nat -> -30 < (nth (k - 2) b 0 - f) / sigma < 100).
(** a probit as the constructor or set_hyper leaves it *)
Definition from_scalar (o : ord_probit) : Prop := (2 <= o_n o)%nat /\ 0 < o_sigma o /\ exists b, o_b o = linspace0 (Rabs b) (o_n o - 1).
(** breakpoints in order *)
Definition ordered (o : ord_probit) : Prop := length (o_b o) = (o_n o - 1)%nat /\ forall i j, (i <= j)%nat -> (j < length (o_b o))%nat -> nth i (o_b o) 0 <= nth j (o_b o) 0.
(** labels between 1 and the number of labels *)
Definition valid (o : ord_probit) (y : list (nat * nat)) : Prop := forall p, In p y -> (1 <= fst p <= o_n o)%nat.
(** log likelihood of labelled points: the sum over all labels, repeated or not *)
Definition LLo (o : ord_probit) (y : list (nat * nat)) (F : nat -> R) : R := rsum (map (fun p => ln (label_prob (o_n o) (o_sigma o) (o_b o) (fst p) (F (snd p)))) y).
