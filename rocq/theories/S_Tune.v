(** Specification vocabulary for the tuning of synthetic users: averages over random draws, the chance of the best option. *)
From Coquelicot Require Import Coquelicot.
From Coq Require Import Reals List.
From Verif Require Import M_RBase M_Normal S_User.
Import ListNotations.
Local Open Scope R_scope.

(** [l] is the mean of [Phi] over [n] independent draws, uniform between 0 and 1 *)
Fixpoint unit_mean (n : nat) (Phi : list R -> R) (l : R) : Prop :=
  match n with
  | O => l = Phi []
  | S n' => exists g : R -> R, (forall u, 0 <= u <= 1 -> unit_mean n' (fun us => Phi (u :: us)) (g u)) /\ is_RInt g 0 1 l
  end.
(** [l] is the mean of [Phi] over [q] independent standard normal draws *)
Fixpoint normal_mean (q : nat) (Phi : list R -> R) (l : R) : Prop :=
  match q with
  | O => l = Phi []
  | S q' => exists g : R -> R, (forall z, normal_mean q' (fun zs => Phi (z :: zs)) (g z)) /\
                               is_RInt_gen (fun z => npdf z * g z) (Rbar_locally m_infty) (Rbar_locally p_infty) l
  end.
(** the same over [n] rows of [q] draws *)
Fixpoint rows_mean (n q : nat) (Phi : list (list R) -> R) (l : R) : Prop :=
  match n with
  | O => l = Phi []
  | S n' => exists g : list R -> R, (forall z, length z = q -> rows_mean n' q (fun zs => Phi (z :: zs)) (g z)) /\ normal_mean q g l
  end.

(** the chance that somebody who picks options with chances proportional to exp (b * value) picks a given one of highest
    value *)
Definition best_chance (b : R) (row : list R) : R := exp (b * fold_right Rmax (hd 0 row) row) / rsum (map (fun v => exp (b * v)) row).
Definition average (l : list R) : R := rsum l / INR (length l).
(** chance of the best option, averaged over the queries *)
Definition accuracy (b : R) (y : list (list R)) : R := average (map (best_chance b) y).
(** how far independent yes-no answers with the chances [c] spread around their average *)
Definition spread (c : list R) : R := rsum (map (fun p => p * (1 - p)) c) / INR (length c) ^ 2.
(** a query matrix: at least one query, every query has [q] options, at least one *)
Definition queries (q : nat) (y : list (list R)) : Prop := y <> [] /\ (0 < q)%nat /\ forall row, In row y -> length row = q.
(** the best option is at least [d] better than the others: only one entry is above [m - d] *)
Definition gap (d : R) (row : list R) : Prop := exists pre m post, row = pre ++ m :: post /\ forall v, In v (pre ++ post) -> v <= m - d.
(** the symmetric divergence of two chances *)
Definition divergence (p q : R) : R := (p - q) * (ln (p / (1 - p)) - ln (q / (1 - q))).
(** values seen through independent normal noise of standard deviation [s] *)
Definition noisy (s : R) (row z : list R) : list R := map (fun p => fst p + s * snd p) (combine row z).
(** the best option, the first one if there are several, is the best one of the noisy values too *)
Definition picks_best (s : R) (row z : list R) : Prop := exists i, first_max row i /\ first_max (noisy s row z) i.
(** [I] is 1 where [P] holds and 0 elsewhere, for lists of [q] draws, so that its mean is the chance of [P] *)
Definition indicates (q : nat) (P : list R -> Prop) (I : list R -> R) : Prop := forall z, length z = q -> (P z -> I z = 1) /\ (~ P z -> I z = 0).
(** [c] is the chance of [P] for [q] independent standard normal draws *)
Definition normal_chance (q : nat) (P : list R -> Prop) (c : R) : Prop := exists I, indicates q P I /\ normal_mean q I c.
(** the chance of the order of two values to survive the noise, averaged over the queries of two options *)
Definition pair_accuracy (s : R) (y : list (list R)) : R := average (map (fun row => ndtr (Rabs (nth 0 row 0 - nth 1 row 0) / (s * sqrt 2))) y).
(** [a] is the chance that the best option of a query is rated best, with normal noise of standard deviation [s], averaged over the
    queries of [q] options *)
Definition rate_accuracy (q : nat) (s : R) (y : list (list R)) (a : R) : Prop :=
  exists cs, Forall2 (fun row c => normal_chance q (picks_best s row) c) y cs /\ a = average cs.
