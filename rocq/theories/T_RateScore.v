(** Property C180: ratings computed from utilities *)
From Coq Require Import Reals Lra Lia List.
From Verif Require Import M_Base M_RBase M_RateScore S_RateScore P_RBase P_RateScore.
Import ListNotations.
Local Open Scope R_scope.

(** every utility gets its own rating, one of -0.1, 0.1, ..., 0.9, and larger utilities do not get smaller ratings *)
Theorem C180_scores : forall lo hi ys, lo <> hi -> exists f, rating_scores lo hi ys = Ok (map f ys) /\
  (forall y, exists k, (k <= 5)%nat /\ f y = (2 * INR k - 1) / 10) /\ (forall y y', y <= y' -> f y <= f y').
Proof.
exact scores_ok.
Qed.
Print Assumptions C180_scores.
(** with bounds from zero upwards the rating is the middle of the bin of the utility *)
Theorem C180_bin : forall lo hi k y, 0 <= lo -> lo < hi -> in_bin lo hi k y -> (k <= 4)%nat -> rating_scores lo hi [y] = Ok [(2 * INR k + 1) / 10].
Proof.
exact scores_bin.
Qed.
Print Assumptions C180_bin.
(** refuted: ratings lie between 0 and 1; utilities up to zero and up to the second decision point get -0.1 *)
Theorem C180_low_refuted : forall lo hi y, lo < hi -> y <= 0 -> y <= lo + (hi - lo) / 5 -> rating_scores lo hi [y] = Ok [- (1 / 10)].
Proof.
exact scores_low.
Qed.
Print Assumptions C180_low_refuted.
(** refuted: utilities within the bounds get ratings between 0 and 1; with a negative lower bound some do not *)
Theorem C180_within_refuted : forall lo hi, lo < 0 -> lo < hi -> exists y, lo < y < hi /\ rating_scores lo hi [y] = Ok [- (1 / 10)].
Proof.
exact scores_negative.
Qed.
Print Assumptions C180_within_refuted.

Example C180_bin_ex : in_bin 0 1 2 (1 / 2) /\ rating_scores 0 1 [1 / 2] = Ok [5 / 10].
Proof.
assert (B : in_bin 0 1 2 (1 / 2)) by (split; [cbn; lra|right; split; [lia|cbn; lra]]).
split; [exact B|]. rewrite (scores_bin 0 1 2 (1 / 2)); [|lra|lra|exact B|lia]. do 2 f_equal. cbn. lra.
Qed.
Example C180_low_ex : rating_scores 0 1 [0] = Ok [- (1 / 10)] /\ rating_scores (-1) 1 [- (9 / 10)] = Ok [- (1 / 10)].
Proof.
split; apply scores_low; lra.
Qed.
