(** Model of UCBLearner.select_greedy for a Gaussian-process model, /repo/src/lop/active_learning/UCBLearner.py:53-72.
    Predictions and variances are exact reals; for a PreferenceLinear model (lines 56-64) the variances are drawn at
    random in every call, which is not modelled. *)
From Verif Require Import M_Base M_Select.
From Coq Require Import Reals.
Local Open Scope R_scope.

(** strict comparison used by [np.argmax] on floats *)
Definition Rltb (x y : R) : bool := if Rlt_dec x y then true else false.
(** UCBLearner.py:67: [mu[i] + self.alpha*np.sqrt(variance[i])]; the variance of a GP prediction is clipped at zero
    (PreferenceGP.py:97-149, GP.py:92-124), so the square root is of a number >= 0 *)
Definition ucb_score (alpha : R) (mu var : list R) (i : nat) : result R :=
  do a <- getitem mu i;
  do v <- getitem var i;
  Ok (a + alpha * sqrt v).
(** UCBLearner.py:53-72 *)
Definition ucb_greedy (enum : nat -> list nat -> list nat) (alpha : R) (mu var : list R) : nat -> list nat -> list nat -> result nat :=
  score_greedy Rltb enum (fun _ => ucb_score alpha mu var).
