(** Model of [cdf] in /repo/src/lop/probits/AbsBoundProbit.py *)
From Coquelicot Require Import Coquelicot.
From Coq Require Import Reals List.
From Verif Require Export M_AbsProbit.
From Verif Require Import M_RBase.
Local Open Scope R_scope.

(** scipy.stats.beta.cdf(x, a, b) for a, b > 0 (AbsBoundProbit.py:486): the integral of the density up to [x] *)
Definition beta_cdf (sp : special) (x a b : R) : R :=
  if Rle_dec x 0 then 0 else if Rle_dec 1 x then 1
  else RInt_gen (V := R_CompleteNormedModule) (fun t => exp (beta_logpdf sp t a b)) (at_right 0) (at_point x).
(** AbsBoundProbit.py:484-486 [cdf] for one rating [y] and one value [f] *)
Definition abs_cdf (sp : special) (a : abs_probit) (eps y f : R) : R := beta_cdf sp y (alpha a eps f) (beta a eps f).
