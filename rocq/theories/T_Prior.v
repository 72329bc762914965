(** Property C136: the priors of hyper-parameters *)
From Coquelicot Require Import Coquelicot.
From Coq Require Import Reals Lra Lia.
From Verif Require Import M_RBase M_AbsProbit M_Util S_Gamma P_Gamma P_Gamma4.
Local Open Scope R_scope.

(** C136: [pdf_gamma] is a density over the positive numbers, with mean k theta (as its comment says) and variance k theta^2 *)
Theorem C136_total : forall k theta, 0 < k -> 0 < theta -> total_pos (fun x => pdf_gamma true_gamma x k theta) 1.
Proof. exact prior_total. Qed.
Print Assumptions C136_total.
Theorem C136_mean : forall k theta, 0 < k -> 0 < theta -> total_pos (fun x => x * pdf_gamma true_gamma x k theta) (k * theta).
Proof. exact prior_mean. Qed.
Print Assumptions C136_mean.
Theorem C136_variance : forall k theta, 0 < k -> 0 < theta -> total_pos (fun x => (x - k * theta) ^ 2 * pdf_gamma true_gamma x k theta) (k * theta ^ 2).
Proof. exact prior_variance. Qed.
Print Assumptions C136_variance.
(** with k above one the density has one peak, at (k - 1) theta *)
Theorem C136_mode : forall k theta x, 1 < k -> 0 < theta -> 0 < x -> x <> (k - 1) * theta -> pdf_gamma true_gamma x k theta < pdf_gamma true_gamma ((k - 1) * theta) k theta.
Proof. exact prior_mode. Qed.
Print Assumptions C136_mode.
(** the prior of the length scale of the RBF kernel: mean 1.2, most likely 0.8 *)
Example C136_ex : total_pos (fun x => x * pdf_gamma true_gamma x 3 (4 / 10)) (12 / 10) /\ pdf_gamma true_gamma 1 3 (4 / 10) < pdf_gamma true_gamma (8 / 10) 3 (4 / 10).
Proof.
  split; [replace (12 / 10) with (3 * (4 / 10)) by lra; apply C136_mean; lra|]. replace (8 / 10) with ((3 - 1) * (4 / 10)) by lra. apply C136_mode; lra.
Qed.
