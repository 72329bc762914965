(** Property C38: the normal distribution function of the probits. *)
From Verif Require Import M_Normal P_Normal.
From Coquelicot Require Import Coquelicot.
From Coq Require Import Reals Lra.
From Verif Require Import M_Normal.
Local Open Scope R_scope.

Theorem C38_distribution : (forall x : R, is_derive ndtr x (npdf x)) /\ (forall x, 0 < ndtr x < 1) /\ (forall x y, x < y -> ndtr x < ndtr y) /\
  (forall x, ndtr (- x) = 1 - ndtr x) /\ is_lim ndtr p_infty 1 /\ is_lim ndtr m_infty 0.
Proof. exact (conj ndtr_derive (conj ndtr_range (conj ndtr_increasing (conj ndtr_sym (conj ndtr_lim_p ndtr_lim_m))))). Qed.
Print Assumptions C38_distribution.
Theorem C38_tail : forall x, 0 <= x -> 1 - ndtr x <= exp (- x ^ 2 / 2) / 2.
Proof. exact ndtr_tail. Qed.
Print Assumptions C38_tail.
Theorem C38_clipped : (forall x, 0 < std_norm_cdf x < 1) /\ (forall x y, x <= y -> std_norm_cdf x <= std_norm_cdf y) /\
  (forall x, -30 <= x <= 100 -> std_norm_cdf x = ndtr x) /\ (forall x, Rabs (std_norm_cdf x - ndtr x) < exp (-450)).
Proof. exact (conj std_norm_cdf_range (conj std_norm_cdf_le (conj std_norm_cdf_id std_norm_cdf_error))). Qed.
Print Assumptions C38_clipped.
(** the inequality behind the concavity of the log likelihood *)
Theorem C38_mills : forall z, 0 < npdf z + z * ndtr z.
Proof. exact mills. Qed.
Print Assumptions C38_mills.
Example C38_zero_ex : ndtr 0 = 1 / 2 /\ 1 / 2 < ndtr 1 /\ std_norm_cdf (-1000) = ndtr (-30).
Proof.
  split; [exact ndtr_0|]. split; [rewrite <- ndtr_0; apply C38_distribution; lra|]. unfold std_norm_cdf. rewrite rclip_low; lra.
Qed.
