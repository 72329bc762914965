(** Properties C134 and C135: the distribution of ratings *)
From Coquelicot Require Import Coquelicot.
From Coq Require Import Reals Lra Lia.
From Verif Require Import M_RBase M_Normal M_Hyper M_AbsProbit M_Beta S_AbsProbit S_Gamma P_Normal P_AbsProbit P_Gamma P_Gamma2 P_Gamma3.
Local Open Scope R_scope.

(** C134: the special functions have the facts used for ratings, and the logarithm of the gamma function is the only convex solution of its equations *)
Theorem C134_facts : gamma_facts true_special.
Proof. exact true_facts. Qed.
Print Assumptions C134_facts.
Theorem C134_gamma : lgam true_special 1 = 0 /\ (forall x, 0 < x -> lgam true_special (x + 1) = lgam true_special x + ln x) /\ (forall n, lgam true_special (INR n + 1) = ln (INR (fact n))) /\ convex_pos (lgam true_special) /\
  (forall x, 0 < x -> psi true_special (x + 1) = psi true_special x + / x) /\
  forall g, g 1 = 0 -> (forall x, 0 < x -> g (x + 1) = g x + ln x) -> convex_pos g -> forall x, 0 < x -> g x = lgam true_special x.
Proof. exact (conj lgam_1 (conj lgam_next (conj lgam_fact (conj lgam_convex (conj psi_next gamma_unique))))). Qed.
Print Assumptions C134_gamma.
(** the likelihood of a rating is a probability density with the mean and the variance of the Beta distribution *)
Theorem C134_density : forall a eps F i, 0 < a_v a -> 0 < eps < 1 / 2 -> total (fun x => exp (abs_py true_special a eps F (x, i))) 1.
Proof. exact rating_total. Qed.
Print Assumptions C134_density.
Theorem C134_mean : forall a eps F i, 0 < a_v a -> 0 < eps < 1 / 2 -> total (fun x => x * exp (abs_py true_special a eps F (x, i))) (mean_link a eps (F i)).
Proof. exact rating_mean. Qed.
Print Assumptions C134_mean.
Theorem C134_variance : forall a eps F i, 0 < a_v a -> 0 < eps < 1 / 2 -> let m := mean_link a eps (F i) in total (fun x => (x - m) ^ 2 * exp (abs_py true_special a eps F (x, i))) (m * (1 - m) / (a_v a + 1)).
Proof. exact rating_variance. Qed.
Print Assumptions C134_variance.
(** the default probit (sigma 1, v 80, eps 1e-10) and a point of value 0: mean 1/2, variance 1/324 *)
Example C134_ex : let a := mkAbs 1 80 true true in let eps := 1 / 10 ^ 10 in
  total (fun x => x * exp (abs_py true_special a eps (fun _ => 0) (x, 0%nat))) (1 / 2) /\ total (fun x => (x - 1 / 2) ^ 2 * exp (abs_py true_special a eps (fun _ => 0) (x, 0%nat))) (1 / 324).
Proof.
  intros a eps. assert (He : 0 < eps < 1 / 2) by (unfold eps; lra).
  assert (M : mean_link a eps 0 = 1 / 2). { rewrite mean_link_free; unfold free, mean_rating; cbn [a_sigma a]; replace (0 / (1 * sqrt 2)) with 0 by (field; apply Rgt_not_eq, sqrt_lt_R0; lra); rewrite ndtr_0; [reflexivity|]. split; [lra|unfold eps; lra]. }
  assert (T := C134_mean a eps (fun _ => 0) 0 ltac:(cbn; lra) He). assert (V := C134_variance a eps (fun _ => 0) 0 ltac:(cbn; lra) He). cbv beta zeta in T, V. rewrite M in T, V. split; [exact T|]. replace (1 / 324) with (1 / 2 * (1 - 1 / 2) / (a_v a + 1)) by (cbn; field). exact V.
Qed.

(** C135: the distribution function *)
Theorem C135_distribution : forall a eps f, 0 < a_v a -> 0 < eps < 1 / 2 -> (forall y, y <= 0 -> abs_cdf true_special a eps y f = 0) /\ (forall y, 1 <= y -> abs_cdf true_special a eps y f = 1) /\
  (forall y z, 0 <= y -> y < z -> z <= 1 -> abs_cdf true_special a eps y f < abs_cdf true_special a eps z f) /\ (forall y z, y <= z -> abs_cdf true_special a eps y f <= abs_cdf true_special a eps z f) /\
  forall e, 0 < e -> exists d, 0 < d /\ (forall y, y < d -> abs_cdf true_special a eps y f < e) /\ forall y, 1 - d < y -> 1 - e < abs_cdf true_special a eps y f.
Proof. exact rating_cdf. Qed.
Print Assumptions C135_distribution.
Theorem C135_density : forall a eps F i y, 0 < a_v a -> 0 < eps < 1 / 2 -> 0 < y < 1 -> is_derive (fun t => abs_cdf true_special a eps t (F i)) y (exp (abs_py true_special a eps F (y, i))).
Proof. exact rating_cdf_density. Qed.
Print Assumptions C135_density.
(** a better point gets better ratings: a rating of at most y is less likely *)
Theorem C135_dominance : forall a eps f g y, 0 < a_v a -> 0 < a_sigma a -> 0 < eps < 1 / 2 -> f <= g -> abs_cdf true_special a eps y g <= abs_cdf true_special a eps y f.
Proof. exact rating_dominance. Qed.
Print Assumptions C135_dominance.
Theorem C135_strict : forall a eps f g y, 0 < a_v a -> 0 < a_sigma a -> 0 < eps < 1 / 2 -> f < g -> free eps (a_sigma a) f -> free eps (a_sigma a) g -> 0 < y < 1 -> abs_cdf true_special a eps y g < abs_cdf true_special a eps y f.
Proof. exact rating_dominance_strict. Qed.
Print Assumptions C135_strict.
Example C135_ex : let a := mkAbs 1 80 true true in let eps := 1 / 10 ^ 10 in free eps 1 0 /\ abs_cdf true_special a eps (1 / 4) 0 < abs_cdf true_special a eps (1 / 2) 0 < 1 /\ abs_cdf true_special a eps (1 / 2) 1 <= abs_cdf true_special a eps (1 / 2) 0.
Proof.
  intros a eps. assert (He : 0 < eps < 1 / 2) by (unfold eps; lra). split.
  - unfold free, mean_rating. replace (0 / (1 * sqrt 2)) with 0 by (field; apply Rgt_not_eq, sqrt_lt_R0; lra). rewrite ndtr_0. split; [lra|unfold eps; lra].
  - destruct (C135_distribution a eps 0 ltac:(cbn; lra) He) as [_ [O [S _]]]. split; [|apply C135_dominance; cbn; lra]. split; [apply S; lra|]. assert (E := O 1 ltac:(lra)). assert (L := S (1 / 2) 1). lra.
Qed.
