(** Theorems C45, C46 (ratings), C81 and C82. *)
From Verif Require Import M_AbsProbit S_PrefProbit S_AbsProbit P_AbsProbit.
From Coquelicot Require Import Coquelicot.
From Coq Require Import Reals Lra Lia.
From Verif Require Import M_AbsProbit S_PrefProbit S_AbsProbit P_Normal P_AbsProbit.
Local Open Scope R_scope.

(** C45 *)
Theorem C45_parameters : forall a eps f, 0 < a_v a -> 0 < eps < 1 / 2 ->
  0 < alpha a eps f /\ 0 < beta a eps f /\ alpha a eps f + beta a eps f = a_v a /\ alpha a eps f / (alpha a eps f + beta a eps f) = mean_link a eps f.
Proof. exact beta_params. Qed.
Print Assumptions C45_parameters.
Theorem C45_mean_range : forall a eps f, 0 < eps < 1 / 2 -> eps <= mean_link a eps f <= 1 - eps.
Proof. exact mean_link_range. Qed.
Print Assumptions C45_mean_range.
Theorem C45_mean : forall a eps f, free eps (a_sigma a) f -> mean_link a eps f = mean_rating (a_sigma a) f.
Proof. exact mean_link_free. Qed.
Print Assumptions C45_mean.
Theorem C45_monotone : forall a eps f g, 0 < a_sigma a -> f <= g -> mean_link a eps f <= mean_link a eps g.
Proof. exact mean_link_le. Qed.
Print Assumptions C45_monotone.
Theorem C45_strict : forall a eps f g, 0 < a_sigma a -> f < g -> free eps (a_sigma a) f -> free eps (a_sigma a) g -> mean_link a eps f < mean_link a eps g.
Proof. exact mean_link_lt. Qed.
Print Assumptions C45_strict.
Theorem C45_same_value : forall sp a eps y n F, NoDup (map snd y) -> (forall p, In p y -> (snd p < n)%nat) -> abs_log_likelihood sp a eps y n F = snd (abs_derivatives sp a eps y F).
Proof. exact abs_ll_same. Qed.
Print Assumptions C45_same_value.
(** with repeated points log_likelihood depends on the order of the ratings, the value of derivatives does not *)
Theorem C45_repeated_refuted : forall sp a eps, a_v a <> 2 -> eps < 1 / 2 ->
  abs_log_likelihood sp a eps ((1 / 4, 0%nat) :: (1 / 2, 0%nat) :: nil) 1 (fun _ => 0) <> abs_log_likelihood sp a eps ((1 / 2, 0%nat) :: (1 / 4, 0%nat) :: nil) 1 (fun _ => 0).
Proof. exact abs_ll_order. Qed.
Print Assumptions C45_repeated_refuted.
Definition ex_abs : abs_probit := mkAbs 1 80 true true.
Definition ex_ratings : list (R * nat) := (1 / 4, 2%nat) :: (9 / 10, 0%nat) :: nil.
Lemma ex_nodup : NoDup (map snd ex_ratings).
Proof. cbn. constructor; [intros [H|[]]; discriminate|]. constructor; [intros []|constructor]. Qed.
Lemma ex_free : all_free (1 / 10) 1 ex_ratings (fun _ => 0).
Proof. intros p _. apply free_0. lra. Qed.
Example C45_ex : abs_log_likelihood sp_ex ex_abs (1 / 10) ex_ratings 3 (fun _ => 0) = snd (abs_derivatives sp_ex ex_abs (1 / 10) ex_ratings (fun _ => 0)) /\ alpha ex_abs (1 / 10) 0 = 40 /\ free (1 / 10) (a_sigma ex_abs) 0.
Proof.
  split; [apply C45_same_value; [exact ex_nodup|intros p [<- |[<- |[]]]; cbn; lia]|]. assert (K : free (1 / 10) (a_sigma ex_abs) 0) by (apply free_0; lra). split; [|exact K]. unfold alpha. rewrite C45_mean by exact K. rewrite mean_0. cbn. field.
Qed.

(** C46, ratings: only the last rating of a point counts in the gradient and in W *)
Theorem C46_rating_last : forall sp a eps y x u F, let d := abs_derivatives sp a eps (y ++ (x, u) :: nil) F in let d' := abs_derivatives sp a eps ((x, u) :: nil) F in
  snd (fst d) u = snd (fst d') u /\ fst (fst d) u u = fst (fst d') u u.
Proof. exact abs_last_wins. Qed.
Print Assumptions C46_rating_last.
Theorem C46_rating_refuted : forall sp a eps, gamma_facts sp -> 0 < a_v a -> 0 < a_sigma a -> eps < 1 / 2 ->
  has_partial (LLa sp (a_v a) (a_sigma a) ((1 / 4, 0%nat) :: (3 / 4, 0%nat) :: nil)) 0 (fun _ => 0) 0 /\ 0 < snd (fst (abs_derivatives sp a eps ((1 / 4, 0%nat) :: (3 / 4, 0%nat) :: nil) (fun _ => 0))) 0%nat.
Proof. exact abs_repeat_wrong. Qed.
Print Assumptions C46_rating_refuted.
Example C46_rating_ex : 0 < snd (fst (abs_derivatives sp_ex ex_abs (1 / 10) ((1 / 4, 0%nat) :: (3 / 4, 0%nat) :: nil) (fun _ => 0))) 0%nat.
Proof. apply C46_rating_refuted; [exact sp_ex_facts|cbn; lra|cbn; lra|lra]. Qed.

(** C81 *)
Theorem C81_value : forall sp a eps y F, all_free eps (a_sigma a) y F -> snd (abs_derivatives sp a eps y F) = LLa sp (a_v a) (a_sigma a) y F.
Proof. exact abs_value. Qed.
Print Assumptions C81_value.
Theorem C81_gradient : forall sp a eps y F i, gamma_facts sp -> 0 < a_v a -> NoDup (map snd y) -> all_free eps (a_sigma a) y F ->
  has_partial (LLa sp (a_v a) (a_sigma a) y) i F (snd (fst (abs_derivatives sp a eps y F)) i).
Proof. exact abs_gradient. Qed.
Print Assumptions C81_gradient.
Theorem C81_hessian : forall sp a eps y F i j, gamma_facts sp -> 0 < a_v a -> NoDup (map snd y) -> all_free eps (a_sigma a) y F ->
  has_partial (partial i (LLa sp (a_v a) (a_sigma a) y)) j F (- fst (fst (abs_derivatives sp a eps y F)) i j).
Proof. exact abs_hessian. Qed.
Print Assumptions C81_hessian.
Example C81_ex : has_partial (LLa sp_ex 80 1 ex_ratings) 0 (fun _ => 0) (snd (fst (abs_derivatives sp_ex ex_abs (1 / 10) ex_ratings (fun _ => 0))) 0%nat).
Proof. apply (C81_gradient sp_ex ex_abs); [exact sp_ex_facts|cbn; lra|exact ex_nodup|exact ex_free]. Qed.

(** C82 *)
Theorem C82_grad_hyper : forall sp a eps y F, gamma_facts sp -> 0 < a_v a -> a_sigma a <> 0 -> all_free eps (a_sigma a) y F -> exists ds dv,
  abs_grad_hyper sp a eps y F = (if a_opt a then if a_v_only a then dv :: nil else ds :: dv :: nil else nil) /\
  is_derive (fun s : R => LLa sp (a_v a) s y F) (a_sigma a) ds /\ is_derive (fun v : R => LLa sp v (a_sigma a) y F) (a_v a) dv.
Proof. exact (fun sp a eps y F G V Hs H => ex_intro _ _ (ex_intro _ _ (conj eq_refl (conj (LL_dSigma sp a eps y F G V Hs H) (LL_dv sp a eps y F G V H))))). Qed.
Print Assumptions C82_grad_hyper.
Theorem C82_W_dSigma : forall sp a eps y F i j, gamma_facts sp -> 0 < a_v a -> a_sigma a <> 0 -> NoDup (map snd y) -> all_free eps (a_sigma a) y F -> a_opt a = true -> a_v_only a = false ->
  is_derive (fun s : R => fst (fst (abs_derivatives sp (mkAbs s (a_v a) (a_opt a) (a_v_only a)) eps y F)) i j) (a_sigma a) (nth 0 (abs_W_dHyper sp a eps y F) (fun _ _ => 0) i j).
Proof. exact W_dSigma_model. Qed.
Print Assumptions C82_W_dSigma.
(** the derivative of W with respect to v is wrong for every v, sigma and rating, here at latent value 0 *)
Theorem C82_W_dv_refuted : forall sp s v eps x, gamma_facts sp -> 0 < v -> s <> 0 -> eps < 1 / 2 -> exists D, abs_W_dHyper sp (mkAbs s v true true) eps ((x, 0%nat) :: nil) (fun _ => 0) = D :: nil /\
  ~ is_derive (fun v : R => fst (fst (abs_derivatives sp (mkAbs s v true true) eps ((x, 0%nat) :: nil) (fun _ => 0))) 0%nat 0%nat) v (D 0%nat 0%nat).
Proof. exact (fun sp s v eps x G V Hs E => ex_intro _ _ (conj eq_refl (W_dv_wrong sp s v true true eps x G V Hs E))). Qed.
Print Assumptions C82_W_dv_refuted.
(** calc_W_dF is minus the derivative of W *)
Theorem C82_W_dF_partial : forall sp a eps y F i j k, gamma_facts sp -> 0 < a_v a -> a_sigma a <> 0 -> NoDup (map snd y) -> all_free eps (a_sigma a) y F ->
  has_partial (fun G => fst (fst (abs_derivatives sp a eps y G)) i j) k F (- abs_W_dF sp a eps y F i j k).
Proof. exact W_dF_minus. Qed.
Print Assumptions C82_W_dF_partial.
Theorem C82_W_dF_refuted : forall sp a eps x, gamma_facts sp -> 0 < a_v a -> 0 < a_sigma a -> eps < 1 / 2 -> 0 < x < 1 -> x <> 1 / 2 ->
  ~ has_partial (fun G => fst (fst (abs_derivatives sp a eps ((x, 0%nat) :: nil) G)) 0%nat 0%nat) 0 (fun _ => 0) (abs_W_dF sp a eps ((x, 0%nat) :: nil) (fun _ => 0) 0%nat 0%nat 0%nat).
Proof. exact W_dF_wrong. Qed.
Print Assumptions C82_W_dF_refuted.
Example C82_ex : is_derive (fun s : R => fst (fst (abs_derivatives sp_ex (mkAbs s 80 true false) (1 / 10) ex_ratings (fun _ => 0))) 0%nat 0%nat) 1 (nth 0 (abs_W_dHyper sp_ex (mkAbs 1 80 true false) (1 / 10) ex_ratings (fun _ => 0)) (fun _ _ => 0) 0%nat 0%nat) /\ ~ (1 / 4 = 1 / 2).
Proof. split; [|lra]. apply (C82_W_dSigma sp_ex (mkAbs 1 80 true false)); [exact sp_ex_facts|cbn; lra|cbn; lra|exact ex_nodup|exact ex_free|reflexivity|reflexivity]. Qed.
