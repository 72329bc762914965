(** C161: the updates of the hyper-parameters. *)
From Coquelicot Require Import Coquelicot.
From Coq Require Import Reals Lra Lia List.
From Verif Require Import M_RBase M_Base M_Fake M_Util M_Kernel M_Hyper M_HyperRun S_Hyper S_HyperRun S_Gamma P_RBase P_Hyper P_HyperPrior P_Gamma P_HyperRun.
Import ListNotations.
Local Open Scope R_scope.

(** whatever the gradients are, after the search no parameter has left its domain *)
Theorem C161_domain : forall m d l m', positive_draws d -> Forall (fun u => positive_draws (snd u)) l -> hyper_run true_gamma m d l = Ok m' -> in_domain m'.
Proof. intros m d l m' Pd Pl E. exact (proj1 (run_dom true_gamma m d l m' true_gamma_ge Pd Pl E)). Qed.
Print Assumptions C161_domain.
(** an update is the gradient step itself, or new draws *)
Theorem C161_step : forall g m grad d, h_ord m = false -> length grad = length (get_hyper m) ->
  exists m1, set_hyper m (zipw (fun x h => x - h * (1 / 100)) (get_hyper m) grad) = Ok m1 /\ get_hyper m1 = zipw (fun x h => x - h * (1 / 100)) (get_hyper m) grad /\ same_setup m m1 /\
    update_hyper g m grad d = if terrible (hyper_likelihood g m1) then randomize_hyper m1 d else Ok m1.
Proof. exact update_step. Qed.
Print Assumptions C161_step.
Lemma ex_ln : - 54 <= ln (1 / 1000000).
Proof.
  assert (T : ln 10 <= 9). { pose proof (exp_ineq1_le (ln 10)) as X. rewrite exp_ln in X by lra. lra. }
  replace (1 / 1000000) with (/ 10 ^ 6) by lra. rewrite ln_Rinv by (apply pow_lt; lra). rewrite ln_pow by lra. cbn [INR]. lra.
Qed.
Lemma Rpower_nat x y n : 0 < x -> y = INR n -> Rpower x y = x ^ n.
Proof. intros H ->. now apply Rpower_pow. Qed.
Lemma tg_nat n : true_gamma (INR n + 1) = INR (fact n).
Proof. unfold true_gamma. rewrite lgam_fact, exp_ln; [reflexivity|apply lt_0_INR, lt_O_fact]. Qed.
Lemma tg3 : true_gamma 3 = 2.
Proof. replace 3 with (INR 2 + 1) by (cbn; lra). rewrite tg_nat. cbn. lra. Qed.
Lemma tg10 : true_gamma 10 * Rpower (1 / 10) 10 <= 1.
Proof.
  replace (true_gamma 10) with (INR (fact 9)) by (rewrite <- tg_nat; f_equal; cbn [INR]; lra).
  replace (Rpower (1 / 10) 10) with ((1 / 10) ^ 10) by (symmetry; apply Rpower_nat; [lra|cbn [INR]; lra]).
  change (fact 9) with (9 * (8 * (7 * (6 * (5 * (4 * (3 * (2 * 1))))))))%nat. rewrite !mult_INR. cbn [INR pow]. lra.
Qed.
(** the length scale zero *)
Definition ex_m (l : R) : hmodel := mkH true false false (mkPref 1 true) (mkOrd 5 1 (linspace0 1 4)) (mkAbs 1 80 true true) false (Some (RBF 1 l 0)).
Lemma ex_kept : terrible (hyper_likelihood true_gamma (ex_m 0)) = false.
Proof.
  unfold hyper_likelihood, ex_m. cbn [h_rel h_abs h_kern h_only_probit h_p kprior]. unfold pref_prior. cbn [p_opt p_sigma]. destruct (Rleb 1 0) eqn:Q; [apply Rleb_true in Q; lra|].
  unfold log_pdf_gamma. cbv zeta. destruct (Rltb 1 0) eqn:Q1; [apply Rltb_true in Q1; lra|]. destruct (Rltb 0 0) eqn:Q2; [apply Rltb_true in Q2; lra|].
  cbn [M_Kernel.oplus terrible]. apply Rltb_false. unfold gamma_clip. destruct (Rltb 1 (1 / 1000000)) eqn:Q3; [apply Rltb_true in Q3; lra|]. destruct (Rltb 0 (1 / 1000000)) eqn:Q4; [|apply Rltb_false in Q4; lra].
  assert (L1 : 0 <= ln (1 / (true_gamma 10 * Rpower (1 / 10) 10))).
  { rewrite <- ln_1. apply ln_le; [lra|]. assert (T := tg10). assert (P : 0 < true_gamma 10 * Rpower (1 / 10) 10) by (apply Rmult_lt_0_compat; apply exp_pos). 
    unfold Rdiv. rewrite Rmult_1_l. rewrite <- Rinv_1 at 1. apply Rinv_le_contravar; [exact P|exact T]. }
  assert (L2 : 0 <= ln (1 / (true_gamma 3 * Rpower (4 / 10) 3))).
  { rewrite tg3. replace (Rpower (4 / 10) 3) with ((4 / 10) ^ 3) by (symmetry; apply Rpower_nat; [lra|cbn [INR]; lra]). rewrite <- ln_1. apply ln_le; lra. }
  rewrite ln_1. assert (T := ex_ln). lra.
Qed.
(** refuted: the parameters stay positive; a step to the length scale zero, for which the kernel divides by zero, is kept *)
Theorem C161_boundary_refuted : exists m grad, in_interior m /\ length grad = length (get_hyper m) /\ forall d, exists m' s e, update_hyper true_gamma m grad d = Ok m' /\ h_kern m' = Some (RBF s 0 e).
Proof.
  exists (ex_m 1), [0; 0; 100]. split; [|split; [reflexivity|]].
  - split; [cbn; lra|]. split; [discriminate|]. intros _ k Hk. injection Hk as <-. cbn. repeat constructor; lra.
  - intro d. exists (ex_m 0), 1, 0. split; [|reflexivity]. 
    assert (E : update_hyper true_gamma (ex_m 1) [0; 0; 100] d = if terrible (hyper_likelihood true_gamma (ex_m 0)) then randomize_hyper (ex_m 0) d else Ok (ex_m 0)).
    { unfold update_hyper. cbv zeta. cbn. replace (1 - 0 * (1 / 100)) with 1 by lra. replace (1 - 100 * (1 / 100)) with 0 by lra. reflexivity. }
    rewrite E, ex_kept. reflexivity.
Qed.
Print Assumptions C161_boundary_refuted.
(** refuted: a bad update is rolled back (comment in line 424); nothing of the previous parameters is left *)
Theorem C161_rollback_refuted : forall g m grad d k m1, h_ord m = false -> length grad = length (get_hyper m) -> aligned m -> h_kern m = Some k -> (length (kparam k) <= length (d_k d))%nat ->
  set_hyper m (zipw (fun x h => x - h * (1 / 100)) (get_hyper m) grad) = Ok m1 -> terrible (hyper_likelihood g m1) = true ->
  exists m', update_hyper g m grad d = Ok m' /\ own_draws d m m'.
Proof. exact no_rollback. Qed.
Print Assumptions C161_rollback_refuted.
(** refuted: the search works for every kernel; a sum or a product of kernels always fails, as it draws no parameters *)
Theorem C161_combination_refuted : forall g m d l k m', h_only_probit m = false -> h_kern m = Some k -> ~ atomic k -> hyper_run g m d l <> Ok m'.
Proof. exact run_combination. Qed.
Print Assumptions C161_combination_refuted.

(** ---- examples ---- *)
Definition ex_d : draws := mkDraws 1 1 1 [1; 1; 1].
Lemma ex_pos : positive_draws ex_d.
Proof. unfold positive_draws, ex_d. cbn. repeat split; try lra. repeat constructor; lra. Qed.
(** comparisons and ratings, an RBF kernel: drawn, then a step that makes the noise negative, so that new values are drawn *)
Definition ex_both : hmodel := mkH true false true (mkPref 2 true) (mkOrd 5 1 (linspace0 1 4)) (mkAbs 1 80 true true) false (Some (RBF 3 4 0)).
Definition ex_one : hmodel := mkH true false true (mkPref 1 true) (mkOrd 5 1 (linspace0 1 4)) (mkAbs 1 1 true true) false (Some (RBF 1 1 0)).
Lemma ex_bad : terrible (hyper_likelihood true_gamma (mkH true false true (mkPref (-1) true) (mkOrd 5 1 (linspace0 1 4)) (mkAbs 1 1 true true) false (Some (RBF 1 1 0)))) = true.
Proof.
  destruct (terrible _) eqn:T; [reflexivity|]. apply (kept_in_domain _ _ true_gamma_ge) in T; [|intros _ k Hk; injection Hk as <-; exact I]. destruct T as [T _]. cbn in T. specialize (T eq_refl eq_refl). lra.
Qed.
Example C161_domain_ex : hyper_run true_gamma ex_both ex_d [([200; 0; 0; 0], ex_d)] = Ok ex_one /\ positive_draws ex_d.
Proof.
  split; [|exact ex_pos]. unfold hyper_run. cbn [randomize_hyper]. assert (E : randomize_hyper ex_both ex_d = Ok ex_one) by reflexivity. rewrite E. cbn [bind hyper_updates].
  destruct (C161_step true_gamma ex_one [200; 0; 0; 0] ex_d eq_refl eq_refl) as [m1 [E1 [_ [_ U]]]]. rewrite U.
  assert (Q : m1 = mkH true false true (mkPref (-1) true) (mkOrd 5 1 (linspace0 1 4)) (mkAbs 1 1 true true) false (Some (RBF 1 1 0))).
  { cbn in E1. injection E1 as <-. replace (1 - 0 * (1 / 100)) with 1 by lra. replace (1 - 200 * (1 / 100)) with (-1) by lra. reflexivity. }
  rewrite Q, ex_bad. reflexivity.
Qed.
Example C161_rollback_ex : aligned ex_one /\ exists m1, set_hyper ex_one (zipw (fun x h => x - h * (1 / 100)) (get_hyper ex_one) [200; 0; 0; 0]) = Ok m1 /\ terrible (hyper_likelihood true_gamma m1) = true.
Proof.
  split; [unfold aligned; cbn; repeat split; auto; right; repeat split; auto; intros k Hk; injection Hk as <-; exact I|]. eexists. split; [cbn; reflexivity|].
  cbn [a_sigma]. replace (1 - 0 * (1 / 100)) with 1 by lra. replace (1 - 200 * (1 / 100)) with (-1) by lra. exact ex_bad.
Qed.
Example C161_combination_ex : ~ atomic (KAdd (RBF 1 1 0) (Lin 1 1 1)) /\ hyper_run true_gamma (mkH true false false (mkPref 1 true) (mkOrd 5 1 nil) (mkAbs 1 1 true true) false (Some (KAdd (RBF 1 1 0) (Lin 1 1 1)))) ex_d [] = Raise IndexError.
Proof. split; [exact (fun x => x)|reflexivity]. Qed.
Example C161_step_ex : length [200; 0; 0; 0] = length (get_hyper ex_one) /\ get_hyper ex_one = [1; 1; 1; 1].
Proof. split; reflexivity. Qed.
