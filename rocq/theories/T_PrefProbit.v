(** Properties C39-C42: the preference probit. *)
From Verif Require Import M_PrefProbit S_PrefProbit P_PrefProbit P_Psd.
From Coquelicot Require Import Coquelicot.
From Coq Require Import Reals Lra Lia.
From Verif Require Import M_PrefProbit S_PrefProbit S_Psd.
Local Open Scope R_scope.

(** C39 *)
Theorem C39_agrees : forall s y F i p, 0 < s -> nth_error y i = Some p -> dk_of p = 1 \/ dk_of p = -1 ->
  exists q, nth_error (likelihood s y F) i = Some q /\ 0 < q < 1 /\ (1 / 2 < q <-> agrees F p).
Proof. exact likelihood_agrees. Qed.
Print Assumptions C39_agrees.
Theorem C39_grows : forall s y F G i p a b, 0 < s -> nth_error y i = Some p -> dk_of p * (F (v_of p) - F (u_of p)) < dk_of p * (G (v_of p) - G (u_of p)) ->
  nth_error (likelihood s y F) i = Some a -> nth_error (likelihood s y G) i = Some b -> a <= b /\ (unclipped s y F -> unclipped s y G -> a < b).
Proof. exact likelihood_grows. Qed.
Print Assumptions C39_grows.
Theorem C39_opposite : forall s F d u v, likelihood s ((d, v, u) :: nil) F = likelihood s ((Z.opp d, u, v) :: nil) F /\
  forall a b, likelihood s ((d, u, v) :: nil) F = a :: nil -> likelihood s ((d, v, u) :: nil) F = b :: nil ->
    Rabs (a + b - 1) < exp (-450) /\ (unclipped s ((d, u, v) :: (d, v, u) :: nil) F -> s <> 0 -> a + b = 1).
Proof. exact likelihood_opposite. Qed.
Print Assumptions C39_opposite.
Theorem C39_all_pairs : forall s F i j, likelihood s ((1%Z, j, i) :: nil) F = likelihood_all_pairs s F i j :: nil.
Proof. exact all_pairs_agree. Qed.
Print Assumptions C39_all_pairs.
Theorem C39_preference : forall s F u v, 0 < s -> forall a, likelihood s (preference u v :: nil) F = a :: nil -> (1 / 2 < a <-> F v < F u).
Proof. exact preference_half. Qed.
Print Assumptions C39_preference.
Example C39_ex : exists a b, likelihood 1 ((1%Z, 0%nat, 1%nat) :: (-1, 0%nat, 1%nat)%Z :: nil) (fun i => if Nat.eqb i 0 then 0 else 2) = a :: b :: nil /\ 1 / 2 < a /\ b <= 1 / 2.
Proof.
  set (F := fun i => if Nat.eqb i 0 then 0 else 2). set (y := (1%Z, 0%nat, 1%nat) :: (-1, 0%nat, 1%nat)%Z :: nil).
  destruct (C39_agrees 1 y F 0 _ ltac:(lra) eq_refl ltac:(now left)) as [a [A1 [_ A2]]]. destruct (C39_agrees 1 y F 1 _ ltac:(lra) eq_refl ltac:(now right)) as [b [B1 [_ B2]]].
  exists a, b. split; [cbn in *; congruence|]. split.
  - apply A2. left. cbn. split; [reflexivity|lra].
  - apply Rnot_lt_le. intro H. apply B2 in H as [[H _]|[_ H]]; unfold dk_of, F in H; cbn in H; lra.
Qed.

(** C40 *)
Theorem C40_gradient : forall s y F i, s <> 0 -> unclipped s y F -> has_partial (log_likelihood s y) i F (derv_log_likelyhood s y F i).
Proof. exact pref_gradient. Qed.
Print Assumptions C40_gradient.
Theorem C40_hessian : forall s y F i j, s <> 0 -> unclipped s y F -> has_partial (partial i (log_likelihood s y)) j F (- calc_W s y F i j).
Proof. exact pref_hessian. Qed.
Print Assumptions C40_hessian.
(** a pair list with a repetition and both signs *)
Definition ex_pairs : list pair := (1%Z, 0%nat, 1%nat) :: (1%Z, 0%nat, 1%nat) :: ((-1)%Z, 2%nat, 1%nat) :: nil.
Lemma ex_unclipped : unclipped 1 ex_pairs (fun i => INR i).
Proof.
  assert (L : 1 < sqrt 2) by (rewrite <- sqrt_1; apply sqrt_lt_1; lra). assert (I : 0 < / (1 * sqrt 2) < 1). { split; [apply Rinv_0_lt_compat; lra|]. rewrite <- Rinv_1. apply Rinv_lt_contravar; lra. }
  unfold Rdiv, unclipped. intros p Hp. assert (E : dk_of p * (INR (v_of p) - INR (u_of p)) = 1) by (destruct Hp as [<- |[<- |[<- |[]]]]; unfold dk_of; cbn; ring). unfold Rdiv. rewrite E. lra.
Qed.
Example C40_ex : has_partial (log_likelihood 1 ex_pairs) 1 (fun i => INR i) (derv_log_likelyhood 1 ex_pairs (fun i => INR i) 1%nat) /\ 0 < derv_log_likelyhood 1 ex_pairs (fun i => INR i) 1%nat + 2.
Proof.
  split; [apply C40_gradient; [lra|exact ex_unclipped]|]. rewrite derv_sum. cbn [map ex_pairs]. change (rsum (?a :: ?b :: ?c :: nil)) with (a + (b + (c + 0))).
  replace (coef 1 (1%Z, 0%nat, 1%nat) 1) with (1 / (1 * sqrt 2)) by (unfold coef, delta, hot, dk_of; cbn; ring). replace (coef 1 ((-1)%Z, 2%nat, 1%nat) 1) with (- (1 / (1 * sqrt 2))) by (unfold coef, delta, hot, dk_of; cbn; ring).
  replace (z_of 1 (fun i => INR i) ((-1)%Z, 2%nat, 1%nat)) with (z_of 1 (fun i => INR i) (1%Z, 0%nat, 1%nat)) by (unfold z_of, dk_of; cbn; ring).
  assert (R := ratio_pos (z_of 1 (fun i => INR i) (1%Z, 0%nat, 1%nat))). assert (0 < 1 / (1 * sqrt 2)) by (apply Rdiv_lt_0_compat; [lra|]; rewrite Rmult_1_l; apply sqrt_lt_R0; lra). nra.
Qed.

(** C41 *)
Theorem C41_symmetric : forall s y F i j, calc_W s y F i j = calc_W s y F j i.
Proof. exact W_symmetric. Qed.
Print Assumptions C41_symmetric.
Theorem C41_row_sums : forall s y F n i, well_formed n y -> sumn n (fun j => calc_W s y F i j) = 0.
Proof. exact W_row_sum. Qed.
Print Assumptions C41_row_sums.
Theorem C41_psd : forall s y F n, s <> 0 -> not_low s y F -> psd n (calc_W s y F).
Proof. exact W_psd. Qed.
Print Assumptions C41_psd.
Theorem C41_newton : forall s y F n B, s <> 0 -> not_low s y F -> (forall c, (exists i, (i < n)%nat /\ c i <> 0) -> 0 < qform n B c) ->
  forall c, (exists i, (i < n)%nat /\ c i <> 0) -> 0 < qform n (fun i j => calc_W s y F i j + B i j) c.
Proof. exact (fun s y F n B Hs H => newton_pd n (calc_W s y F) B (W_psd s y F n Hs H)). Qed.
Print Assumptions C41_newton.
Theorem C41_concave : forall s y F G t, s <> 0 -> unclipped s y F -> unclipped s y G -> 0 <= t <= 1 ->
  t * log_likelihood s y F + (1 - t) * log_likelihood s y G <= log_likelihood s y (fun i => t * F i + (1 - t) * G i).
Proof. exact ll_concave. Qed.
Print Assumptions C41_concave.
(** below the clipping bound the curvature has the wrong sign *)
Theorem C41_clipped_refuted : forall s, 0 < s -> exists F, well_formed 2 ((1%Z, 0%nat, 1%nat) :: nil) /\ calc_W s ((1%Z, 0%nat, 1%nat) :: nil) F 0%nat 0%nat < 0.
Proof. exact W_not_psd. Qed.
Print Assumptions C41_clipped_refuted.
Example C41_ex : psd 3 (calc_W 1 ex_pairs (fun i => INR i)) /\ 0 < calc_W 1 ex_pairs (fun i => INR i) 1%nat 1%nat.
Proof.
  assert (N : not_low 1 ex_pairs (fun i => INR i)) by (intros p Hp; left; apply ex_unclipped; auto). split; [apply C41_psd; [lra|auto]|].
  rewrite W_sum. cbn [map ex_pairs]. change (rsum (?a :: ?b :: ?c :: nil)) with (a + (b + (c + 0))).
  replace (coef 1 (1%Z, 0%nat, 1%nat) 1) with (1 / (1 * sqrt 2)) by (unfold coef, delta, hot, dk_of; cbn; ring). replace (coef 1 ((-1)%Z, 2%nat, 1%nat) 1) with (- (1 / (1 * sqrt 2))) by (unfold coef, delta, hot, dk_of; cbn; ring).
  assert (P1 := paren_pos _ (z_not_low 1 ex_pairs _ ltac:(lra) N (1%Z, 0%nat, 1%nat) ltac:(now left))). assert (P2 := paren_pos _ (z_not_low 1 ex_pairs _ ltac:(lra) N ((-1)%Z, 2%nat, 1%nat) ltac:(right; right; now left))).
  assert (0 < 1 / (1 * sqrt 2)) by (apply Rdiv_lt_0_compat; [lra|]; rewrite Rmult_1_l; apply sqrt_lt_R0; lra). set (c := 1 / (1 * sqrt 2)) in *. assert (0 < c * c) by nra. nra.
Qed.

(** C42 *)
Theorem C42_grad_hyper : forall y F (s : R), s <> 0 -> unclipped s y F -> is_derive (fun s : R => log_likelihood s y F) s (grad_hyper s y F).
Proof. exact grad_hyper_derive. Qed.
Print Assumptions C42_grad_hyper.
Theorem C42_W_dHyper : forall y F i j (s : R), s <> 0 -> unclipped s y F -> is_derive (fun s : R => calc_W s y F i j) s (calc_W_dHyper s y F i j).
Proof. exact W_sigma_derive. Qed.
Print Assumptions C42_W_dHyper.
(** how far calc_W_dF is from the derivative of W *)
Theorem C42_W_dF_partial : forall s y F i j k, s <> 0 -> unclipped s y F -> has_partial (fun G => calc_W s y G i j) k F
  (calc_W_dF s y F i j k - rsum (map (fun p => 2 * pdf_cdf_ratio (z_of s F p) ^ 2 * (pdf_cdf_ratio (z_of s F p) - npdf (z_of s F p)) * (coef s p i * coef s p j * coef s p k)) y)).
Proof. exact W_F_derive. Qed.
Print Assumptions C42_W_dF_partial.
Theorem C42_W_dF_refuted : forall s, 0 < s -> exists y F, well_formed 2 y /\ unclipped s y F /\ ~ has_partial (fun G => calc_W s y G 0%nat 0%nat) 0 F (calc_W_dF s y F 0%nat 0%nat 0%nat).
Proof. exact W_F_wrong. Qed.
Print Assumptions C42_W_dF_refuted.
Example C42_ex : is_derive (fun s : R => log_likelihood s ex_pairs (fun i => INR i)) 1 (grad_hyper 1 ex_pairs (fun i => INR i)).
Proof. apply C42_grad_hyper; [lra|exact ex_unclipped]. Qed.
