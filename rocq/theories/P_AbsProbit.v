(** Lemmas on the rating probit. *)
From Verif Require Export P_Put S_AbsProbit P_OrdProbit.
From Coquelicot Require Import Coquelicot.
From Coq Require Import Reals Lra Lia.
From Verif Require Import M_AbsProbit S_PrefProbit S_AbsProbit P_Base P_RBase P_Normal P_PrefProbit P_Put P_OrdProbit.
Local Open Scope R_scope.

Lemma sqrt2_pos : 0 < sqrt 2.
Proof. apply sqrt_lt_R0. lra. Qed.
Lemma sqrt2_sq : sqrt 2 * sqrt 2 = 2.
Proof. apply sqrt_sqrt. lra. Qed.
Lemma arg_div s f : f * isqrt2sig s = f / (s * sqrt 2).
Proof. unfold isqrt2sig, Rdiv. ring. Qed.
Lemma mean_link_range a eps f : 0 < eps < 1 / 2 -> eps <= mean_link a eps f <= 1 - eps.
Proof. intro H. apply rclip_range. lra. Qed.
Lemma mean_link_free a eps f : free eps (a_sigma a) f -> mean_link a eps f = mean_rating (a_sigma a) f.
Proof.
  intros [H1 H2]. unfold mean_link, mean_rating in *. rewrite arg_div. rewrite std_norm_cdf_id by lra. apply rclip_id. lra.
Qed.
Lemma mean_range s f : 0 < mean_rating s f < 1.
Proof. apply ndtr_range. Qed.

(** ---- derivatives of one rating, exact mean ---- *)
Section One.
Variables (sp : special) (G : gamma_facts sp) (v s x : R).
Hypothesis (Hv : 0 < v) (Hs : s <> 0).
Definition mu_ (f : R) : R := mean_rating s f.
Definition A_ (f : R) : R := v * isqrt2sig s * npdf (f / (s * sqrt 2)).
Definition T_ (f : R) : R := ln x - ln (1 - x) - psi sp (v * mu_ f) + psi sp (v * (1 - mu_ f)).
Definition S_ (f : R) : R := psi1 sp (v * mu_ f) + psi1 sp (v * (1 - mu_ f)).
Definition D_ (f : R) : R := psi2 sp (v * mu_ f) - psi2 sp (v * (1 - mu_ f)).
Lemma vm_pos f : 0 < v * mu_ f /\ 0 < v * (1 - mu_ f).
Proof. assert (K := mean_range s f). unfold mu_. split; apply Rmult_lt_0_compat; lra. Qed.
Lemma arg_derive (f : R) : is_derive (fun f => f / (s * sqrt 2)) f (isqrt2sig s).
Proof. unfold isqrt2sig, Rdiv. auto_derive; [auto|ring]. Qed.
Lemma alpha_derive (f : R) : is_derive (fun f => v * mu_ f) f (A_ f).
Proof.
  unfold mu_, mean_rating, A_. replace (v * isqrt2sig s * npdf (f / (s * sqrt 2))) with (v * (npdf (f / (s * sqrt 2)) * isqrt2sig s)) by ring.
  apply (is_derive_scal (fun f => ndtr (f / (s * sqrt 2)))). apply (comp_derive ndtr (fun f => f / (s * sqrt 2))); [apply ndtr_derive|apply arg_derive].
Qed.
Lemma beta_derive (f : R) : is_derive (fun f => v * (1 - mu_ f)) f (- A_ f).
Proof.
  apply (is_derive_ext (fun f => v - v * mu_ f)); [intro t; unfold mu_; change (v - v * mean_rating s t = v * (1 - mean_rating s t)); ring|]. replace (- A_ f) with (0 - A_ f) by ring. apply (is_derive_minus (K := R_AbsRing) (V := R_NormedModule)); [exact (is_derive_const (K := R_AbsRing) (V := R_NormedModule) v f)|apply alpha_derive].
Qed.
Lemma A_derive (f : R) : is_derive A_ f (- A_ f * (f * i2var s)).
Proof.
  unfold A_. replace (- (v * isqrt2sig s * npdf (f / (s * sqrt 2))) * (f * i2var s)) with (v * isqrt2sig s * (- (f / (s * sqrt 2)) * npdf (f / (s * sqrt 2)) * isqrt2sig s)) by (unfold i2var; rewrite <- arg_div; ring).
  apply (is_derive_scal (fun f => npdf (f / (s * sqrt 2)))). apply (comp_derive npdf (fun f => f / (s * sqrt 2))); [apply npdf_derive|apply arg_derive].
Qed.
Lemma comp_ab (g dg : R -> R) (f : R) : (forall z : R, 0 < z -> is_derive g z (dg z)) ->
  is_derive (fun f => g (v * mu_ f)) f (dg (v * mu_ f) * A_ f) /\ is_derive (fun f => g (v * (1 - mu_ f))) f (dg (v * (1 - mu_ f)) * - A_ f).
Proof.
  intro H. destruct (vm_pos f) as [H1 H2]. split; [apply (comp_derive g (fun f => v * mu_ f))|apply (comp_derive g (fun f => v * (1 - mu_ f)))]; auto; [apply alpha_derive|apply beta_derive].
Qed.
Lemma T_derive (f : R) : is_derive T_ f (- A_ f * S_ f).
Proof.
  destruct (comp_ab (psi sp) (psi1 sp) f (gf_psi1 sp G)) as [D1 D2]. unfold T_, S_. evar_last. { apply @is_derive_plus; [apply @is_derive_minus; [apply @is_derive_const|exact D1]|exact D2]. }
  unfold plus, minus, zero, opp; simpl. unfold plus, opp; simpl. ring.
Qed.
Lemma S_derive (f : R) : is_derive S_ f (A_ f * D_ f).
Proof.
  destruct (comp_ab (psi1 sp) (psi2 sp) f (gf_psi2 sp G)) as [D1 D2]. unfold S_, D_. evar_last. { apply @is_derive_plus; [exact D1|exact D2]. }
  unfold plus; simpl. ring.
Qed.
Lemma rmult_derive (f g : R -> R) (t df dg : R) : is_derive f t df -> is_derive g t dg -> is_derive (fun t => f t * g t) t (df * g t + f t * dg).
Proof. intros. apply (is_derive_mult f g t df dg); auto. intros; apply Rmult_comm. Qed.
Lemma rplus_derive (f g : R -> R) (t df dg : R) : is_derive f t df -> is_derive g t dg -> is_derive (fun t => f t + g t) t (df + dg).
Proof. intros. apply (is_derive_plus (K := R_AbsRing) (V := R_NormedModule)); auto. Qed.
Lemma rminus_derive (f g : R -> R) (t df dg : R) : is_derive f t df -> is_derive g t dg -> is_derive (fun t => f t - g t) t (df - dg).
Proof. intros. apply (is_derive_minus (K := R_AbsRing) (V := R_NormedModule)); auto. Qed.
Lemma rconst_derive (c t : R) : is_derive (fun _ : R => c) t 0.
Proof. exact (is_derive_const (K := R_AbsRing) (V := R_NormedModule) c t). Qed.
Lemma rid_derive (t : R) : is_derive (fun t : R => t) t 1.
Proof. exact (is_derive_id (K := R_AbsRing) t). Qed.
Lemma rating_derive (f : R) : is_derive (rating_ll sp v s x) f (A_ f * T_ f).
Proof.
  destruct (comp_ab (lgam sp) (psi sp) f (gf_psi sp G)) as [D1 D2]. unfold rating_ll. evar_last.
  { apply rminus_derive; [apply rplus_derive|].
    - apply (rmult_derive (fun f => v * mean_rating s f - 1)); [apply rminus_derive; [apply alpha_derive|apply rconst_derive]|apply rconst_derive].
    - apply (rmult_derive (fun f => v * (1 - mean_rating s f) - 1)); [apply rminus_derive; [apply beta_derive|apply rconst_derive]|apply rconst_derive].
    - apply rminus_derive; [apply rplus_derive; [exact D1|exact D2]|apply rconst_derive]. }
  unfold T_, mu_. ring.
Qed.
Definition W_ (f : R) : R := A_ f * (f * i2var s * T_ f + A_ f * S_ f).
Lemma grad_derive (f : R) : is_derive (fun f => A_ f * T_ f) f (- W_ f).
Proof. evar_last. { apply rmult_derive; [apply A_derive|apply T_derive]. } unfold W_. ring. Qed.
Definition W3_ (f : R) : R := A_ f * i2var s * (1 - f * f * i2var s) * T_ f - 3 * A_ f ^ 2 * f * i2var s * S_ f + A_ f ^ 3 * D_ f.
Lemma W_derive (f : R) : is_derive W_ f (W3_ f).
Proof.
  unfold W_. evar_last. { apply rmult_derive; [apply A_derive|]. apply rplus_derive.
    - apply (rmult_derive (fun f => f * i2var s)); [apply (rmult_derive (fun f => f)); [apply rid_derive|apply rconst_derive]|apply T_derive].
    - apply rmult_derive; [apply A_derive|apply S_derive]. }
  unfold W3_. ring.
Qed.
End One.

(** ---- derivatives with respect to sigma ---- *)
Section Sigma.
Variables (sp : special) (G : gamma_facts sp) (v x f : R).
Hypothesis (Hv : 0 < v).
Lemma arg_ds (s : R) : s <> 0 -> is_derive (fun s => f / (s * sqrt 2)) s (- (f / (s * sqrt 2)) / s).
Proof. intro H. assert (K := sqrt2_pos). auto_derive; [apply Rmult_integral_contrapositive; split; [auto|lra]|]. field. split; lra. Qed.
Lemma isq_ds (s : R) : s <> 0 -> is_derive isqrt2sig s (- isqrt2sig s / s).
Proof. intro H. assert (K := sqrt2_pos). unfold isqrt2sig. auto_derive; [apply Rmult_integral_contrapositive; split; [auto|lra]|]. field. split; lra. Qed.
Lemma alpha_ds (s : R) : s <> 0 -> is_derive (fun s => v * mu_ s f) s (- A_ v s f * f / s).
Proof.
  intro H. unfold mu_, mean_rating, A_. replace (- (v * isqrt2sig s * npdf (f / (s * sqrt 2))) * f / s) with (v * (npdf (f / (s * sqrt 2)) * (- (f / (s * sqrt 2)) / s))) by (rewrite <- arg_div; unfold Rdiv; ring).
  apply (is_derive_scal (fun s => ndtr (f / (s * sqrt 2)))). apply (comp_derive ndtr (fun s => f / (s * sqrt 2))); [apply ndtr_derive|now apply arg_ds].
Qed.
Lemma beta_ds (s : R) : s <> 0 -> is_derive (fun s => v * (1 - mu_ s f)) s (A_ v s f * f / s).
Proof.
  intro H. apply (is_derive_ext (fun s => v - v * mu_ s f)); [intro t; change (v - v * mu_ t f = v * (1 - mu_ t f)); ring|]. replace (A_ v s f * f / s) with (0 - (- A_ v s f * f / s)) by (unfold Rdiv; ring). apply rminus_derive; [apply rconst_derive|now apply alpha_ds].
Qed.
Lemma A_ds (s : R) : s <> 0 -> is_derive (fun s => A_ v s f) s (A_ v s f * (f * f * i2var s - 1) / s).
Proof.
  intro H. unfold A_. evar_last. { apply (rmult_derive (fun s => v * isqrt2sig s) (fun s => npdf (f / (s * sqrt 2)))); [apply (is_derive_scal isqrt2sig); now apply isq_ds|]. apply (comp_derive npdf (fun s => f / (s * sqrt 2))); [apply npdf_derive|now apply arg_ds]. }
  unfold i2var. rewrite <- arg_div. unfold Rdiv. ring.
Qed.
Lemma comp_ds (g dg : R -> R) (s : R) : s <> 0 -> (forall z : R, 0 < z -> is_derive g z (dg z)) ->
  is_derive (fun s => g (v * mu_ s f)) s (dg (v * mu_ s f) * (- A_ v s f * f / s)) /\ is_derive (fun s => g (v * (1 - mu_ s f))) s (dg (v * (1 - mu_ s f)) * (A_ v s f * f / s)).
Proof.
  intros H D. destruct (vm_pos v s Hv f) as [H1 H2]. split; [apply (comp_derive g (fun s => v * mu_ s f))|apply (comp_derive g (fun s => v * (1 - mu_ s f)))]; auto; [now apply alpha_ds|now apply beta_ds].
Qed.
Lemma T_ds (s : R) : s <> 0 -> is_derive (fun s => T_ sp v s x f) s (A_ v s f * f / s * S_ sp v s f).
Proof.
  intro H. destruct (comp_ds (psi sp) (psi1 sp) s H (gf_psi1 sp G)) as [D1 D2]. unfold T_, S_. evar_last. { apply rplus_derive; [apply rminus_derive; [apply rconst_derive|exact D1]|exact D2]. } field. auto.
Qed.
Lemma S_ds (s : R) : s <> 0 -> is_derive (fun s => S_ sp v s f) s (- A_ v s f * f / s * D_ sp v s f).
Proof.
  intro H. destruct (comp_ds (psi1 sp) (psi2 sp) s H (gf_psi2 sp G)) as [D1 D2]. unfold S_, D_. evar_last. { apply rplus_derive; [exact D1|exact D2]. } field. auto.
Qed.
Lemma rating_ds (s : R) : s <> 0 -> is_derive (fun s => rating_ll sp v s x f) s (- (A_ v s f * f / s) * T_ sp v s x f).
Proof.
  intro H. destruct (comp_ds (lgam sp) (psi sp) s H (gf_psi sp G)) as [D1 D2]. unfold rating_ll. evar_last.
  { apply rminus_derive; [apply rplus_derive|].
    - apply (rmult_derive (fun s => v * mean_rating s f - 1)); [apply rminus_derive; [now apply alpha_ds|apply rconst_derive]|apply rconst_derive].
    - apply (rmult_derive (fun s => v * (1 - mean_rating s f) - 1)); [apply rminus_derive; [now apply beta_ds|apply rconst_derive]|apply rconst_derive].
    - apply rminus_derive; [apply rplus_derive; [exact D1|exact D2]|apply rconst_derive]. }
  unfold T_, mu_. field. auto.
Qed.
Lemma i2_ds (s : R) : s <> 0 -> is_derive i2var s (- 2 * i2var s / s).
Proof. intro H. assert (K := isq_ds s H). unfold i2var. apply (is_derive_ext (fun s => isqrt2sig s * isqrt2sig s)); [intro t; change (isqrt2sig t * isqrt2sig t = isqrt2sig t ^ 2); ring|]. evar_last. { apply rmult_derive; exact K. } field. auto. Qed.
Definition Ws_ (s : R) : R := let A := A_ v s f in let i2 := i2var s in let T := T_ sp v s x f in let S := S_ sp v s f in
  (A * (f * f * i2 - 1) * (f * i2 * T + A * S) + A * (- 2 * f * i2 * T + f * f * i2 * A * S + A * (f * f * i2 - 1) * S - A * A * f * D_ sp v s f)) / s.
Lemma W_ds (s : R) : s <> 0 -> is_derive (fun s => W_ sp v s x f) s (Ws_ s).
Proof.
  intro H. unfold W_. evar_last. { apply rmult_derive; [now apply A_ds|]. apply rplus_derive.
    - apply (rmult_derive (fun s => f * i2var s)); [apply (is_derive_scal i2var); now apply i2_ds|now apply T_ds].
    - apply rmult_derive; [now apply A_ds|now apply S_ds]. }
  unfold Ws_. cbv zeta. field. auto.
Qed.
End Sigma.
(** ---- derivatives with respect to v ---- *)
Section Vee.
Variables (sp : special) (G : gamma_facts sp) (s x f : R).
Lemma comp_dv (g dg : R -> R) (c v : R) : 0 < c -> 0 < v -> (forall z : R, 0 < z -> is_derive g z (dg z)) -> is_derive (fun v => g (v * c)) v (dg (v * c) * c).
Proof. intros Hc Hv D. apply (comp_derive g (fun v => v * c)); [apply D; now apply Rmult_lt_0_compat|]. auto_derive; [auto|ring]. Qed.
Lemma lin_dv (c v : R) : is_derive (fun v => v * c) v c.
Proof. auto_derive; [auto|ring]. Qed.
Lemma rating_dv (v : R) : 0 < v -> is_derive (fun v => rating_ll sp v s x f) v
  (mu_ s f * ln x + (1 - mu_ s f) * ln (1 - x) - (psi sp (v * mu_ s f) * mu_ s f + psi sp (v * (1 - mu_ s f)) * (1 - mu_ s f) - psi sp v)).
Proof.
  intro H. assert (M := mean_range s f). unfold rating_ll, mu_. evar_last.
  { apply rminus_derive; [apply rplus_derive|].
    - apply (rmult_derive (fun v => v * mean_rating s f - 1)); [apply rminus_derive; [apply lin_dv|apply rconst_derive]|apply rconst_derive].
    - apply (rmult_derive (fun v => v * (1 - mean_rating s f) - 1)); [apply rminus_derive; [apply lin_dv|apply rconst_derive]|apply rconst_derive].
    - apply rminus_derive; [apply rplus_derive; [apply (comp_dv (lgam sp) (psi sp)); [lra|auto|apply (gf_psi sp G)]|apply (comp_dv (lgam sp) (psi sp)); [lra|auto|apply (gf_psi sp G)]]|apply (gf_psi sp G); auto]. }
  cbv beta. ring.
Qed.
Definition Wv_ (v : R) : R := let B := isqrt2sig s * npdf (f / (s * sqrt 2)) in let i2 := i2var s in let m := mu_ s f in
  B * f * i2 * T_ sp v s x f + v * B * f * i2 * (- m * psi1 sp (v * m) + (1 - m) * psi1 sp (v * (1 - m))) + 2 * v * B * B * S_ sp v s f + v * v * B * B * (m * psi2 sp (v * m) + (1 - m) * psi2 sp (v * (1 - m))).
Lemma W_dv (v : R) : 0 < v -> is_derive (fun v => W_ sp v s x f) v (Wv_ v).
Proof.
  intro H. assert (M := mean_range s f). fold (mu_ s f) in M. unfold W_, A_, T_, S_. evar_last.
  { apply (rmult_derive (fun v => v * isqrt2sig s * npdf (f / (s * sqrt 2)))); [apply (rmult_derive (fun v => v * isqrt2sig s)); [apply lin_dv|apply rconst_derive]|].
    apply rplus_derive.
    - apply (rmult_derive (fun _ => f * i2var s)); [apply rconst_derive|]. apply rplus_derive; [apply rminus_derive; [apply rconst_derive|]|]; apply (comp_dv (psi sp) (psi1 sp)); try lra; apply (gf_psi1 sp G).
    - apply (rmult_derive (fun v => v * isqrt2sig s * npdf (f / (s * sqrt 2)))); [apply (rmult_derive (fun v => v * isqrt2sig s)); [apply lin_dv|apply rconst_derive]|]. apply rplus_derive; apply (comp_dv (psi1 sp) (psi2 sp)); try lra; apply (gf_psi2 sp G). }
  unfold Wv_, T_, S_. cbv beta zeta. ring.
Qed.
End Vee.

(** ---- the model in terms of the exact quantities ---- *)
Lemma ab_free a eps f : free eps (a_sigma a) f -> alpha a eps f = a_v a * mu_ (a_sigma a) f /\ beta a eps f = a_v a * (1 - mu_ (a_sigma a) f).
Proof. intro H. unfold beta, alpha. rewrite mean_link_free by auto. unfold mu_. split; [reflexivity|ring]. Qed.
Lemma slope_A a f : slope a f = A_ (a_v a) (a_sigma a) f.
Proof. unfold slope, A_. now rewrite (arg_div (a_sigma a) f). Qed.
Lemma tmp_T sp a eps x f : free eps (a_sigma a) f -> tmp sp a eps x f = T_ sp (a_v a) (a_sigma a) x f.
Proof. intro H. unfold tmp, T_. destruct (ab_free a eps f H) as [-> ->]. reflexivity. Qed.
Lemma dpy_exact sp a eps F p : free eps (a_sigma a) (F (snd p)) -> abs_dpy sp a eps F p = A_ (a_v a) (a_sigma a) (F (snd p)) * T_ sp (a_v a) (a_sigma a) (fst p) (F (snd p)).
Proof. intro H. unfold abs_dpy. cbv zeta. now rewrite slope_A, tmp_T. Qed.
Lemma Wdiag_exact sp a eps F p : free eps (a_sigma a) (F (snd p)) -> abs_Wdiag sp a eps F p = - W_ sp (a_v a) (a_sigma a) (fst p) (F (snd p)).
Proof. intro H. unfold abs_Wdiag, W_. cbv zeta. rewrite slope_A, tmp_T by auto. unfold S_. destruct (ab_free a eps _ H) as [-> ->]. ring. Qed.
Lemma py_exact sp a eps F p : free eps (a_sigma a) (F (snd p)) -> abs_py sp a eps F p = rating_ll sp (a_v a) (a_sigma a) (fst p) (F (snd p)).
Proof.
  intro H. unfold abs_py, beta_logpdf, rating_ll. cbv zeta. destruct (ab_free a eps _ H) as [-> ->]. unfold mu_. set (m := mean_rating _ _). replace (a_v a * m + a_v a * (1 - m)) with (a_v a) by ring. ring.
Qed.
Lemma sq2 s : s <> 0 -> isqrt2sig s = 1 / (s * sqrt 2) /\ i2var s = 1 / (2 * s * s).
Proof. intro H. split; [reflexivity|]. unfold i2var, isqrt2sig. assert (K := sqrt2_pos). replace (1 / (2 * s * s)) with (1 / (sqrt 2 * sqrt 2 * s * s)) by (now rewrite sqrt2_sq). field. split; lra. Qed.
Lemma dF_exact sp a eps F p : a_sigma a <> 0 -> free eps (a_sigma a) (F (snd p)) -> abs_dF_diag sp a eps F p = - W3_ sp (a_v a) (a_sigma a) (fst p) (F (snd p)).
Proof.
  intros Hs H. unfold abs_dF_diag, W3_, A_, T_, S_, D_. cbv zeta. destruct (ab_free a eps _ H) as [-> ->]. destruct (sq2 (a_sigma a) Hs) as [E1 E2]. rewrite E2. unfold isqrt2sig.
  set (f := F (snd p)). set (g := npdf (f / (sqrt 2 * a_sigma a))). replace (npdf (f / (a_sigma a * sqrt 2))) with g by (unfold g; do 2 f_equal; ring).
  assert (K := sqrt2_pos). assert (Q := sqrt2_sq). set (q := sqrt 2) in *. set (L := _ - _ - _ + _). set (P1 := psi1 sp _ + _). clearbody g L P1 q. set (s := a_sigma a) in *. clearbody s.
  assert (q3 : q ^ 3 = 2 * q) by (simpl; rewrite Rmult_1_r, Q; ring). assert (q2 : q ^ 2 = 2) by (simpl; rewrite Rmult_1_r; exact Q).
  transitivity (- (a_v a * 1 / (2 * q * s * s * s) * g * (1 - f * f / (2 * s * s)) * L - 3 * (a_v a * a_v a * g * g / (2 * s * s)) * f / (2 * s * s) * P1 + a_v a * a_v a * a_v a * g * g * g / (2 * q * s * s * s) * (psi2 sp (a_v a * mu_ s f) - psi2 sp (a_v a * (1 - mu_ s f))))).
  - field. split; lra.
  - rewrite <- q3 at 3 || idtac. f_equal. f_equal; [f_equal|].
    + field. split; lra.
    + replace (2 * s * s) with (q ^ 2 * s * s) at 1 by (rewrite q2; ring). field. split; lra.
    + replace (2 * q) with (q ^ 3) by (rewrite q3; ring). field. split; lra.
Qed.
Lemma dSigma_exact sp a eps F p : a_sigma a <> 0 -> free eps (a_sigma a) (F (snd p)) -> abs_dW_dSigma sp a eps F p = - Ws_ sp (a_v a) (fst p) (F (snd p)) (a_sigma a).
Proof.
  intros Hs H. unfold abs_dW_dSigma, Ws_. cbv zeta. rewrite tmp_T by auto. unfold S_, D_, A_. destruct (ab_free a eps _ H) as [-> ->]. destruct (sq2 (a_sigma a) Hs) as [E1 E2]. rewrite E2. unfold isqrt2sig.
  set (f := F (snd p)). set (g := npdf (f / (sqrt 2 * a_sigma a))). replace (npdf (f / (a_sigma a * sqrt 2))) with g by (unfold g; do 2 f_equal; ring).
  assert (K := sqrt2_pos). assert (Q := sqrt2_sq). set (q := sqrt 2) in *. set (L := T_ _ _ _ _ _). set (P1 := psi1 sp _ + _). set (D := psi2 sp _ - _). clearbody g L P1 q D. set (s := a_sigma a) in *. clearbody s.
  assert (q3 : q ^ 3 = 2 * q) by (simpl; rewrite Rmult_1_r, Q; ring). assert (q2 : q ^ 2 = 2) by (simpl; rewrite Rmult_1_r; exact Q). set (v := a_v a) in *. clearbody v f. clear - Hs K Q q3 q2.
  transitivity (- (v * (1 / (s * q)) * g * f * (1 / (2 * s * s)) * L * (f * f * (1 / (2 * s * s)) - 3) + (v * g) ^ 2 * (1 / (q ^ 2 * s * s)) * P1 * (3 * (f * f) * (1 / (2 * s * s)) - 2) - (v * g) ^ 3 * (1 / (q ^ 3 * s * s * s)) * f * D) / s).
  - rewrite q2, q3. field. split; lra.
  - field. split; lra.
Qed.
Lemma dv_exact sp a eps F p : a_sigma a <> 0 -> free eps (a_sigma a) (F (snd p)) ->
  let s := a_sigma a in let v := a_v a in let f := F (snd p) in let m := mean_rating s f in let g := npdf (f / (s * sqrt 2)) in
  - abs_dW_dv sp a eps F p = Wv_ sp s (fst p) f v - (v / (s * s) * (g * g)) * (2 * (psi1 sp (v * m) + psi1 sp (v * (1 - m))) + v / 2 * (m * (psi2 sp (v * m) + psi1 sp (v * m)) + 2 * (1 - m) * psi2 sp (v * (1 - m)))).
Proof.
  intros Hs H. cbv zeta. unfold abs_dW_dv, Wv_. cbv zeta. rewrite tmp_T by auto. unfold S_. destruct (ab_free a eps _ H) as [-> ->]. rewrite (mean_link_free a eps _ H). fold (mu_ (a_sigma a) (F (snd p))). destruct (sq2 (a_sigma a) Hs) as [E1 E2]. rewrite E2. unfold isqrt2sig.
  set (f := F (snd p)). set (g := npdf (f / (sqrt 2 * a_sigma a))). replace (npdf (f / (a_sigma a * sqrt 2))) with g by (unfold g; do 2 f_equal; ring).
  assert (K := sqrt2_pos). assert (Q := sqrt2_sq). set (q := sqrt 2) in *. set (L := T_ _ _ _ _ _). set (m := mu_ _ _). set (a1 := psi1 sp (a_v a * m)). set (b1 := psi1 sp (a_v a * (1 - m))). set (a2 := psi2 sp (a_v a * m)). set (b2 := psi2 sp (a_v a * (1 - m))). clearbody g L q a1 b1 a2 b2 m. set (s := a_sigma a) in *. clearbody s.
  assert (q2 : q ^ 2 = 2) by (simpl; rewrite Rmult_1_r; exact Q). set (v := a_v a) in *. clearbody v f. clear - Hs K Q q2.
  transitivity (1 / (s * q) * g * f * (1 / (2 * s * s)) * L + v * (1 / (s * q) * g) * f * (1 / (2 * s * s)) * (- m * a1 + (1 - m) * b1) + 2 * v * (1 / (q ^ 2 * s * s) * g * g) * (a1 + b1) + v * v * (1 / (q ^ 2 * s * s) * g * g) * (m * a2 + (1 - m) * b2)
    - v / (s * s) * (g * g) * (2 * (a1 + b1) + v / 2 * (m * (a2 + a1) + 2 * (1 - m) * b2))).
  - rewrite q2. field. split; lra.
  - field. split; lra.
Qed.
(** ---- neighbourhoods without clipping ---- *)
Lemma between_locally (g : R -> R) (x a b : R) : continuous g x -> a < g x < b -> locally x (fun t : R => a < g t < b).
Proof. intros C H. apply (C (fun u => a < u < b)). apply (open_and (fun u => a < u) (fun u => u < b)); [apply open_gt|apply open_lt|exact H]. Qed.
Lemma free_locally (g : R -> R) (x eps dg : R) (k s : R -> R) : (forall t, g t = k t / (s t * sqrt 2)) -> is_derive g x dg -> free eps (s x) (k x) -> locally x (fun t : R => free eps (s t) (k t)).
Proof.
  intros E D [H1 H2]. unfold free, mean_rating in *. rewrite <- E in H1, H2. assert (C : continuous g x) by (apply (ex_derive_continuous (K := R_AbsRing) (V := R_NormedModule)); eexists; exact D).
  generalize (filter_and (F := locally (T := R_UniformSpace) x) _ _ (between_locally g x _ _ C H1) (between_locally (fun t => ndtr (g t)) x _ _ ltac:(apply (continuous_comp g ndtr); [exact C|apply (ex_derive_continuous (K := R_AbsRing) (V := R_NormedModule)); eexists; apply ndtr_derive]) H2)).
  apply filter_imp. intros t. rewrite <- E. tauto.
Qed.
Lemma free_locally_f eps s (f : R) : free eps s f -> locally f (fun t : R => free eps s t).
Proof. apply (free_locally (fun t => t / (s * sqrt 2)) f eps (isqrt2sig s) (fun t => t) (fun _ => s)); [reflexivity|apply arg_derive]. Qed.
Lemma free_locally_s eps (s : R) f : s <> 0 -> free eps s f -> locally s (fun t : R => free eps t f).
Proof. intro H. apply (free_locally (fun t => f / (t * sqrt 2)) s eps (- (f / (s * sqrt 2)) / s) (fun _ => f) (fun t => t)); [reflexivity|now apply arg_ds]. Qed.
Lemma all_free_locally eps s y F k : all_free eps s y F -> locally (F k : R) (fun t : R => all_free eps s y (upd F k t)).
Proof.
  intro H. unfold all_free. apply (locally_all y (F k) (fun p t => free eps s (upd F k t (snd p)))). intros p Hp. apply (upd_locally (fun t => free eps s t)). apply free_locally_f. now apply H.
Qed.
(** ---- theorems on lists of ratings ---- *)
Lemma abs_value sp a eps y F : all_free eps (a_sigma a) y F -> snd (abs_derivatives sp a eps y F) = LLa sp (a_v a) (a_sigma a) y F.
Proof. intro H. unfold abs_derivatives, LLa. cbn [snd]. apply rsum_ext. intros p Hp. apply py_exact. now apply H. Qed.
Lemma abs_gradient sp a eps y F i : gamma_facts sp -> 0 < a_v a -> NoDup (map snd y) -> all_free eps (a_sigma a) y F ->
  has_partial (LLa sp (a_v a) (a_sigma a) y) i F (snd (fst (abs_derivatives sp a eps y F)) i).
Proof.
  intros G V N H. unfold abs_derivatives. cbn [fst snd]. rewrite (map_ext_in _ (fun p => A_ (a_v a) (a_sigma a) (F (snd p)) * T_ sp (a_v a) (a_sigma a) (fst p) (F (snd p)))) by (intros p Hp; apply dpy_exact; now apply H).
  apply (LLsum_partial (fun x f => rating_ll sp (a_v a) (a_sigma a) x f) (fun x f => A_ (a_v a) (a_sigma a) f * T_ sp (a_v a) (a_sigma a) x f)); auto. intros p _. now apply rating_derive.
Qed.
Lemma put_vec_opp idx v M i : put_vec idx (map Ropp v) (fun a => - M a) i = - put_vec idx v M i.
Proof.
  unfold put_vec. revert v M. induction idx as [|j idx IH]; intros [|x v] M; auto. cbn [map combine fold_left]. rewrite <- IH. clear.
  assert (E : forall l (M1 M2 : vec), (forall a, M1 a = M2 a) -> fold_left put l M1 i = fold_left put l M2 i). { induction l as [|q l IHl]; intros M1 M2 E; cbn [fold_left]; auto. apply IHl. intro a. unfold put. destruct (Nat.eqb a (fst q)); auto. }
  apply E. intro a. unfold put. cbn [fst snd]. destruct (Nat.eqb a j); auto.
Qed.
Lemma put_diag_opp idx v i j : put_diag idx (map Ropp v) i j = - put_diag idx v i j.
Proof. unfold put_diag. destruct (Nat.eqb i j); [|ring]. rewrite <- put_vec_opp. unfold put_vec. revert v. intro v. assert (E : forall l (M1 M2 : vec), (forall a, M1 a = M2 a) -> fold_left put l M1 i = fold_left put l M2 i). { induction l as [|q l IHl]; intros M1 M2 E; cbn [fold_left]; auto. apply IHl. intro a. unfold put. destruct (Nat.eqb a (fst q)); auto. } apply E. intro a. ring. Qed.
Lemma abs_hessian sp a eps y F i j : gamma_facts sp -> 0 < a_v a -> NoDup (map snd y) -> all_free eps (a_sigma a) y F ->
  has_partial (partial i (LLa sp (a_v a) (a_sigma a) y)) j F (- fst (fst (abs_derivatives sp a eps y F)) i j).
Proof.
  intros G V N H. unfold abs_derivatives. cbn [fst snd]. rewrite Ropp_involutive. rewrite (map_ext_in _ (fun p => - W_ sp (a_v a) (a_sigma a) (fst p) (F (snd p)))) by (intros p Hp; apply Wdiag_exact; now apply H).
  apply (LLsum_hessian (fun x f => rating_ll sp (a_v a) (a_sigma a) x f) (fun x f => A_ (a_v a) (a_sigma a) f * T_ sp (a_v a) (a_sigma a) x f) (fun x f => - W_ sp (a_v a) (a_sigma a) x f)); auto.
  - intros p _. apply filter_forall. intro t. now apply rating_derive.
  - intros p _. now apply grad_derive.
Qed.
Lemma W_model sp a eps y F i j : NoDup (map snd y) -> all_free eps (a_sigma a) y F ->
  fst (fst (abs_derivatives sp a eps y F)) i j = rsum (map (fun p => if Nat.eqb i (snd p) && Nat.eqb j (snd p) then W_ sp (a_v a) (a_sigma a) (fst p) (F (snd p)) else 0) y).
Proof.
  intros N H. unfold abs_derivatives. cbn [fst snd]. rewrite (map_ext_in _ (fun p => - W_ sp (a_v a) (a_sigma a) (fst p) (F (snd p)))) by (intros p Hp; apply Wdiag_exact; now apply H).
  rewrite <- put_diag_opp, map_map. rewrite (put_diag_sum y (fun p => - - W_ sp (a_v a) (a_sigma a) (fst p) (F (snd p)))) by auto. apply rsum_ext. intros p _. rewrite Ropp_involutive. reflexivity.
Qed.
Lemma W_dF_minus sp a eps y F i j k : gamma_facts sp -> 0 < a_v a -> a_sigma a <> 0 -> NoDup (map snd y) -> all_free eps (a_sigma a) y F ->
  has_partial (fun G => fst (fst (abs_derivatives sp a eps y G)) i j) k F (- abs_W_dF sp a eps y F i j k).
Proof.
  intros G V Hs N H. unfold has_partial.
  apply (is_derive_ext_loc (fun t : R => rsum (map (fun p => if Nat.eqb i (snd p) && Nat.eqb j (snd p) then W_ sp (a_v a) (a_sigma a) (fst p) (upd F k t (snd p)) else 0) y))).
  { generalize (all_free_locally eps (a_sigma a) y F k H). apply filter_imp. intros t Ht. symmetry. now apply W_model. }
  assert (E : - abs_W_dF sp a eps y F i j k = rsum (map (fun p => if Nat.eqb i (snd p) && Nat.eqb j (snd p) then if Nat.eqb k (snd p) then W3_ sp (a_v a) (a_sigma a) (fst p) (F (snd p)) else 0 else 0) y)).
  { unfold abs_W_dF. rewrite (map_ext_in (abs_dF_diag sp a eps F) (fun p => - W3_ sp (a_v a) (a_sigma a) (fst p) (F (snd p)))) by (intros p Hp; apply dF_exact; [auto|now apply H]).
    destruct (Nat.eqb i j && Nat.eqb j k)%bool eqn:B.
    - apply andb_prop in B. destruct B as [B1 B2]. apply Nat.eqb_eq in B1, B2. subst j k. rewrite (put_vec_sum y (fun p => - W3_ sp (a_v a) (a_sigma a) (fst p) (F (snd p)))) by auto.
      rewrite <- (Rmult_1_l (rsum (map _ y))) at 1. rewrite Ropp_mult_distr_l. rewrite <- rsum_map_scale. apply rsum_ext. intros p _. destruct (Nat.eqb i (snd p)); cbn [andb]; ring.
    - rewrite Ropp_0. rewrite (rsum_ext _ (fun _ => 0)); [rewrite rsum_const; ring|]. intros p _. destruct (Nat.eqb_spec i (snd p)); cbn [andb]; auto. destruct (Nat.eqb_spec j (snd p)); auto. destruct (Nat.eqb_spec k (snd p)); auto. subst i j k. rewrite Nat.eqb_refl in B. discriminate. }
  rewrite E. apply (is_derive_rsum (fun p t => if Nat.eqb i (snd p) && Nat.eqb j (snd p) then W_ sp (a_v a) (a_sigma a) (fst p) (upd F k t (snd p)) else 0)). intros p _. destruct (Nat.eqb i (snd p) && Nat.eqb j (snd p))%bool.
  - apply (label_derive (fun x f => W_ sp (a_v a) (a_sigma a) x f) (fst p) (snd p)). now apply W_derive.
  - exact (is_derive_const (K := R_AbsRing) (V := R_NormedModule) _ _).
Qed.
Lemma W_dSigma sp a eps y F i j : gamma_facts sp -> 0 < a_v a -> a_sigma a <> 0 -> NoDup (map snd y) -> all_free eps (a_sigma a) y F ->
  is_derive (fun s : R => fst (fst (abs_derivatives sp (mkAbs s (a_v a) (a_opt a) (a_v_only a)) eps y F)) i j) (a_sigma a) (- put_diag (map snd y) (map (abs_dW_dSigma sp a eps F) y) i j).
Proof.
  intros G V Hs N H. rewrite (map_ext_in _ (fun p => - Ws_ sp (a_v a) (fst p) (F (snd p)) (a_sigma a))) by (intros p Hp; apply dSigma_exact; [auto|now apply H]).
  rewrite <- put_diag_opp, map_map. rewrite (put_diag_sum y (fun p => - - Ws_ sp (a_v a) (fst p) (F (snd p)) (a_sigma a))) by auto.
  apply (is_derive_ext_loc (fun s : R => rsum (map (fun p => if Nat.eqb i (snd p) && Nat.eqb j (snd p) then W_ sp (a_v a) s (fst p) (F (snd p)) else 0) y))).
  { assert (L := locally_all y (a_sigma a) (fun p s => free eps s (F (snd p))) ltac:(intros p Hp; apply free_locally_s; [auto|now apply H])). revert L. apply filter_imp. intros s L. symmetry. exact (W_model sp (mkAbs s (a_v a) (a_opt a) (a_v_only a)) eps y F i j N L). }
  apply (is_derive_rsum (fun p s => if Nat.eqb i (snd p) && Nat.eqb j (snd p) then W_ sp (a_v a) s (fst p) (F (snd p)) else 0)). intros p _. destruct (Nat.eqb i (snd p) && Nat.eqb j (snd p))%bool.
  - rewrite Ropp_involutive. now apply W_ds.
  - exact (is_derive_const (K := R_AbsRing) (V := R_NormedModule) _ _).
Qed.
Lemma LL_dSigma sp a eps y F : gamma_facts sp -> 0 < a_v a -> a_sigma a <> 0 -> all_free eps (a_sigma a) y F ->
  is_derive (fun s : R => LLa sp (a_v a) s y F) (a_sigma a) (rsum (map (abs_dpy_dSigma sp a eps F) y)).
Proof.
  intros G V Hs H. apply (is_derive_rsum (fun p s => rating_ll sp (a_v a) s (fst p) (F (snd p)))). intros p Hp.
  replace (abs_dpy_dSigma sp a eps F p) with (- (A_ (a_v a) (a_sigma a) (F (snd p)) * F (snd p) / a_sigma a) * T_ sp (a_v a) (a_sigma a) (fst p) (F (snd p))); [now apply rating_ds|].
  unfold abs_dpy_dSigma, A_, T_. cbv zeta. destruct (ab_free a eps _ (H p Hp)) as [-> ->]. unfold isqrt2sig. replace (F (snd p) / (sqrt 2 * a_sigma a)) with (F (snd p) / (a_sigma a * sqrt 2)) by (f_equal; ring). assert (K := sqrt2_pos). field. split; lra.
Qed.
Lemma LL_dv sp a eps y F : gamma_facts sp -> 0 < a_v a -> all_free eps (a_sigma a) y F ->
  is_derive (fun v : R => LLa sp v (a_sigma a) y F) (a_v a) (rsum (map (abs_dpy_dv sp a eps F) y)).
Proof.
  intros G V H. apply (is_derive_rsum (fun p v => rating_ll sp v (a_sigma a) (fst p) (F (snd p)))). intros p Hp.
  evar_last. { now apply rating_dv. } unfold abs_dpy_dv. cbv zeta. destruct (ab_free a eps _ (H p Hp)) as [-> ->]. rewrite (mean_link_free a eps _ (H p Hp)). fold (mu_ (a_sigma a) (F (snd p))). replace (a_v a * mu_ (a_sigma a) (F (snd p)) + a_v a * (1 - mu_ (a_sigma a) (F (snd p)))) with (a_v a) by ring. ring.
Qed.

(** ---- parameters of the Beta distribution ---- *)
Lemma beta_params a eps f : 0 < a_v a -> 0 < eps < 1 / 2 -> 0 < alpha a eps f /\ 0 < beta a eps f /\ alpha a eps f + beta a eps f = a_v a /\ alpha a eps f / (alpha a eps f + beta a eps f) = mean_link a eps f.
Proof.
  intros V E. assert (M := mean_link_range a eps f E). unfold beta, alpha. set (m := mean_link a eps f) in *. clearbody m. assert (0 < a_v a * m) by (apply Rmult_lt_0_compat; lra). assert (0 < a_v a * (1 - m)) by (apply Rmult_lt_0_compat; lra).
  repeat split; try lra. replace (a_v a * m + (a_v a - a_v a * m)) with (a_v a) by ring. field. lra.
Qed.
Lemma mean_link_le a eps f g : 0 < a_sigma a -> f <= g -> mean_link a eps f <= mean_link a eps g.
Proof.
  intros Hs H. unfold mean_link. apply rclip_le. apply std_norm_cdf_le. apply Rmult_le_compat_r; auto. left. now apply isqrt_pos.
Qed.
Lemma mean_link_lt a eps f g : 0 < a_sigma a -> f < g -> free eps (a_sigma a) f -> free eps (a_sigma a) g -> mean_link a eps f < mean_link a eps g.
Proof.
  intros Hs H F1 F2. rewrite !mean_link_free by auto. unfold mean_rating. apply ndtr_increasing. apply Rmult_lt_compat_r; auto. apply Rinv_0_lt_compat. apply Rmult_lt_0_compat; [auto|apply sqrt2_pos].
Qed.
Lemma seq_hot n u c : (u < n)%nat -> rsum (map (fun a => if Nat.eqb a u then c else 0) (seq 0 n)) = c.
Proof.
  intro H. replace n with (u + (1 + (n - u - 1)))%nat by lia. rewrite !seq_app, !map_app, !rsum_app. cbn [seq map rsum]. rewrite Nat.add_0_l, Nat.eqb_refl.
  rewrite (rsum_ext _ (fun _ => 0) (seq 0 u)); [|intros a Ha; apply in_seq in Ha; destruct (Nat.eqb_spec a u); auto; lia]. rewrite (rsum_ext _ (fun _ => 0) (seq _ (n - u - 1))); [|intros a Ha; apply in_seq in Ha; destruct (Nat.eqb_spec a u); auto; lia]. rewrite !rsum_const. ring.
Qed.
Lemma abs_ll_same sp a eps y n F : NoDup (map snd y) -> (forall p, In p y -> (snd p < n)%nat) -> abs_log_likelihood sp a eps y n F = snd (abs_derivatives sp a eps y F).
Proof.
  intros N H. unfold abs_log_likelihood, abs_derivatives. cbn [snd]. rewrite (rsum_ext _ (fun i => rsum (map (fun p => if Nat.eqb i (snd p) then abs_py sp a eps F p else 0) y))) by (intros i _; now apply put_vec_sum).
  rewrite (rsum_swap (fun i p => if Nat.eqb i (snd p) then abs_py sp a eps F p else 0)). apply rsum_ext. intros p Hp. apply seq_hot. now apply H.
Qed.
(** ---- repeated ratings ---- *)
Lemma abs_last_wins sp a eps y x u F : let d := abs_derivatives sp a eps (y ++ (x, u) :: nil) F in let d' := abs_derivatives sp a eps ((x, u) :: nil) F in
  snd (fst d) u = snd (fst d') u /\ fst (fst d) u u = fst (fst d') u u.
Proof.
  cbv zeta. unfold abs_derivatives. cbn [fst snd]. rewrite !map_app. cbn [map fst snd]. unfold put_diag. rewrite Nat.eqb_refl. rewrite !put_vec_last by now rewrite !map_length. now rewrite !put_single.
Qed.
Lemma mean_0 s : mean_rating s 0 = 1 / 2.
Proof. unfold mean_rating. replace (0 / (s * sqrt 2)) with 0 by (unfold Rdiv; ring). apply ndtr_0. Qed.
Lemma free_0 eps s : eps < 1 / 2 -> free eps s 0.
Proof. intro H. unfold free. rewrite mean_0. replace (0 / (s * sqrt 2)) with 0 by (unfold Rdiv; ring). lra. Qed.
Lemma T_0 sp v s x : T_ sp v s x 0 = ln x - ln (1 - x).
Proof. unfold T_, mu_. rewrite mean_0. replace (1 - 1 / 2) with (1 / 2) by field. ring. Qed.
Lemma A_pos v s f : 0 < v -> 0 < s -> 0 < A_ v s f.
Proof. intros. unfold A_. apply Rmult_lt_0_compat; [apply Rmult_lt_0_compat; [auto|now apply isqrt_pos]|apply npdf_pos]. Qed.
Lemma abs_repeat_wrong sp a eps : gamma_facts sp -> 0 < a_v a -> 0 < a_sigma a -> eps < 1 / 2 ->
  has_partial (LLa sp (a_v a) (a_sigma a) ((1 / 4, 0%nat) :: (3 / 4, 0%nat) :: nil)) 0 (fun _ => 0) 0 /\ 0 < snd (fst (abs_derivatives sp a eps ((1 / 4, 0%nat) :: (3 / 4, 0%nat) :: nil) (fun _ => 0))) 0%nat.
Proof.
  intros G V Hs E. split.
  - unfold has_partial, LLa. cbn [map rsum fst snd]. apply (is_derive_ext (fun t : R => rating_ll sp (a_v a) (a_sigma a) (1 / 4) t + rating_ll sp (a_v a) (a_sigma a) (3 / 4) t)); [intro t; rewrite upd_at; now rewrite Rplus_0_r|].
    evar_last. { apply rplus_derive; now apply rating_derive. } rewrite !T_0. replace (1 - 1 / 4) with (3 / 4) by field. replace (1 - 3 / 4) with (1 / 4) by field. ring.
  - destruct (abs_last_wins sp a eps ((1 / 4, 0%nat) :: nil) (3 / 4) 0%nat (fun _ => 0)) as [K _]. cbn [app] in K. rewrite K. unfold abs_derivatives. cbn [fst snd map]. rewrite put_single. rewrite dpy_exact by now apply free_0. cbn [fst snd]. rewrite T_0. replace (1 - 3 / 4) with (1 / 4) by field.
    apply Rmult_lt_0_compat; [now apply A_pos|]. assert (ln (1 / 4) < ln (3 / 4)) by (apply ln_increasing; lra). lra.
Qed.
Lemma abs_ll_order sp a eps : a_v a <> 2 -> eps < 1 / 2 ->
  abs_log_likelihood sp a eps ((1 / 4, 0%nat) :: (1 / 2, 0%nat) :: nil) 1 (fun _ => 0) <> abs_log_likelihood sp a eps ((1 / 2, 0%nat) :: (1 / 4, 0%nat) :: nil) 1 (fun _ => 0).
Proof.
  intros V E. unfold abs_log_likelihood. cbn [seq map rsum snd combine]. unfold put_vec. cbn [combine fold_left]. unfold put. cbn [fst snd Nat.eqb]. rewrite !py_exact by now apply free_0. cbn [fst snd]. unfold rating_ll. cbv zeta. rewrite !mean_0. replace (1 - 1 / 2) with (1 / 2) by field. replace (1 - 1 / 4) with (3 / 4) by field. intro H.
  assert (L : ln (1 / 4) + ln (3 / 4) < ln (1 / 2) + ln (1 / 2)) by (rewrite <- !ln_mult by lra; apply ln_increasing; lra). assert (Q : (a_v a * (1 / 2) - 1) * (ln (1 / 2) + ln (1 / 2) - (ln (1 / 4) + ln (3 / 4))) = 0) by lra. apply Rmult_integral in Q. destruct Q; [apply V; lra|lra].
Qed.
(** ---- wrong derivatives of W ---- *)
Lemma W_dF_wrong sp a eps x : gamma_facts sp -> 0 < a_v a -> 0 < a_sigma a -> eps < 1 / 2 -> 0 < x < 1 -> x <> 1 / 2 ->
  ~ has_partial (fun G => fst (fst (abs_derivatives sp a eps ((x, 0%nat) :: nil) G)) 0%nat 0%nat) 0 (fun _ => 0) (abs_W_dF sp a eps ((x, 0%nat) :: nil) (fun _ => 0) 0%nat 0%nat 0%nat).
Proof.
  intros G V Hs E X N H. assert (T : has_partial (fun G => fst (fst (abs_derivatives sp a eps ((x, 0%nat) :: nil) G)) 0%nat 0%nat) 0 (fun _ => 0) (- abs_W_dF sp a eps ((x, 0%nat) :: nil) (fun _ => 0) 0%nat 0%nat 0%nat)).
  { apply W_dF_minus; auto; [lra|cbn; constructor; [intros []|constructor]|intros p [<- |[]]; now apply free_0]. }
  unfold has_partial in H, T. apply is_derive_unique in H, T. rewrite H in T. set (w := abs_W_dF _ _ _ _ _ _ _ _) in T. assert (W0 : w = 0) by (clear - T; lra). unfold w, abs_W_dF in W0. cbn [Nat.eqb andb map snd] in W0. rewrite put_single in W0. rewrite dF_exact in W0; [|lra|now apply free_0]. cbn [fst snd] in W0. unfold W3_ in W0. rewrite T_0 in W0. unfold D_ , mu_ in W0. rewrite mean_0 in W0. replace (1 - 1 / 2) with (1 / 2) in W0 by field.
  assert (P : 0 < A_ (a_v a) (a_sigma a) 0 * i2var (a_sigma a)) by (apply Rmult_lt_0_compat; [now apply A_pos|unfold i2var; apply pow_lt; now apply isqrt_pos]).
  set (q := A_ (a_v a) (a_sigma a) 0) in *. replace (- (q * i2var (a_sigma a) * (1 - 0 * 0 * i2var (a_sigma a)) * (ln x - ln (1 - x)) - 3 * q ^ 2 * 0 * i2var (a_sigma a) * S_ sp (a_v a) (a_sigma a) 0 + q ^ 3 * (psi2 sp (a_v a * (1 / 2)) - psi2 sp (a_v a * (1 / 2))))) with (- (q * i2var (a_sigma a)) * (ln x - ln (1 - x))) in W0 by ring.
  apply Rmult_integral in W0. destruct W0 as [W0|W0]; [lra|]. apply N. assert (x = 1 - x) by (apply ln_inv; lra). lra.
Qed.
Lemma W_dv_wrong sp s v o b eps x : gamma_facts sp -> 0 < v -> s <> 0 -> eps < 1 / 2 ->
  ~ is_derive (fun v : R => fst (fst (abs_derivatives sp (mkAbs s v o b) eps ((x, 0%nat) :: nil) (fun _ => 0))) 0%nat 0%nat) v (- put_diag (0%nat :: nil) (abs_dW_dv sp (mkAbs s v o b) eps (fun _ => 0) (x, 0%nat) :: nil) 0%nat 0%nat).
Proof.
  intros G V Hs E H. assert (T : is_derive (fun v : R => fst (fst (abs_derivatives sp (mkAbs s v o b) eps ((x, 0%nat) :: nil) (fun _ => 0))) 0%nat 0%nat) v (Wv_ sp s x 0 v)).
  { apply (is_derive_ext (fun v => W_ sp v s x 0)); [|now apply W_dv]. intro t. symmetry. rewrite (W_model sp (mkAbs s t o b)); [|cbn; constructor; [intros []|constructor]|intros p [<- |[]]; now apply free_0]. cbn [map rsum fst snd Nat.eqb andb a_v a_sigma]. apply Rplus_0_r. }
  apply is_derive_unique in H, T. rewrite T in H. unfold put_diag in H. cbn [Nat.eqb] in H. rewrite put_single in H.
  rewrite (dv_exact sp (mkAbs s v o b) eps (fun _ => 0) (x, 0%nat)) in H; [|exact Hs|now apply free_0]. cbn [a_sigma a_v fst snd] in H. rewrite mean_0 in H. replace (1 - 1 / 2) with (1 / 2) in H by field.
  set (q := v * (1 / 2)) in *. assert (Q : 0 < q) by (unfold q; lra). assert (P := gf_pos sp G q Q). assert (L := gf_low sp G q Q). set (g := npdf (0 / (s * sqrt 2))) in *. assert (Pg : 0 < g) by apply npdf_pos.
  assert (K : 0 < v / (s * s) * (g * g)). { apply Rmult_lt_0_compat; [apply Rdiv_lt_0_compat; [auto|]|nra]. assert (0 < s * s) by (destruct (Rtotal_order s 0) as [|[|]]; [nra|lra|nra]). auto. }
  assert (Z : 0 < 2 * (psi1 sp q + psi1 sp q) + v / 2 * (1 / 2 * (psi2 sp q + psi1 sp q) + 2 * (1 / 2) * psi2 sp q)). { replace (v / 2) with q by (unfold q; field). assert (0 < q * psi1 sp q) by (apply Rmult_lt_0_compat; auto). clearbody q. lra. }
  assert (KZ := Rmult_lt_0_compat _ _ K Z). lra.
Qed.
(** an instance of the facts *)
Definition sp_ex : special := mkSpecial (fun x => x * ln x - x) ln (fun x => / x) (fun x => - / x ^ 2).
Lemma sp_ex_facts : gamma_facts sp_ex.
Proof.
  split; cbn [lgam psi psi1 psi2 sp_ex]; intros x H.
  - auto_derive; [auto|]. field. lra.
  - apply is_derive_ln. exact H.
  - auto_derive; [lra|]. field. lra.
  - now apply Rinv_0_lt_compat.
  - replace (x * - / x ^ 2) with (- / x) by (field; lra). assert (0 < / x) by now apply Rinv_0_lt_compat. lra.
Qed.
Lemma W_dSigma_model sp a eps y F i j : gamma_facts sp -> 0 < a_v a -> a_sigma a <> 0 -> NoDup (map snd y) -> all_free eps (a_sigma a) y F -> a_opt a = true -> a_v_only a = false ->
  is_derive (fun s : R => fst (fst (abs_derivatives sp (mkAbs s (a_v a) (a_opt a) (a_v_only a)) eps y F)) i j) (a_sigma a) (nth 0 (abs_W_dHyper sp a eps y F) (fun _ _ => 0) i j).
Proof. intros G V Hs N H O1 O2. assert (K := W_dSigma sp a eps y F i j G V Hs N H). unfold abs_W_dHyper. rewrite O1, O2 in K |- *. exact K. Qed.
