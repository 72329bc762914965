(** Model of the likelihood and derivatives of /repo/src/lop/probits/AbsBoundProbit.py; the constructor and the
    hyper-parameters are in M_Hyper.v.  A rating is a pair (value, index of the point). *)
From Verif Require Export M_Hyper M_OrdProbit.
Local Open Scope R_scope.

(** the functions of scipy.special used by AbsBoundProbit.py:37-39: log gamma (inside beta.logpdf), digamma, polygamma(1, x), polygamma(2, x) *)
Record special := mkSpecial { lgam : R -> R; psi : R -> R; psi1 : R -> R; psi2 : R -> R }.
(** AbsBoundProbit.py:237-240 [mean_link] of one value *)
Definition mean_link (a : abs_probit) (eps f : R) : R := rclip eps (1 - eps) (std_norm_cdf (f * isqrt2sig (a_sigma a))).
(** AbsBoundProbit.py:246-255 [get_alpha_beta] *)
Definition alpha (a : abs_probit) (eps f : R) : R := a_v a * mean_link a eps f.
Definition beta (a : abs_probit) (eps f : R) : R := a_v a - alpha a eps f.
(** scipy.stats.beta.logpdf(x, a, b) for 0 < x < 1; other ratings (minus infinity) are not modelled *)
Definition beta_logpdf (sp : special) (x a b : R) : R := (b - 1) * ln (1 - x) + (a - 1) * ln x - (lgam sp a + lgam sp b - lgam sp (a + b)).
(** the gradient factor v * isqrt2sig * pdf of lines 275-279 and the term with the logarithms *)
Definition slope (a : abs_probit) (f : R) : R := a_v a * isqrt2sig (a_sigma a) * npdf (f * isqrt2sig (a_sigma a)).
Definition tmp (sp : special) (a : abs_probit) (eps x f : R) : R := ln x - ln (1 - x) - psi sp (alpha a eps f) + psi sp (beta a eps f).
(** AbsBoundProbit.py:275 and 277-279, one rating *)
Definition abs_dpy (sp : special) (a : abs_probit) (eps : R) (F : vec) (p : R * nat) : R :=
  let f := F (snd p) in slope a f * tmp sp a eps (fst p) f.
Definition abs_Wdiag (sp : special) (a : abs_probit) (eps : R) (F : vec) (p : R * nat) : R :=
  let f := F (snd p) in
  - slope a f * (f * i2var (a_sigma a) * tmp sp a eps (fst p) f + slope a f * (psi1 sp (alpha a eps f) + psi1 sp (beta a eps f))).
(** line 283 and 309 *)
Definition abs_py (sp : special) (a : abs_probit) (eps : R) (F : vec) (p : R * nat) : R :=
  let f := F (snd p) in beta_logpdf sp (fst p) (alpha a eps f) (beta a eps f).
(** AbsBoundProbit.py:267-292 [derivatives]; full_W[idx, idx] and full_dpy_df[idx] are assigned, so the last rating of a point stays *)
Definition abs_derivatives (sp : special) (a : abs_probit) (eps : R) (y : list (R * nat)) (F : vec) : mat * vec * R :=
  let idx := map snd y in
  let full_W := put_diag idx (map (abs_Wdiag sp a eps F) y) in
  (fun i j => - full_W i j, put_vec idx (map (abs_dpy sp a eps F) y) (fun _ => 0), rsum (map (abs_py sp a eps F) y)).
(** AbsBoundProbit.py:304-313 [log_likelihood] for F of length n *)
Definition abs_log_likelihood (sp : special) (a : abs_probit) (eps : R) (y : list (R * nat)) (n : nat) (F : vec) : R :=
  rsum (map (put_vec (map snd y) (map (abs_py sp a eps F) y) (fun _ => 0)) (seq 0 n)).
(** AbsBoundProbit.py:327-359 [calc_W_dF] *)
Definition abs_dF_diag (sp : special) (a : abs_probit) (eps : R) (F : vec) (p : R * nat) : R :=
  let f := F (snd p) in let v := a_v a in let sigma := a_sigma a in let sqrt2 := sqrt 2 in
  let aa := alpha a eps f in let bb := beta a eps f in
  let gauss := npdf (f / (sqrt2 * sigma)) in
  let term1_a := - (v / (2 * sqrt2 * sigma * sigma * sigma)) * gauss * (1 - f * f / (2 * sigma * sigma)) in
  let term1_b := ln (fst p) - ln (1 - fst p) - psi sp aa + psi sp bb in
  let term2_a := 3 * v * v * f / (4 * sigma * sigma * sigma * sigma) * gauss * gauss in
  let term2_b := psi1 sp aa + psi1 sp bb in
  let term3_a := v * v * v / (2 * sqrt2 * sigma * sigma * sigma) in
  let term3_b := gauss * gauss * gauss * (psi2 sp bb - psi2 sp aa) in
  term1_a * term1_b + term2_a * term2_b + term3_a * term3_b.
Definition abs_W_dF (sp : special) (a : abs_probit) (eps : R) (y : list (R * nat)) (F : vec) : nat -> nat -> nat -> R :=
  fun i j k => if Nat.eqb i j && Nat.eqb j k then put_vec (map snd y) (map (abs_dF_diag sp a eps F) y) (fun _ => 0) i else 0.
(** AbsBoundProbit.py:399-413 dW/dv and 415-429 dW/dsigma, one rating *)
Definition abs_dW_dv (sp : special) (a : abs_probit) (eps : R) (F : vec) (p : R * nat) : R :=
  let f := F (snd p) in let v := a_v a in let sigma := a_sigma a in let sqrt2 := sqrt 2 in
  let mu := mean_link a eps f in let aa := alpha a eps f in let bb := beta a eps f in
  let gauss := npdf (f / (sqrt2 * sigma)) in let sigma2 := sigma * sigma in let sigma3 := sigma2 * sigma in
  let t := tmp sp a eps (fst p) f in
  let term1 := - (f / (2 * sqrt2 * sigma3)) * gauss * t in
  let term2_a := - (v * f / (2 * sqrt2 * sigma3)) * gauss in
  let term2_b := - mu * psi1 sp aa + psi1 sp bb - mu * psi1 sp bb in
  let term3 := v / sigma2 * (gauss * gauss) * (psi1 sp aa + psi1 sp bb) in
  let term4_a := v * v / (2 * sigma2) * (gauss * gauss) in
  let term4_b := mu * psi1 sp aa + (1 - mu) * psi2 sp bb in
  term1 + term2_a * term2_b + term3 + term4_a * term4_b.
Definition abs_dW_dSigma (sp : special) (a : abs_probit) (eps : R) (F : vec) (p : R * nat) : R :=
  let f := F (snd p) in let v := a_v a in let sigma := a_sigma a in let sqrt2 := sqrt 2 in
  let aa := alpha a eps f in let bb := beta a eps f in
  let gauss := npdf (f / (sqrt2 * sigma)) in let sigma2 := sigma * sigma in let sigma3 := sigma2 * sigma in let sigma4 := sigma3 * sigma in
  let t := tmp sp a eps (fst p) f in
  let term1_a := v * f / (4 * sqrt2 * sigma4) * gauss in
  let term1_b := 6 - f * f / sigma2 in
  let term2_a := v * v / sigma3 * (gauss * gauss) in
  let term2_b := 1 + - 3 * f * f / (4 * sigma2) in
  let term2_c := psi1 sp aa + psi1 sp bb in
  let term3_a := v * v * v * f / (2 * sqrt2 * sigma4) * (gauss * (gauss * gauss)) in
  let term3_b := psi2 sp aa - psi2 sp bb in
  term1_a * term1_b * t + term2_a * term2_b * term2_c + term3_a * term3_b.
(** AbsBoundProbit.py:371-376 and 434-442 [calc_W_dHyper], ProbitBase.py:142-143: one matrix per hyper-parameter *)
Definition abs_W_dHyper (sp : special) (a : abs_probit) (eps : R) (y : list (R * nat)) (F : vec) : list mat :=
  if a_opt a then
    let dv := fun i j => - put_diag (map snd y) (map (abs_dW_dv sp a eps F) y) i j in
    let ds := fun i j => - put_diag (map snd y) (map (abs_dW_dSigma sp a eps F) y) i j in
    if a_v_only a then [dv] else [ds; dv]
  else [].
(** AbsBoundProbit.py:447-480 [grad_hyper], ProbitBase.py:152-153 *)
Definition abs_dpy_dv (sp : special) (a : abs_probit) (eps : R) (F : vec) (p : R * nat) : R :=
  let f := F (snd p) in let mu := mean_link a eps f in let aa := alpha a eps f in let bb := beta a eps f in
  mu * ln (fst p) + (1 - mu) * ln (1 - fst p) + (- mu * psi sp aa - (1 - mu) * psi sp bb + psi sp (aa + bb)).
Definition abs_dpy_dSigma (sp : special) (a : abs_probit) (eps : R) (F : vec) (p : R * nat) : R :=
  let f := F (snd p) in let sigma := a_sigma a in
  a_v a * f * npdf (f / (sqrt 2 * sigma)) / (sqrt 2 * sigma * sigma) * (ln (1 - fst p) - ln (fst p) + psi sp (alpha a eps f) - psi sp (beta a eps f)).
Definition abs_grad_hyper (sp : special) (a : abs_probit) (eps : R) (y : list (R * nat)) (F : vec) : list R :=
  if a_opt a then
    let dv := rsum (map (abs_dpy_dv sp a eps F) y) in
    if a_v_only a then [dv] else [rsum (map (abs_dpy_dSigma sp a eps F) y); dv]
  else [].
