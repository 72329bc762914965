(** Lemmas about answers turned upside down. *)
From Coq Require Import FunctionalExtensionality.
From Coquelicot Require Import Coquelicot.
From Coq Require Import Reals Lra Lia List.
From Verif Require Import M_Fake M_RBase M_Base M_Normal M_PrefProbit M_OrdProbit M_AbsProbit M_Acq M_GP M_Search M_Fit M_Mode M_NormMode S_PrefProbit S_OrdProbit S_AbsProbit S_Kernel S_GP S_Fit S_Mode S_Turned P_RBase P_Acq P_Normal P_PrefProbit P_Put P_OrdProbit P_AbsProbit P_Chol P_GP P_GP2 P_GP3 P_Fit P_Fit2 P_Fit3 P_Fit4 P_Fit5 P_Mode P_Mode2 P_Mode3 P_Mode4 P_Mode5 P_NormMode.
From Verif Require Import S_Psd P_Psd.
Import ListNotations.
Local Open Scope R_scope.

Ltac fext := apply functional_extensionality; intro.
(** ---- comparisons ---- *)
Lemma z_turned s F p : z_of s (opposite F) (contrary p) = z_of s F p.
Proof. unfold z_of, opposite, contrary, dk_of, u_of, v_of. cbn [fst snd]. rewrite opp_IZR. ring. Qed.
Lemma dk_turned p : dk_of (contrary p) = - dk_of p.
Proof. unfold contrary, dk_of. cbn [fst]. apply opp_IZR. Qed.
Lemma add_up_opp idx : forall v M, add_up_vec idx (map Ropp v) (opposite M) = opposite (add_up_vec idx v M).
Proof.
  unfold add_up_vec. induction idx as [|i idx IH]; intros [|x v] M; cbn [combine map fold_left]; try reflexivity.
  rewrite <- IH. f_equal. fext. unfold add_vec, opposite. cbn [fst snd]. destruct (Nat.eqb x0 i); ring.
Qed.
Lemma zero_opp : (fun _ : nat => 0) = opposite (fun _ => 0).
Proof. fext. unfold opposite. ring. Qed.
Lemma u_turned r : map u_of (map contrary r) = map u_of r.
Proof. rewrite map_map. apply map_ext. reflexivity. Qed.
Lemma v_turned r : map v_of (map contrary r) = map v_of r.
Proof. rewrite map_map. apply map_ext. reflexivity. Qed.
Lemma derv_turned s r F : derv_log_likelyhood s (map contrary r) (opposite F) = opposite (derv_log_likelyhood s r F).
Proof.
  unfold derv_log_likelyhood. rewrite u_turned, v_turned.
  assert (E : map (fun p => dk_of p * pdf_cdf_ratio (z_of s (opposite F) p) * isqrt2sig s) (map contrary r) =
              map Ropp (map (fun p => dk_of p * pdf_cdf_ratio (z_of s F p) * isqrt2sig s) r)).
  { rewrite !map_map. apply map_ext. intros p. rewrite z_turned, dk_turned. ring. }
  rewrite E. rewrite zero_opp at 1. rewrite add_up_opp. apply add_up_opp.
Qed.
Lemma W_turned s r F : calc_W s (map contrary r) (opposite F) = calc_W s r F.
Proof.
  unfold calc_W. assert (E : map (fun p => - (dk_of p * dk_of p) * paren (z_of s (opposite F) p) * i2var s) (map contrary r) =
              map (fun p => - (dk_of p * dk_of p) * paren (z_of s F p) * i2var s) r).
  { rewrite !map_map. apply map_ext. intros p. rewrite z_turned, dk_turned. f_equal. f_equal. ring. }
  rewrite E. unfold add_four. rewrite !map_map. reflexivity.
Qed.
Lemma ll_turned s r F : log_likelihood s (map contrary r) (opposite F) = log_likelihood s r F.
Proof. unfold log_likelihood, z_k. rewrite !map_map. f_equal. apply map_ext. intros p. rewrite z_turned. reflexivity. Qed.

(** ---- ratings ---- *)
Lemma ndtr_mono x y : x <= y -> ndtr x <= ndtr y.
Proof. apply ndtr_le. Qed.
Lemma clip_turned eps z : ndtr (-30) <= eps -> eps < 1 / 2 -> rclip eps (1 - eps) (std_norm_cdf (- z)) = 1 - rclip eps (1 - eps) (std_norm_cdf z).
Proof.
  intros H1 H2. assert (G : forall z, z <= 0 -> rclip eps (1 - eps) (std_norm_cdf (- z)) = 1 - rclip eps (1 - eps) (std_norm_cdf z)).
  { clear z. intros z Hz. assert (A : std_norm_cdf z = ndtr (Rmax z (-30))).
    { unfold std_norm_cdf, rclip. f_equal. apply Rmin_left. apply Rmax_lub; lra. }
    assert (B : std_norm_cdf (- z) = ndtr (Rmin (- z) 100)).
    { unfold std_norm_cdf, rclip. f_equal. rewrite (Rmax_left (- z)) by lra. reflexivity. }
    rewrite A, B. destruct (Rle_dec (-30) z) as [L|N].
    - rewrite (Rmax_left z) by lra. rewrite (Rmin_left (- z)) by lra. rewrite ndtr_sym. unfold rclip, Rmax, Rmin. repeat destruct (Rle_dec _ _); lra.
    - rewrite (Rmax_right z) by lra. assert (C : ndtr 30 <= ndtr (Rmin (- z) 100)) by (apply ndtr_mono; apply Rmin_glb; lra).
      replace 30 with (- (-30)) in C by lra. rewrite ndtr_sym in C. unfold rclip at 2. rewrite (Rmax_right _ eps) by exact H1. rewrite (Rmin_left eps) by lra.
      unfold rclip. rewrite (Rmax_left _ eps) by lra. rewrite Rmin_right by lra. lra. }
  destruct (Rle_dec z 0) as [L|N]; [apply G, L|]. specialize (G (- z) ltac:(lra)). rewrite Ropp_involutive in G. lra.
Qed.
Lemma mean_turned a eps f : ndtr (-30) <= eps -> eps < 1 / 2 -> mean_link a eps (- f) = 1 - mean_link a eps f.
Proof. intros H1 H2. unfold mean_link. rewrite <- clip_turned by assumption. do 2 f_equal. ring. Qed.
Section rating.
  Variables (sp : special) (a : abs_probit) (eps : R).
  Hypothesis E1 : ndtr (-30) <= eps.
  Hypothesis E2 : eps < 1 / 2.
  Lemma alpha_turned f : alpha a eps (- f) = beta a eps f.
  Proof. unfold beta, alpha. rewrite (mean_turned a eps f E1 E2). ring. Qed.
  Lemma beta_turned f : beta a eps (- f) = alpha a eps f.
  Proof. unfold beta. rewrite alpha_turned. unfold beta. ring. Qed.
  Lemma slope_turned f : slope a (- f) = slope a f.
  Proof. unfold slope. replace (- f * isqrt2sig (a_sigma a)) with (- (f * isqrt2sig (a_sigma a))) by ring. now rewrite npdf_even. Qed.
  Lemma tmp_turned x f : tmp sp a eps (1 - x) (- f) = - tmp sp a eps x f.
  Proof. unfold tmp. rewrite alpha_turned, beta_turned. replace (1 - (1 - x)) with x by ring. ring. Qed.
  Lemma py_turned F p : abs_py sp a eps (opposite F) (turned_rating p) = abs_py sp a eps F p.
  Proof.
    unfold abs_py, opposite, turned_rating. cbn [fst snd]. rewrite alpha_turned, beta_turned. unfold beta_logpdf. replace (1 - (1 - fst p)) with (fst p) by ring.
    rewrite (Rplus_comm (beta a eps (F (snd p)))). ring.
  Qed.
  Lemma dpy_turned F p : abs_dpy sp a eps (opposite F) (turned_rating p) = - abs_dpy sp a eps F p.
  Proof. unfold abs_dpy, opposite, turned_rating. cbn [fst snd]. rewrite slope_turned, tmp_turned. ring. Qed.
  Lemma Wdiag_turned F p : abs_Wdiag sp a eps (opposite F) (turned_rating p) = abs_Wdiag sp a eps F p.
  Proof. unfold abs_Wdiag, opposite, turned_rating. cbn [fst snd]. rewrite slope_turned, tmp_turned, alpha_turned, beta_turned. ring. Qed.
  Lemma idx_turned (y : list (R * nat)) : map snd (map turned_rating y) = map snd y.
  Proof. rewrite map_map. reflexivity. Qed.
  Lemma put_opp idx : forall v M, put_vec idx (map Ropp v) (opposite M) = opposite (put_vec idx v M).
  Proof.
    unfold put_vec. induction idx as [|i idx IH]; intros [|x v] M; cbn [combine map fold_left]; try reflexivity.
    rewrite <- IH. f_equal. fext. unfold put, opposite. cbn [fst snd]. destruct (Nat.eqb x0 i); ring.
  Qed.
  Lemma abs_derivatives_turned y F : abs_derivatives sp a eps (map turned_rating y) (opposite F) =
    (fst (fst (abs_derivatives sp a eps y F)), opposite (snd (fst (abs_derivatives sp a eps y F))), snd (abs_derivatives sp a eps y F)).
  Proof.
    unfold abs_derivatives. cbv zeta. cbn [fst snd]. rewrite idx_turned.
    assert (A : map (abs_Wdiag sp a eps (opposite F)) (map turned_rating y) = map (abs_Wdiag sp a eps F) y) by (rewrite map_map; apply map_ext; intros; apply Wdiag_turned).
    assert (B : map (abs_dpy sp a eps (opposite F)) (map turned_rating y) = map Ropp (map (abs_dpy sp a eps F) y)) by (rewrite !map_map; apply map_ext; intros; apply dpy_turned).
    assert (C : map (abs_py sp a eps (opposite F)) (map turned_rating y) = map (abs_py sp a eps F) y) by (rewrite map_map; apply map_ext; intros; apply py_turned).
    rewrite A, B, C. do 2 f_equal. rewrite zero_opp at 1. apply put_opp.
  Qed.
  Lemma abs_ll_turned y n F : abs_log_likelihood sp a eps (map turned_rating y) n (opposite F) = abs_log_likelihood sp a eps y n F.
  Proof.
    unfold abs_log_likelihood. rewrite idx_turned. do 2 f_equal.
    assert (C : map (abs_py sp a eps (opposite F)) (map turned_rating y) = map (abs_py sp a eps F) y) by (rewrite map_map; apply map_ext; intros; apply py_turned).
    rewrite C. reflexivity.
  Qed.
  Lemma gh_turned y F : abs_grad_hyper sp a eps (map turned_rating y) (opposite F) = abs_grad_hyper sp a eps y F.
  Proof.
    unfold abs_grad_hyper. cbv zeta.
    assert (A : map (abs_dpy_dv sp a eps (opposite F)) (map turned_rating y) = map (abs_dpy_dv sp a eps F) y).
    { rewrite map_map; apply map_ext; intros p. unfold abs_dpy_dv, opposite, turned_rating. cbv zeta. cbn [fst snd]. rewrite alpha_turned, beta_turned, (mean_turned a eps _ E1 E2).
      replace (1 - (1 - fst p)) with (fst p) by ring. rewrite (Rplus_comm (beta a eps (F (snd p)))). ring. }
    assert (B : map (abs_dpy_dSigma sp a eps (opposite F)) (map turned_rating y) = map (abs_dpy_dSigma sp a eps F) y).
    { rewrite map_map; apply map_ext; intros p. unfold abs_dpy_dSigma, opposite, turned_rating. cbv zeta. cbn [fst snd]. rewrite alpha_turned, beta_turned.
      replace (1 - (1 - fst p)) with (fst p) by ring. replace (- F (snd p) / (sqrt 2 * a_sigma a)) with (- (F (snd p) / (sqrt 2 * a_sigma a))) by (unfold Rdiv; ring).
      rewrite npdf_even. unfold Rdiv. ring. }
    rewrite A, B. reflexivity.
  Qed.
End rating.

(** ---- the fit ---- *)
Section fit.
  Variables (sp : special) (P : probit_set) (y : labels) (n : nat) (inv : nat -> (nat -> nat -> R) -> option (nat -> nat -> R)).
  Hypothesis E1 : ndtr (-30) <= ps_eps P.
  Hypothesis E2 : ps_eps P < 1 / 2.
  Hypothesis NO : y_ord y = None.
  Lemma training_turned F : log_likelyhood_training sp P (turned P y) n (opposite F) = log_likelyhood_training sp P y n F.
  Proof.
    unfold log_likelyhood_training, turned. cbn [y_rel y_ord y_abs]. rewrite NO. cbn [option_map bind].
    destruct (y_rel y) as [r|]; destruct (y_abs y) as [a|]; cbn [option_map]; rewrite ?ll_turned, ?abs_ll_turned by assumption; reflexivity.
  Qed.
  Lemma derivatives_turned F : derivatives sp P (turned P y) (opposite F) =
    match derivatives sp P y F with Ok d => Ok (fst (fst d), opposite (snd (fst d)), snd d) | Raise e => Raise e end.
  Proof.
    unfold derivatives, turned. cbn [y_rel y_ord y_abs]. rewrite NO. cbn [option_map bind].
    destruct (y_rel y) as [r|]; destruct (y_abs y) as [a|]; cbn [option_map]; cbv zeta; rewrite ?ll_turned, ?W_turned, ?derv_turned, ?abs_derivatives_turned by assumption;
      unfold derivs_add; cbn [fst snd]; repeat f_equal; fext; unfold opposite; ring.
  Qed.
  Lemma cho_opp L b : cho_solve n L (opposite b) = opposite (cho_solve n L b).
  Proof. fext. unfold opposite. rewrite <- (Rdiv_1 (cho_solve n L b x)). replace (- (cho_solve n L b x / 1)) with (cho_solve n L b x / -1) by field. rewrite <- cho_scale. f_equal. fext. field. Qed.
  Lemma likli_turned L F : likli_f sp P (turned P y) n L (opposite F) = likli_f sp P y n L F.
  Proof.
    unfold likli_f. rewrite training_turned. destruct (log_likelyhood_training sp P y n F) as [l|e]; cbn [bind]; [|reflexivity]. rewrite cho_opp.
    do 3 f_equal. fext. do 5 f_equal. fext. unfold opposite. ring.
  Qed.
  Lemma entries_turned F : entries (map Ropp F) = opposite (entries F).
  Proof. fext. unfold entries, opposite. rewrite <- (map_nth Ropp). now rewrite Ropp_0. Qed.
  Lemma step_turned F d lam : step_from (map Ropp F) (map Ropp d) lam = map Ropp (step_from F d lam).
  Proof. unfold step_from. revert d; induction F as [|f F IH]; intros [|x d]; cbn; try reflexivity. f_equal; [ring|apply IH]. Qed.
  Lemma objective_turned L F : objective (likli_f sp P (turned P y) n L) (map Ropp F) = objective (likli_f sp P y n L) F.
  Proof. unfold objective. rewrite entries_turned, likli_turned. reflexivity. Qed.
  Lemma descent_turned g H : descent inv n (opposite g) H = map Ropp (descent inv n g H).
  Proof.
    unfold descent. destruct (inv n H) as [B|]; rewrite map_map; apply map_ext; intros j; [|reflexivity].
    rewrite !sum_to_sumn. replace (- sumn n (fun i => g i * B i j)) with (-1 * sumn n (fun i => g i * B i j)) by ring. rewrite <- sumn_scale.
    apply sumn_ext. intros i _. unfold opposite. ring.
  Qed.
  Lemma newton_turned F d L : newton_update (map Ropp F) (map Ropp d) (objective (likli_f sp P (turned P y) n L)) Binary 3 =
    match newton_update F d (objective (likli_f sp P y n L)) Binary 3 with Ok G => Ok (map Ropp G) | Raise e => Raise e end.
  Proof.
    unfold newton_update. cbn [bind]. f_equal. rewrite step_turned. do 2 f_equal. f_equal. fext. rewrite step_turned. apply objective_turned.
  Qed.
  Lemma mode_step_turned L F : mode_step sp P (turned P y) n L inv (map Ropp F) =
    match mode_step sp P y n L inv F with Ok G => Ok (map Ropp G) | Raise e => Raise e end.
  Proof.
    unfold mode_step. rewrite entries_turned, derivatives_turned. destruct (derivatives sp P y (entries F)) as [d|e]; cbn [bind]; [|reflexivity]. cbv zeta. cbn [fst snd].
    rewrite <- newton_turned. f_equal. rewrite <- descent_turned. f_equal. fext. unfold mode_gradient. rewrite cho_opp. unfold opposite. ring.
  Qed.
  Lemma err_turned G F : f_err (map Ropp G) (map Ropp F) = f_err G F.
  Proof.
    unfold f_err. revert F; induction G as [|g G IH]; intros [|f F]; cbn; try reflexivity. rewrite <- (IH F) at 1. unfold norm_inf. cbn [map combine fst snd].
    f_equal. replace (- g - - f) with (- (g - f)) by ring. apply Rabs_Ropp.
  Qed.
  Lemma loop_turned (upd upd' : nat -> list R -> result (list R)) far maxloops :
    (forall k F, upd' k (map Ropp F) = match upd k F with Ok G => Ok (map Ropp G) | Raise e => Raise e end) ->
    (forall G F, far (map Ropp G) (map Ropp F) = far G F) ->
    forall fuel k F, mode_loop upd' far maxloops fuel k (map Ropp F) = turn_fit (mode_loop upd far maxloops fuel k F).
  Proof.
    intros HU HF. induction fuel as [|fuel IH]; intros k F; cbn [mode_loop]; [reflexivity|]. rewrite HU. destruct (upd k F) as [G|e]; cbn [bind]; [|reflexivity].
    rewrite HF. destruct (Nat.ltb maxloops (S k)); [reflexivity|]. destruct (far G F); [apply IH|reflexivity].
  Qed.
  Lemma fit_turned K delta_f maxloops F0 : fit_mode sp P (turned P y) n K inv delta_f maxloops (map Ropp F0) = turn_fit (fit_mode sp P y n K inv delta_f maxloops F0).
  Proof.
    unfold fit_mode, find_mode. destruct (chol n K) as [L|]; [|reflexivity]. apply loop_turned.
    - intros k F. apply mode_step_turned.
    - intros G F. now rewrite err_turned.
  Qed.
End fit.
