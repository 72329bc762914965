(** The hyper-parameter objective of the search: covariance parameters, whole objective, exceptions. *)
From Verif Require Import M_Acq P_Acq M_HyperGrad S_Psd P_Psd P_Det.
From Verif Require P_Kernel P_KernelGrad P_Hyper P_HyperPrior.
From Coquelicot Require Import Coquelicot.
From Coq Require Import Reals Lra Lia List.
From Verif Require Import M_RBase P_RBase M_Hyper M_HyperGrad S_Fit S_HyperGrad S_Kernel S_Hyper P_PrefProbit P_Fit4 S_GP S_Psd P_Psd P_Chol P_GP P_GP2 P_GP3 P_Det P_Det2 P_Det3 P_HyperGrad.
Local Open Scope R_scope.

(** comparisons: the third derivatives cancel in the sum of line 559 *)
Lemma delta_sum n p : (u_of p < n)%nat -> (v_of p < n)%nat -> sumn n (fun a => delta p a) = 0.
Proof. intros Hu Hv. unfold delta. rewrite sumn_minus, !sumn_hot by auto. ring. Qed.
Lemma dF_sum_first n s r F b c : s <> 0 -> well_formed n r -> sumn n (fun a => calc_W_dF s r F a b c) = 0.
Proof.
  intros Hs WF. pose (h := fun p => let z := z_of s F p in let q := pdf_cdf_ratio z in q - z * z * q - 3 * z * q ^ 2 - 2 * q ^ 2 * npdf z).
  rewrite (sumn_ext n _ (fun a => rsum (map ((fun a p => h p * (coef s p a * coef s p b * coef s p c)) a) r))) by (intros a _; now rewrite dF_sum).
  rewrite (sumn_rsum n (fun a p => h p * (coef s p a * coef s p b * coef s p c)) r). clearbody h. induction r as [|p r IH]; [reflexivity|].
  cbn [map]. change (rsum (?x :: ?l)) with (x + rsum l). rewrite IH by (intros q Hq; apply WF; now right). cbn beta.
  destruct (WF p ltac:(now left)) as [Hu Hv].
  rewrite (sumn_ext n _ (fun a => h p * (1 / (s * sqrt 2) * dk_of p) * coef s p b * coef s p c * delta p a)) by (intros; unfold coef; ring). rewrite sumn_scale. change (sumn n (fun i => delta p i)) with (sumn n (delta p)). replace (sumn n (delta p)) with 0 by (symmetry; apply (delta_sum n p); tauto). ring.
Qed.
Lemma extra_rel n s r F K B dK g : s <> 0 -> well_formed n r ->
  extra n K B dK g (calc_W_dF s r F) = sumn n (fun i => sumn n (fun j => sumn n (fun a => B i a * dK a j) * g j)).
Proof.
  intros Hs WF. unfold extra. enough (Z : sumn n (fun i => sumn n (fun b => sumn n (fun c => sumn n (fun a => B b a * K a c) * calc_W_dF s r F i c b))) = 0) by (rewrite Z; ring).
  rewrite sumn_swap. apply sumn_zero. intros b _. rewrite sumn_swap. apply sumn_zero. intros c _. rewrite sumn_scale, dF_sum_first by auto. ring.
Qed.
(** the covariance entries of the gradient for comparisons *)
Lemma cov_gradient sp P r n (K : R -> nat -> nat -> R) (K' : nat -> nat -> R) F inv dKs q gr t0 : let s := p_sigma (ps_p P) in
  s <> 0 -> well_formed n r -> unclipped s r F -> inverts inv -> locally t0 (fun t => symmetric n (K t) /\ pd n (K t)) ->
  (forall i j, (i < n)%nat -> (j < n)%nat -> is_derive (fun t => K t i j) t0 (K' i j)) -> nth_error dKs q = Some K' ->
  grad_likli_f_hyper sp P (only r) false inv n (K t0) dKs F = Ok (Some gr) ->
  let B := inv n (eye_plus n (K t0) (fun i j => 0 + calc_W s r F i j)) in
  objective_derive (fun t => likli_f_hyper sp P (only r) n (K t) F) t0
    (nth (length gr - length dKs + q) gr 0 - sumn n (fun i => sumn n (fun j => sumn n (fun a => B i a * K' a j) * (0 + derv_log_likelyhood s r F j)))).
Proof.
  intros s Hs WF U HI LK DK Hq HG B. set (W := fun i j => 0 + calc_W s r F i j) in *.
  assert (SW : symmetric n W) by (intros i j _ _; unfold W; now rewrite W_symmetric).
  assert (PW : psd n W). { apply (psd_ext n (calc_W s r F)); [intros; unfold W; ring|]. apply W_psd; auto. intros p Hp. specialize (U p Hp). lra. }
  set (x := fun t => match chol n (K t) with Some L => cho_solve n L F | None => fun _ => 0 end).
  assert (LX : locally t0 (fun t => symmetric n (K t) /\ pd n (K t) /\ solves n (K t) F (x t))).
  { revert LK. apply filter_imp. intros t [A C]. destruct (chol_solves n (K t) F A C) as [L [E Sx]]. unfold x. rewrite E. auto. }
  set (g := fun i => 0 + derv_log_likelyhood s r F i) in *.
  assert (D := cov_entry_derive n K K' W inv F x t0 (0 + log_likelihood s r F) g (calc_W_dF s r F) HI SW PW LX DK).
  rewrite (extra_rel n s r F) in D by auto. fold B in D.
  assert (EG : nth (length gr - length dKs + q) gr 0 = cov_entry n (K t0) B W (x t0) g (calc_W_dF s r F) K').
  { destruct (locally_singleton _ _ LK) as [S0 P0]. destruct (chol_solves n (K t0) F S0 P0) as [L [E _]]. unfold grad_likli_f_hyper in HG. unfold derivatives in HG. cbn [only y_rel y_ord y_abs bind derivs_add fst snd oplus all_W_dF option_map] in HG.
    fold s in HG. change (fun i j : nat => 0 + calc_W s r F i j) with W in HG. change (fun i : nat => 0 + derv_log_likelyhood s r F i) with g in HG. rewrite E in HG. fold B in HG.
    destruct dKs as [|k0 dKs]; [destruct q; discriminate|]. cbn [bind] in HG. unfold x. rewrite E.
    assert (Lq : (q < length (k0 :: dKs))%nat) by (apply nth_error_Some; congruence).
    set (c := cov_entry n (K t0) B W (cho_solve n L F) g (calc_W_dF s r F)) in *.
    assert (N : forall l, nth (length (l ++ map c (k0 :: dKs)) - length (k0 :: dKs) + q) (l ++ map c (k0 :: dKs)) 0 = c K').
    { intros l. rewrite app_length, map_length. replace (length l + length (k0 :: dKs) - length (k0 :: dKs) + q)%nat with (length l + q)%nat by lia. rewrite app_nth2_plus. rewrite (nth_indep _ 0 (c k0)) by (rewrite map_length; exact Lq). rewrite map_nth. f_equal. now apply nth_error_nth. }
    destruct (p_opt (ps_p P)); injection HG as HG; rewrite <- HG; [exact (N (_ :: nil))|exact (N nil)]. }
  rewrite EG. 
  assert (EV : forall t, symmetric n (K t) -> pd n (K t) -> likli_f_hyper sp P (only r) n (K t) F =
     Ok (Some (0 + log_likelihood s r F - 5 / 10 * sumn n (fun i => F i * x t i) - 5 / 10 * ln (det n (eye_plus n (K t) W))))).
  { intros t St Pt. destruct (chol_solves n (K t) F St Pt) as [L [E _]]. rewrite (likli_hyper_eq sp P (only r) n (K t) F _ L eq_refl E). cbn [fst snd option_map derivs_add oplus y_abs only]. fold s.
    change (fun i j : nat => 0 + calc_W s r F i j) with W. assert (X := det_one_plus n (K t) W SW PW St Pt). rewrite <- det_eye in X. replace (Rltb 0 (det n (eye_plus n (K t) W))) with true by (symmetry; apply Rltb_true; lra). unfold x. rewrite E. reflexivity. }
  split.
  - revert LK. apply filter_imp. intros t [St Pt]. eexists. now apply EV.
  - apply (is_derive_ext_loc (fun t => 0 + log_likelihood s r F - 5 / 10 * sumn n (fun i => F i * x t i) - 5 / 10 * ln (det n (eye_plus n (K t) W)))); [|exact D].
    revert LK. apply filter_imp. intros t [St Pt]. now rewrite (EV t St Pt).
Qed.

(** the objective of comparisons has a value *)
Lemma hyper_value sp P r n K F Kinv : let s := p_sigma (ps_p P) in s <> 0 -> not_low s r F -> symmetric n K -> pd n K -> right_inverse n K Kinv ->
  exists D, 1 <= D /\ D = det n (eye_plus n K (fun i j => calc_W s r F i j)) /\
    likli_f_hyper sp P (only r) n K F = Ok (Some (log_likelihood s r F - 1 / 2 * qform n Kinv F - 1 / 2 * ln D)).
Proof.
  intros s Hs U SK PK HB. set (W := fun i j => 0 + calc_W s r F i j).
  assert (SW : symmetric n W) by (intros i j _ _; unfold W; now rewrite W_symmetric).
  assert (PW : psd n W). { apply (psd_ext n (calc_W s r F)); [intros; unfold W; ring|]. now apply W_psd. }
  destruct (chol_solves n K F SK PK) as [L [E Sx]]. assert (X := det_one_plus n K W SW PW SK PK). rewrite <- det_eye in X.
  assert (EW : det n (eye_plus n K (fun i j => calc_W s r F i j)) = det n (eye_plus n K W)).
  { apply det_ext. intros i j _ _. unfold eye_plus. rewrite !mprod_sumn. f_equal. apply sumn_ext. intros; unfold W; ring. }
  exists (det n (eye_plus n K W)). split; [exact X|]. split; [now symmetry|]. rewrite (likli_hyper_eq sp P (only r) n K F _ L eq_refl E). cbn [fst snd option_map derivs_add oplus y_abs only]. fold s.
  change (fun i j : nat => 0 + calc_W s r F i j) with W. replace (Rltb 0 (det n (eye_plus n K W))) with true by (symmetry; apply Rltb_true; lra). do 2 f_equal.
  assert (Q : sumn n (fun i => F i * cho_solve n L F i) = qform n Kinv F).
  { rewrite (sumn_ext n _ (fun i => F i * sumn n (fun j => Kinv i j * F j))).
    - unfold qform. apply sumn_ext. intros i _. rewrite <- sumn_scale. apply sumn_ext. intros; ring.
    - intros i Hi. f_equal. apply (solves_unique n K F (cho_solve n L F) (fun i => sumn n (fun j => Kinv i j * F j)) PK Sx); auto.
      intros a Ha. rewrite (sumn_ext n _ (fun j => sumn n (fun b => K a j * Kinv j b * F b))) by (intros j _; rewrite <- sumn_scale; apply sumn_ext; intros; ring).
      rewrite sumn_swap. rewrite (sumn_ext n _ (fun b => unitv b a * F b)) by (intros b Hb; rewrite (sumn_scale_r n (F b) (fun j => K a j * Kinv j b)), (HB a b Ha Hb); reflexivity). now apply sumn_unit'. }
  rewrite Q. cbn [M_Fit.oplus option_map]. f_equal. lra.
Qed.
