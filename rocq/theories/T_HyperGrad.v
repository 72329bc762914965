(** Properties C115-C118: the objective of the hyper-parameter search and its gradient *)
From Verif Require Import M_Fake M_Acq P_Acq M_HyperGrad S_Psd P_Psd P_Det.
From Verif Require P_Kernel P_KernelGrad P_KernelEx P_Hyper P_HyperPrior P_Normal.
From Coquelicot Require Import Coquelicot.
From Coq Require Import Reals Lra Lia List.
From Verif Require Import M_RBase P_RBase M_Hyper M_HyperGrad S_Fit S_HyperGrad S_Kernel S_Hyper P_PrefProbit P_Fit4 S_GP S_Psd P_Psd P_Chol P_GP P_GP2 P_GP3 P_Det P_Det2 P_Det3 P_HyperGrad P_HyperGrad2 P_HyperGrad3 P_HyperGrad4.
Local Open Scope R_scope.

(** C115: the derivative with respect to the noise of the comparisons *)
Theorem C115_likelihood : forall sp P r a n K F inv only dKs gr, let y := mkLabels (Some r) None a in let s := p_sigma (ps_p P) in
  p_opt (ps_p P) = true -> s <> 0 -> unclipped s r F -> symmetric n K -> pd n K -> inverts inv ->
  (forall d, derivatives sp P y F = Ok d -> symmetric n (fst (fst d)) /\ psd n (fst (fst d))) ->
  grad_likli_f_hyper sp P y only inv n K dKs F = Ok (Some gr) ->
  objective_derive (fun s => likli_f_hyper sp (with_sigma P s) y n K F) s (nth 0 gr 0).
Proof. exact noise_gradient. Qed.
Print Assumptions C115_likelihood.
Theorem C115_objective : forall sp g eps inv m f Xv r s rest m1 k F K gr, noise_model m -> y_ord (fo_y f) = None -> inverts inv -> 0 < s ->
  set_hyper m (s :: rest) = Ok m1 -> h_kern m1 = Some k -> hyper_likelihood g m1 <> None ->
  predicted sp eps inv m1 k f Xv = Ok F -> kcov k Xv Xv = Ok K -> symmetric (length Xv) (mat_at K) -> pd (length Xv) (mat_at K) -> unclipped s r (entries F) ->
  hyperparamter_obj_grad sp eps inv m f Xv (only r) (s :: rest) = Ok gr ->
  objective_derive (fun t => hyperparameter_obj sp g eps inv m f Xv (only r) (t :: rest)) s (nth 0 gr 0).
Proof. exact objective_noise. Qed.
Print Assumptions C115_objective.
Lemma ex_unclipped : unclipped 1 w_r (entries (0 :: 0 :: nil)).
Proof. intros p [<-|[]]. unfold entries, dk_of, u_of, v_of. cbn [fst snd nth]. unfold Rdiv. replace (1 * (0 - 0) * / (1 * sqrt 2)) with 0 by ring. lra. Qed.
Lemma ex_psd : symmetric 2 (fun i j => 0 + calc_W 1 w_r (entries (0 :: 0 :: nil)) i j) /\ psd 2 (fun i j => 0 + calc_W 1 w_r (entries (0 :: 0 :: nil)) i j).
Proof.
  split; [intros i j _ _; now rewrite W_symmetric|]. apply (psd_ext 2 (calc_W 1 w_r (entries (0 :: 0 :: nil)))); [intros; ring|]. apply W_psd; [lra|].
  intros p Hp. destruct (ex_unclipped p Hp). lra.
Qed.
Example C115_ex : forall sp eps, let P := mkProbits (mkPref 1 true) (mkOrd 3 1 (0 :: 1 :: nil)) (mkAbs 1 1 false false) eps in
  symmetric 2 (mat_at (w_K 1)) /\ pd 2 (mat_at (w_K 1)) /\ inverts gram_inv /\ unclipped 1 w_r (entries (0 :: 0 :: nil)) /\
  (forall d, derivatives sp P (only w_r) (entries (0 :: 0 :: nil)) = Ok d -> symmetric 2 (fst (fst d)) /\ psd 2 (fst (fst d))) /\
  exists gr, grad_likli_f_hyper sp P (only w_r) false gram_inv 2 (mat_at (w_K 1)) (w_D :: nil) (entries (0 :: 0 :: nil)) = Ok (Some gr) /\ length gr = 2%nat.
Proof.
  intros sp eps P. split; [apply w_K_sym|]. split; [apply w_K_pd; lra|]. split; [apply gram_inverts|]. split; [apply ex_unclipped|]. split.
  - intros d Hd. unfold derivatives in Hd. cbn [only y_rel y_ord y_abs bind P ps_p p_sigma] in Hd. injection Hd as <-. cbn [fst snd derivs_add]. exact ex_psd.
  - destruct (chol_complete 2 (mat_at (w_K 1)) (w_K_sym 1) (w_K_pd 1 ltac:(lra))) as [L EL].
    unfold grad_likli_f_hyper. cbn [derivatives only y_rel y_ord y_abs bind]. rewrite EL. cbn [all_W_dF only y_rel y_ord y_abs bind option_map P ps_p p_opt map app]. eexists. split; reflexivity.
Qed.
Example C115_objective_ex : forall sp g eps, noise_model w_m /\ y_ord (fo_y w_f) = None /\ inverts gram_inv /\ exists m1 gr,
  set_hyper w_m w_x = Ok m1 /\ h_kern m1 = Some (Lin 1 1 1) /\ hyper_likelihood g m1 <> None /\ predicted sp eps gram_inv m1 (Lin 1 1 1) w_f w_X = Ok (0 :: 0 :: nil) /\
  kcov (Lin 1 1 1) w_X w_X = Ok (w_K 1) /\ symmetric (length w_X) (mat_at (w_K 1)) /\ pd (length w_X) (mat_at (w_K 1)) /\ unclipped 1 w_r (entries (0 :: 0 :: nil)) /\
  hyperparamter_obj_grad sp eps gram_inv w_m w_f w_X (only w_r) w_x = Ok gr.
Proof.
  intros sp g eps. split; [repeat split|]. split; [reflexivity|]. split; [apply gram_inverts|]. destruct (w_refuted sp g eps gram_inv gram_inverts) as [gr [l [E _]]].
  eexists. exists gr. split; [reflexivity|]. split; [reflexivity|]. split.
  - rewrite P_HyperPrior.likelihood_value; [discriminate|reflexivity|discriminate|]. cbn. intros x Hx. repeat destruct Hx as [<-|Hx]; try lra; tauto.
  - split; [apply w_predicted|]. split; [reflexivity|]. split; [apply w_K_sym|]. split; [apply w_K_pd; lra|]. split; [apply ex_unclipped|exact E].
Qed.

(** C116: the derivative with respect to a parameter of the covariance *)
Theorem C116_likelihood_partial : forall sp P r n (K : R -> nat -> nat -> R) (K' : nat -> nat -> R) F inv dKs q gr t0, let s := p_sigma (ps_p P) in
  s <> 0 -> well_formed n r -> unclipped s r F -> inverts inv -> locally t0 (fun t => symmetric n (K t) /\ pd n (K t)) ->
  (forall i j, (i < n)%nat -> (j < n)%nat -> is_derive (fun t => K t i j) t0 (K' i j)) -> nth_error dKs q = Some K' ->
  grad_likli_f_hyper sp P (only r) false inv n (K t0) dKs F = Ok (Some gr) ->
  let B := inv n (eye_plus n (K t0) (fun i j => 0 + calc_W s r F i j)) in
  objective_derive (fun t => likli_f_hyper sp P (only r) n (K t) F) t0
    (nth (length gr - length dKs + q) gr 0 - sumn n (fun i => sumn n (fun j => sumn n (fun a => B i a * K' a j) * (0 + derv_log_likelyhood s r F j)))).
Proof. exact cov_gradient. Qed.
Print Assumptions C116_likelihood_partial.
Theorem C116_objective_refuted : forall sp g eps inv, inverts inv -> exists m f X r x gr l,
  hyperparamter_obj_grad sp eps inv m f X (only r) x = Ok gr /\ length gr = length x /\
  objective_derive (fun t => hyperparameter_obj sp g eps inv m f X (only r) (set_nth 1 t x)) (nth 1 x 0) l /\ nth 1 gr 0 <> l.
Proof. intros sp g eps inv HI. exists w_m, w_f, w_X, w_r, w_x. exact (w_refuted sp g eps inv HI). Qed.
Print Assumptions C116_objective_refuted.
Example C116_ex : inverts gram_inv /\ well_formed 2 w_r /\ unclipped 1 w_r (entries (0 :: 0 :: nil)) /\ locally 1 (fun t => symmetric 2 (mat_at (w_K t)) /\ pd 2 (mat_at (w_K t))) /\
  (forall i j, (i < 2)%nat -> (j < 2)%nat -> is_derive (fun t => mat_at (w_K t) i j) 1 (w_D i j)) /\ w_D 1%nat 1%nat = 2.
Proof.
  split; [apply gram_inverts|]. split; [intros p [<-|[]]; cbn; repeat split; try lia; auto|]. split; [apply ex_unclipped|]. split.
  - generalize (open_gt 0 1 ltac:(lra)). apply filter_imp. intros t Ht. split; [apply w_K_sym|apply w_K_pd; lra].
  - split; [exact w_D_derive|]. now rewrite w_D_at by lia.
Qed.

(** C117: one derivative per hyper-parameter *)
Theorem C117_length_partial : forall sp eps inv m f Xv y x m1 k F K, h_ord m = false -> same_kinds m y -> (h_rel m = true \/ h_abs m = true) ->
  length x = length (get_hyper m) -> set_hyper m x = Ok m1 -> h_kern m1 = Some k -> additive k ->
  (h_only_probit m = true -> (h_rel m = true /\ p_opt (h_p m) = true) \/ (h_abs m = true /\ a_opt (h_a m) = true)) ->
  predicted sp eps inv m1 k f Xv = Ok F -> kcov k Xv Xv = Ok K -> symmetric (length Xv) (mat_at K) -> pd (length Xv) (mat_at K) ->
  exists gr, hyperparamter_obj_grad sp eps inv m f Xv y x = Ok gr /\ length gr = length x.
Proof. exact grad_defined. Qed.
Print Assumptions C117_length_partial.
Theorem C117_ordinal_refuted : forall sp eps inv m f Xv y x gr o, y_ord y = Some o -> hyperparamter_obj_grad sp eps inv m f Xv y x <> Ok gr.
Proof. exact grad_ordinal. Qed.
Print Assumptions C117_ordinal_refuted.
Theorem C117_ordinal_error_refuted : forall sp eps inv m f Xv y x o m1 k F K dK d L, y_ord y = Some o -> set_hyper m x = Ok m1 -> h_kern m1 = Some k ->
  predicted sp eps inv m1 k f Xv = Ok F -> kcov k Xv Xv = Ok K -> kcov_grad k Xv Xv = Ok dK -> derivatives sp (probits_of eps m1) y (entries F) = Ok d ->
  chol (length Xv) (mat_at K) = Some L -> hyperparamter_obj_grad sp eps inv m f Xv y x = Raise NotImplementedError.
Proof. exact grad_ordinal_raises. Qed.
Print Assumptions C117_ordinal_error_refuted.
Theorem C117_product_refuted : forall sp eps inv m f Xv r x gr m1 a b, h_ord m = false -> h_abs m = false -> h_rel m = true -> h_only_probit m = false ->
  length x = length (get_hyper m) -> set_hyper m x = Ok m1 -> h_kern m1 = Some (KMul a b) -> p_opt (h_p m) = true -> hyperparamter_obj_grad sp eps inv m f Xv (only r) x <> Ok gr.
Proof. exact grad_product. Qed.
Print Assumptions C117_product_refuted.
Theorem C117_no_probit_refuted : forall sp eps inv m f Xv y x gr, h_only_probit m = true -> y_ord y = None -> p_opt (h_p m) = false -> a_opt (h_a m) = false ->
  hyperparamter_obj_grad sp eps inv m f Xv y x <> Ok gr.
Proof. exact grad_no_probit. Qed.
Print Assumptions C117_no_probit_refuted.
Example C117_ex : forall sp eps, same_kinds w_m (only w_r) /\ additive (Lin 1 1 1) /\ exists gr, hyperparamter_obj_grad sp eps gram_inv w_m w_f w_X (only w_r) w_x = Ok gr /\ length gr = 4%nat.
Proof.
  intros sp eps. split; [repeat split; cbn; intros; try discriminate; auto; congruence|]. split; [exact I|].
  destruct (w_refuted sp (fun x => x) eps gram_inv gram_inverts) as [gr [l [E [L _]]]]. exists gr. auto.
Qed.
Example C117_ordinal_ex : forall sp, let o := (1%nat, 0%nat) :: nil in let y := mkLabels (Some w_r) (Some o) None in exists m1 L d,
  set_hyper w_m w_x = Ok m1 /\ predicted sp (1 / 10) gram_inv m1 (Lin 1 1 1) w_f w_X = Ok (0 :: 0 :: nil) /\ kcov (Lin 1 1 1) w_X w_X = Ok (w_K 1) /\
  derivatives sp (probits_of (1 / 10) m1) y (entries (0 :: 0 :: nil)) = Ok d /\ chol (length w_X) (mat_at (w_K 1)) = Some L.
Proof.
  intros sp o y. destruct (chol_complete 2 (mat_at (w_K 1)) (w_K_sym 1) (w_K_pd 1 ltac:(lra))) as [L EL]. eexists. exists L. eexists. split; [reflexivity|]. split; [apply w_predicted|]. split; [reflexivity|]. split; [reflexivity|exact EL].
Qed.
Example C117_product_ex : let m := mkH true false false (mkPref 1 true) (mkOrd 3 1 (0 :: 1 :: nil)) (mkAbs 1 1 false false) false (Some (KMul (Lin 1 1 1) (RBF 1 1 0))) in
  length (get_hyper m) = 6%nat /\ exists m1, set_hyper m (2 :: 1 :: 1 :: 1 :: 3 :: 4 :: nil) = Ok m1 /\ h_kern m1 = Some (KMul (Lin 1 1 1) (RBF 3 4 0)).
Proof. split; [reflexivity|]. eexists. split; reflexivity. Qed.

(** C118: the objective has a value *)
Theorem C118_value : forall sp P r n K F Kinv, let s := p_sigma (ps_p P) in s <> 0 -> not_low s r F -> symmetric n K -> pd n K -> right_inverse n K Kinv ->
  exists D, 1 <= D /\ D = det n (eye_plus n K (fun i j => calc_W s r F i j)) /\
    likli_f_hyper sp P (only r) n K F = Ok (Some (log_likelihood s r F - 1 / 2 * qform n Kinv F - 1 / 2 * ln D)).
Proof. exact hyper_value. Qed.
Print Assumptions C118_value.
Theorem C118_determinant : forall n, is_determinant n (det n).
Proof. exact det_is. Qed.
Print Assumptions C118_determinant.
Example C118_ex : not_low 1 w_r (entries (0 :: 0 :: nil)) /\ symmetric 2 (mat_at (w_K 1)) /\ pd 2 (mat_at (w_K 1)) /\
  right_inverse 2 (mat_at (w_K 1)) (fun i j => match i, j with O, O => 2 | S O, S O => 1 | _, _ => -1 end).
Proof.
  split; [intros p Hp; destruct (ex_unclipped p Hp); lra|]. split; [apply w_K_sym|]. split; [apply w_K_pd; lra|].
  intros i j. revert i j. apply two_cases; cbn [sumn]; rewrite !w_K_at by lia; unfold unitv; cbn; lra.
Qed.
