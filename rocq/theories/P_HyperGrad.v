(** The hyper-parameter objective and its gradient. *)
From Verif Require Import M_Acq P_Acq M_HyperGrad S_Psd P_Psd P_Det.
From Coquelicot Require Import Coquelicot.
From Coq Require Import Reals Lra Lia List.
From Verif Require Import M_RBase P_RBase M_HyperGrad S_Fit S_HyperGrad P_PrefProbit P_Fit4 S_GP S_Psd P_Psd P_Chol P_GP P_GP3 P_Det P_Det2 P_Det3.
Local Open Scope R_scope.

Lemma det_is n : is_determinant n (det n).
Proof.
  split; [|split].
  - intros. now apply det_linear.
  - intros A i j Hi Hj N H. destruct (Nat.lt_ge_cases i j); [apply (det_equal_rows n A i j); auto|apply (det_equal_rows n A j i); auto; lia].
  - apply det_id.
Qed.
Lemma det_eye n K W : det n (eye_plus n K W) = det n (one_plus n K W).
Proof. apply det_ext. intros; apply eye_plus_one. Qed.
Lemma right_inverse_eye n K W B : right_inverse n (eye_plus n K W) B <-> right_inverse n (one_plus n K W) B.
Proof. split; intros H; eapply right_inverse_ext; try exact H; intros; rewrite eye_plus_one; reflexivity. Qed.

(** the inverse that the code uses is a left inverse too *)
Lemma code_inverse inv n K W : inverts inv -> symmetric n W -> psd n W -> symmetric n K -> pd n K -> right_inverse n (inv n (eye_plus n K W)) (one_plus n K W).
Proof.
  intros HI SW PW SK PK. destruct (inverse_eye n K W SW PW SK PK) as [T [HT [HL HR]]].
  assert (X := HI n (eye_plus n K W) _ (proj2 (right_inverse_eye n K W _) HR)). apply right_inverse_eye in X.
  intros i j Hi Hj. rewrite <- (HL i j Hi Hj). apply sumn_ext. intros a Ha. f_equal. symmetry. exact (left_right n _ _ _ HL X i a Hi Ha).
Qed.

(** a probit parameter: W moves *)
Lemma probit_entry_derive n K inv (W : R -> nat -> nat -> R) (W' : nat -> nat -> R) (t0 : R) (ll : R -> R) (g c : R) :
  inverts inv -> symmetric n (W t0) -> psd n (W t0) -> symmetric n K -> pd n K ->
  (forall i j, (i < n)%nat -> (j < n)%nat -> is_derive (fun t => W t i j) t0 (W' i j)) -> is_derive ll t0 g ->
  locally t0 (fun t => 0 < det n (eye_plus n K (W t))) /\
  is_derive (fun t => ll t - c - 5 / 10 * ln (det n (eye_plus n K (W t)))) t0 (probit_entry n K (inv n (eye_plus n K (W t0))) g W').
Proof.
  intros HI SW PW SK PK DW Dl. assert (D1 := det_one_plus n K (W t0) SW PW SK PK). assert (HL := code_inverse inv n K (W t0) HI SW PW SK PK).
  set (B := inv n (eye_plus n K (W t0))) in *.
  assert (J : is_derive (fun t => det n (one_plus n K (W t))) t0 (det n (one_plus n K (W t0)) * sumn n (fun i => sumn n (fun j => mprod n K W' i j * B j i)))).
  { apply (jacobi n (fun t => one_plus n K (W t)) (mprod n K W') B t0); [exact HL|]. intros i j Hi Hj. unfold one_plus. rewrite mprod_sumn.
    apply (is_derive_ext (fun t => (if Nat.eqb i j then 1 else 0) + sumn n (fun a => K i a * W t a j))); [reflexivity|].
    evar_last; [apply (is_derive_plus (fun _ => if Nat.eqb i j then 1 else 0) (fun t => sumn n (fun a => K i a * W t a j)) t0 0 (sumn n (fun a => K i a * W' a j)))|].
    - apply (is_derive_const (if Nat.eqb i j then 1 else 0 : R)).
    - apply (is_derive_sumn n (fun a t => K i a * W t a j)). intros a Ha. apply (is_derive_scal (fun t => W t a j)). now apply DW.
    - match goal with |- ?a = ?b => change (@eq R a b) end. cbn. ring. }
  assert (P : locally t0 (fun t => 0 < det n (one_plus n K (W t)))).
  { assert (Cc : continuous (fun t => det n (one_plus n K (W t))) t0) by (apply (ex_derive_continuous (fun t => det n (one_plus n K (W t)))); eexists; exact J).
    apply (Cc (fun v => 0 < v)). apply (open_gt 0). lra. }
  split; [revert P; apply filter_imp; intros t; now rewrite det_eye|].
  apply (is_derive_ext (fun t => ll t - c - 5 / 10 * ln (det n (one_plus n K (W t))))); [intros t; now rewrite det_eye|].
  evar_last.
  - apply (is_derive_minus (fun t => ll t - c) (fun t => 5 / 10 * ln (det n (one_plus n K (W t))))).
    + apply (is_derive_minus ll (fun _ => c) t0 g 0); [exact Dl|apply (is_derive_const (c : R))].
    + apply (is_derive_scal (fun t => ln (det n (one_plus n K (W t))))). apply (comp_derive ln (fun t => det n (one_plus n K (W t)))); [apply is_derive_Reals; apply derivable_pt_lim_ln; lra|exact J].
  - match goal with |- ?a = ?b => change (@eq R a b) end. unfold probit_entry, trace, minus, plus, opp; cbn. rewrite sum_to_sumn.
    rewrite (sumn_ext n (fun i => mprod n (mprod n B K) W' i i) (fun i => sumn n (fun j => B i j * mprod n K W' j i))) by (intros i _; rewrite mprod_assoc; apply mprod_sumn).
    rewrite (sumn_swap n n (fun i j => B i j * mprod n K W' j i)). rewrite (sumn_ext n (fun j => sumn n (fun i => B i j * mprod n K W' j i)) (fun i => sumn n (fun j => mprod n K W' i j * B j i))) by (intros; apply sumn_ext; intros; ring).
    field. lra.
Qed.

(** a covariance parameter: K moves.  The terms of line 559 that are not part of the derivative *)
Definition extra (n : nat) (K B dK : nat -> nat -> R) (grad_ll : nat -> R) (D : nat -> nat -> nat -> R) : R :=
  sumn n (fun i => sumn n (fun j => sumn n (fun a => B i a * dK a j) * grad_ll j)) -
  1 / 2 * sumn n (fun i => sumn n (fun b => sumn n (fun c => sumn n (fun a => B b a * K a c) * D i c b))).
Lemma cov_entry_split n K B W alpha g D dK :
  cov_entry n K B W alpha g D dK = 1 / 2 * sumn n (fun i => sumn n (fun j => alpha i * dK i j * alpha j)) - 1 / 2 * sumn n (fun i => sumn n (fun j => mprod n dK W i j * B j i)) + extra n K B dK g D.
Proof.
  unfold cov_entry, extra. rewrite !sum_to_sumn. rewrite sumn_minus.
  replace (5 / 10) with (1 / 2) by lra. f_equal; [f_equal|].
  - f_equal. rewrite sumn_swap. apply sumn_ext. intros j _. rewrite sum_to_sumn. rewrite sumn_scale_r. reflexivity.
  - f_equal. unfold trace. rewrite sum_to_sumn. rewrite (sumn_ext n _ (fun i => sumn n (fun j => B i j * mprod n dK W j i))) by (intros i _; rewrite mprod_assoc; apply mprod_sumn).
    rewrite sumn_swap. apply sumn_ext. intros j _. apply sumn_ext. intros; ring.
  - f_equal.
    + apply sumn_ext. intros i _. rewrite sum_to_sumn. apply sumn_ext. intros j _. rewrite mprod_sumn. reflexivity.
    + rewrite <- sumn_scale. apply sumn_ext. intros i _. f_equal. unfold trace. rewrite sum_to_sumn. apply sumn_ext. intros b _. rewrite mprod_sumn. apply sumn_ext. intros c _. rewrite mprod_sumn. reflexivity.
Qed.
Lemma cov_entry_derive n (K : R -> nat -> nat -> R) (K' W : nat -> nat -> R) inv (F : nat -> R) (x : R -> nat -> R) t0 (c : R) g D :
  inverts inv -> symmetric n W -> psd n W -> locally t0 (fun t => symmetric n (K t) /\ pd n (K t) /\ solves n (K t) F (x t)) ->
  (forall i j, (i < n)%nat -> (j < n)%nat -> is_derive (fun t => K t i j) t0 (K' i j)) ->
  is_derive (fun t => c - 5 / 10 * sumn n (fun i => F i * x t i) - 5 / 10 * ln (det n (eye_plus n (K t) W))) t0
    (cov_entry n (K t0) (inv n (eye_plus n (K t0) W)) W (x t0) g D K' - extra n (K t0) (inv n (eye_plus n (K t0) W)) K' g D).
Proof.
  intros HI SW PW L DK. destruct (locally_singleton _ _ L) as [SK [PK X0]]. assert (D1 := det_one_plus n (K t0) W SW PW SK PK). assert (HL := code_inverse inv n (K t0) W HI SW PW SK PK).
  rewrite cov_entry_split. set (B := inv n (eye_plus n (K t0) W)) in *.
  assert (Q := quad_derive n K K' F x t0 L DK).
  assert (J : is_derive (fun t => det n (one_plus n (K t) W)) t0 (det n (one_plus n (K t0) W) * sumn n (fun i => sumn n (fun j => mprod n K' W i j * B j i)))).
  { apply (jacobi n (fun t => one_plus n (K t) W) (mprod n K' W) B t0); [exact HL|]. intros i j Hi Hj. unfold one_plus. rewrite mprod_sumn.
    evar_last; [apply (is_derive_plus (fun _ => if Nat.eqb i j then 1 else 0) (fun t => sumn n (fun a => K t i a * W a j)) t0 0 (sumn n (fun a => K' i a * W a j)))|].
    - apply (is_derive_const (if Nat.eqb i j then 1 else 0 : R)).
    - apply (is_derive_sumn n (fun a t => K t i a * W a j)). intros a Ha. apply (is_derive_ext (fun t => W a j * K t i a)); [intros; apply Rmult_comm|]. rewrite Rmult_comm. apply (is_derive_scal (fun t => K t i a)). now apply DK.
    - match goal with |- ?a = ?b => change (@eq R a b) end. cbn. ring. }
  apply (is_derive_ext (fun t => c - 5 / 10 * sumn n (fun i => F i * x t i) - 5 / 10 * ln (det n (one_plus n (K t) W)))); [intros t; now rewrite det_eye|].
  evar_last.
  - apply (is_derive_minus (fun t => c - 5 / 10 * sumn n (fun i => F i * x t i)) (fun t => 5 / 10 * ln (det n (one_plus n (K t) W)))).
    + apply (is_derive_minus (fun _ => c) (fun t => 5 / 10 * sumn n (fun i => F i * x t i)) t0 0); [apply (is_derive_const (c : R))|]. apply (is_derive_scal (fun t => sumn n (fun i => F i * x t i))). exact Q.
    + apply (is_derive_scal (fun t => ln (det n (one_plus n (K t) W)))). apply (comp_derive ln (fun t => det n (one_plus n (K t) W))); [apply is_derive_Reals; apply derivable_pt_lim_ln; lra|exact J].
  - match goal with |- ?a = ?b => change (@eq R a b) end. unfold minus, plus, opp; cbn. field. lra.
Qed.

(** ---- the functions of the code ---- *)
Lemma chol_solves n K F : symmetric n K -> pd n K -> exists L, chol n K = Some L /\ solves n K F (cho_solve n L F).
Proof. intros SK PK. destruct (chol_complete n K SK PK) as [L E]. exists L. split; [exact E|]. now apply cho_solve_spec. Qed.
Lemma likli_hyper_eq sp P y n K F d L : derivatives sp P y F = Ok d -> chol n K = Some L ->
  likli_f_hyper sp P y n K F = Ok (if Rltb 0 (det n (eye_plus n K (fst (fst d)))) then option_map (fun l => l - 5 / 10 * sumn n (fun i => F i * cho_solve n L F i) - 5 / 10 * ln (det n (eye_plus n K (fst (fst d))))) (snd d) else None).
Proof. intros E EL. unfold likli_f_hyper. rewrite E. cbn [bind]. rewrite EL. now rewrite sum_to_sumn. Qed.
(** with noise [s] for the comparisons *)
Definition W_at sp P y F (s : R) : nat -> nat -> R := match derivatives sp (with_sigma P s) y F with Ok d => fst (fst d) | _ => fun _ _ => 0 end.
Lemma derivatives_rel sp P r a F s : derivatives sp (with_sigma P s) (mkLabels (Some r) None a) F =
  Ok (let A := match a with Some a => fst (abs_derivatives sp (ps_a P) (ps_eps P) a F) | None => (fun _ _ => 0, fun _ => 0) end in
      let l := match a with Some a => snd (abs_derivatives sp (ps_a P) (ps_eps P) a F) | None => 0 end in
      match a with
      | None => (fun i j => 0 + calc_W s r F i j, fun i => 0 + derv_log_likelyhood s r F i, Some (0 + log_likelihood s r F))
      | Some _ => (fun i j => 0 + calc_W s r F i j + fst A i j, fun i => 0 + derv_log_likelyhood s r F i + snd A i, Some (0 + log_likelihood s r F + l))
      end).
Proof. destruct a as [a|]; reflexivity. Qed.
Lemma noise_gradient sp P r a n K F inv only dKs gr : let y := mkLabels (Some r) None a in let s := p_sigma (ps_p P) in
  p_opt (ps_p P) = true -> s <> 0 -> unclipped s r F -> symmetric n K -> pd n K -> inverts inv ->
  (forall d, derivatives sp P y F = Ok d -> symmetric n (fst (fst d)) /\ psd n (fst (fst d))) ->
  grad_likli_f_hyper sp P y only inv n K dKs F = Ok (Some gr) ->
  objective_derive (fun s => likli_f_hyper sp (with_sigma P s) y n K F) s (nth 0 gr 0).
Proof.
  intros y s HO Hs U SK PK HI HW HG. destruct (chol_solves n K F SK PK) as [L [EL _]].
  assert (EP : with_sigma P s = P) by (unfold s; destruct P as [[s' o] po pa pe]; reflexivity).
  set (c := 5 / 10 * sumn n (fun i => F i * cho_solve n L F i)).
  set (Wa := match a with Some a => fst (fst (abs_derivatives sp (ps_a P) (ps_eps P) a F)) | None => fun _ _ => 0 end).
  set (la := match a with Some a => snd (abs_derivatives sp (ps_a P) (ps_eps P) a F) | None => 0 end).
  assert (ED : forall t, exists W g l, derivatives sp (with_sigma P t) y F = Ok (W, g, Some l) /\ (forall i j, W i j = calc_W t r F i j + Wa i j) /\ l = log_likelihood t r F + la).
  { intros t. unfold y. rewrite derivatives_rel. destruct a as [a|]; cbn; do 3 eexists; (split; [reflexivity|]); split; intros; unfold Wa, la; cbn; ring. }
  assert (EV : forall t, likli_f_hyper sp (with_sigma P t) y n K F = Ok (if Rltb 0 (det n (eye_plus n K (fun i j => calc_W t r F i j + Wa i j)))
     then Some (log_likelihood t r F + la - c - 5 / 10 * ln (det n (eye_plus n K (fun i j => calc_W t r F i j + Wa i j)))) else None)).
  { intros t. destruct (ED t) as [W [g [l [E [EW ->]]]]]. rewrite (likli_hyper_eq sp _ y n K F _ L E EL). cbn [fst snd option_map]. fold c.
    rewrite (det_ext n (eye_plus n K W) (eye_plus n K (fun i j => calc_W t r F i j + Wa i j))); [reflexivity|].
    intros i j _ _. unfold eye_plus. rewrite !mprod_sumn. f_equal. apply sumn_ext. intros b _. now rewrite EW. }
  destruct (ED s) as [W [g [l [E [EW El]]]]]. rewrite EP in E. destruct (HW _ E) as [SW PW]. cbn [fst] in SW, PW.
  set (Wt := fun t i j => calc_W t r F i j + Wa i j).
  assert (FE : W = Wt s). { apply FunctionalExtensionality.functional_extensionality. intros i. apply FunctionalExtensionality.functional_extensionality. intros j. apply EW. }
  destruct (probit_entry_derive n K inv Wt (calc_W_dHyper s r F) s (fun t => log_likelihood t r F + la) (grad_hyper s r F) c HI) as [LP DP].
  - rewrite <- FE. exact SW.
  - rewrite <- FE. exact PW.
  - exact SK.
  - exact PK.
  - intros i j _ _. unfold Wt. evar_last; [apply (is_derive_plus (fun t => calc_W t r F i j) (fun _ => Wa i j)); [apply W_sigma_derive; auto|apply (is_derive_const (Wa i j))]|]. match goal with |- ?a = ?b => change (@eq R a b) end. cbn. ring.
  - evar_last; [apply (is_derive_plus (fun t => log_likelihood t r F) (fun _ => la)); [apply grad_hyper_derive; auto|apply (is_derive_const la)]|]. match goal with |- ?a = ?b => change (@eq R a b) end. cbn. ring.
  - assert (EG : nth 0 gr 0 = probit_entry n K (inv n (eye_plus n K (Wt s))) (grad_hyper s r F) (calc_W_dHyper s r F)).
    { unfold grad_likli_f_hyper in HG. rewrite E in HG. cbn [bind fst snd] in HG. rewrite EL in HG. unfold all_W_dF in HG. cbn [y_ord y_rel y_abs y option_map bind] in HG. rewrite HO in HG.
      destruct (match dKs with nil => _ | _ => _ end) as [dL|e]; [|discriminate]. cbn [bind] in HG. rewrite FE in HG.
      injection HG as HG. destruct only, a as [a|]; try destruct (a_opt (ps_a P)); injection HG as <-; reflexivity. }
    rewrite EG. split.
    + revert LP. apply filter_imp. intros t Ht. eexists. rewrite EV. fold (Wt t). apply Rltb_true in Ht. rewrite Ht. reflexivity.
    + apply (is_derive_ext_loc (fun t => log_likelihood t r F + la - c - 5 / 10 * ln (det n (eye_plus n K (Wt t))))); [|exact DP].
      revert LP. apply filter_imp. intros t Ht. rewrite EV. fold (Wt t). apply Rltb_true in Ht. rewrite Ht. reflexivity.
Qed.
