(** The hyper-parameter objective as the optimiser calls it: the noise of the comparisons, the length of the gradient, exceptions. *)
From Verif Require Import M_Fake M_Acq P_Acq M_HyperGrad S_Psd P_Psd P_Det.
From Verif Require P_Kernel P_KernelGrad P_KernelEx P_Hyper P_HyperPrior.
From Coquelicot Require Import Coquelicot.
From Coq Require Import Reals Lra Lia List.
From Verif Require Import M_RBase P_RBase M_Hyper M_HyperGrad S_Fit S_HyperGrad S_Kernel S_Hyper P_PrefProbit P_Fit4 S_GP S_Psd P_Psd P_Chol P_GP P_GP2 P_GP3 P_Det P_Det2 P_Det3 P_HyperGrad P_HyperGrad2.
Local Open Scope R_scope.

(** predictions do not depend on the probits *)
Lemma derivatives_total sp P y F : y_ord y = None -> exists d, derivatives sp P y F = Ok d.
Proof. intro E. unfold derivatives. rewrite E. cbn [bind]. eexists. reflexivity. Qed.
Lemma predicted_probits sp eps inv m m' k f X : y_ord (fo_y f) = None -> predicted sp eps inv m k f X = predicted sp eps inv m' k f X.
Proof.
  intro E. unfold predicted. destruct (derivatives_total sp (probits_of eps m) (fo_y f) (entries (fo_F f)) E) as [d ->].
  destruct (derivatives_total sp (probits_of eps m') (fo_y f) (entries (fo_F f)) E) as [d' ->]. cbn [bind]. unfold pgp_predict. cbn [pX pF pW pK].
  destruct (kcov k X (fo_X f)) as [C|e]; [|reflexivity]. cbn [bind]. destruct (kcov k X X) as [C'|e]; [|reflexivity]. cbn [bind]. destruct (chol (length (fo_X f)) (mat_at (fo_K f))); reflexivity.
Qed.
Lemma set_noise m s rest m1 k : noise_model m -> set_hyper m (s :: rest) = Ok m1 -> h_kern m1 = Some k ->
  m1 = mkH true false false (mkPref s true) (h_o m) (h_a m) (h_only_probit m) (Some k) /\
  forall t, set_hyper m (t :: rest) = Ok (mkH true false false (mkPref t true) (h_o m) (h_a m) (h_only_probit m) (Some k)).
Proof.
  destruct m as [hr ho ha [s0 op] o a on hk]. unfold noise_model. cbn [h_rel h_ord h_abs h_p p_opt]. intros [-> [-> [-> ->]]] H HK.
  unfold set_hyper, set_probit_hyper, probit_hyper in *. cbn in H |- *. destruct hk as [k0|].
  - destruct on.
    + injection H as <-. cbn in HK. injection HK as ->. split; reflexivity.
    + destruct (kset k0 rest) as [k'|e]; [|discriminate]. cbn in H. injection H as <-. cbn in HK. injection HK as ->. split; reflexivity.
  - injection H as <-. discriminate.
Qed.
Lemma minus_both_head x l y l' r : minus_both (x :: l) (y :: l') = Ok r -> nth 0 r 0 = - x - y.
Proof.
  unfold minus_both. destruct (Nat.eqb (length (x :: l)) (length (y :: l'))); [intro H; injection H as <-; reflexivity|].
  destruct l as [|x2 l]; [intro H; injection H as <-; reflexivity|]. destruct l' as [|y2 l']; intro H; [injection H as <-; reflexivity|discriminate].
Qed.
Lemma objective_noise sp g eps inv m f Xv r s rest m1 k F K gr : noise_model m -> y_ord (fo_y f) = None -> inverts inv -> 0 < s ->
  set_hyper m (s :: rest) = Ok m1 -> h_kern m1 = Some k -> hyper_likelihood g m1 <> None ->
  predicted sp eps inv m1 k f Xv = Ok F -> kcov k Xv Xv = Ok K -> symmetric (length Xv) (mat_at K) -> pd (length Xv) (mat_at K) -> unclipped s r (entries F) ->
  hyperparamter_obj_grad sp eps inv m f Xv (only r) (s :: rest) = Ok gr ->
  objective_derive (fun t => hyperparameter_obj sp g eps inv m f Xv (only r) (t :: rest)) s (nth 0 gr 0).
Proof.
  intros NM YO HI Hs HS HK HP HF HC SK PK U HG. destruct (set_noise m s rest m1 k NM HS HK) as [E1 ES].
  set (mt := fun t => mkH true false false (mkPref t true) (h_o m) (h_a m) (h_only_probit m) (Some k)) in *. change (m1 = mt s) in E1. change (forall t, set_hyper m (t :: rest) = Ok (mt t)) in ES.
  unfold hyperparamter_obj_grad in HG. rewrite HS in HG. cbn [bind] in HG. rewrite HK, HF in HG. cbn [bind] in HG. rewrite HC in HG. cbn [bind] in HG.
  destruct (kcov_grad k Xv Xv) as [dK|e]; [|discriminate]. cbn [bind] in HG.
  destruct (grad_likli_f_hyper sp (probits_of eps m1) (only r) (h_only_probit m1) inv (length Xv) (mat_at K) (map mat_at (mats dK)) (entries F)) as [[gl|]|e] eqn:EG; [|discriminate|discriminate].
  cbn [bind] in HG.
  assert (ND := noise_gradient sp (probits_of eps m1) r None (length Xv) (mat_at K) (entries F) inv (h_only_probit m1) (map mat_at (mats dK)) gl).
  cbv zeta in ND. rewrite E1 in ND. cbn [probits_of ps_p mt h_p p_opt p_sigma] in ND. rewrite <- E1 in ND.
  specialize (ND eq_refl ltac:(lra) U SK PK HI). destruct ND as [LV DV].
  { intros d Hd. unfold derivatives in Hd. cbn [y_rel y_ord y_abs bind] in Hd. rewrite E1 in Hd. cbn [probits_of ps_p mt h_p p_sigma] in Hd. injection Hd as <-. cbn [fst snd derivs_add]. split.
    - intros i j _ _. now rewrite W_symmetric.
    - apply (psd_ext (length Xv) (calc_W s r (entries F))); [intros; ring|]. apply W_psd; [lra|]. intros p Hp. specialize (U p Hp). lra. }
  { exact EG. }
  assert (GL : exists x l, gl = x :: l).
  { unfold grad_likli_f_hyper in EG. destruct (derivatives _ _ _ _) as [d|]; [|discriminate]. cbn [bind] in EG. destruct (chol _ _); [|discriminate]. cbn [bind all_W_dF only y_ord y_rel y_abs option_map] in EG.
    destruct (match map mat_at (mats dK) with nil => _ | _ => _ end) as [dL|]; [|discriminate]. cbn [bind] in EG. rewrite E1 in EG. cbn [probits_of ps_p mt h_p p_opt h_only_probit] in EG.
    injection EG as EG. destruct (h_only_probit m); injection EG as <-; eexists; eexists; reflexivity. }
  destruct GL as [x [l ->]]. assert (HPG : exists l', grad_hyper_likelihood m1 = 0 :: l') by (rewrite E1; unfold grad_hyper_likelihood; cbn; destruct (h_only_probit m); eexists; reflexivity).
  destruct HPG as [l' HPG]. rewrite HPG in HG. apply minus_both_head in HG. rewrite HG.
  destruct (hyper_likelihood g m1) as [c|] eqn:EC; [|congruence].
  assert (EP : forall t, 0 < t -> hyper_likelihood g (mt t) = Some c).
  { intros t Ht. rewrite <- EC, E1. unfold hyper_likelihood. cbn. replace (Rleb t 0) with false by (symmetry; apply Rleb_false; lra). replace (Rleb s 0) with false by (symmetry; apply Rleb_false; lra). reflexivity. }
  set (lik := fun t => likli_f_hyper sp (with_sigma (probits_of eps m1) t) (only r) (length Xv) (mat_at K) (entries F)) in *.
  change (locally s (fun t => has_value (lik t))) in LV. change (is_derive (fun t => value_of (lik t)) s (nth 0 (x :: l) 0)) in DV.
  assert (EO : forall t, 0 < t -> hyperparameter_obj sp g eps inv m f Xv (only r) (t :: rest) = do l <- lik t; Ok (option_map Ropp (M_Fit.oplus l (Some c)))).
  { intros t Ht. unfold hyperparameter_obj. rewrite ES. cbn [bind]. change (h_kern (mt t)) with (Some k). cbv beta iota. rewrite (predicted_probits sp eps inv (mt t) m1 k f Xv YO). rewrite HF. cbn [bind]. rewrite HC. cbn [bind].
    rewrite (EP t Ht). unfold lik. rewrite E1. reflexivity. }
  assert (LP : locally s (fun t => 0 < t)) by (apply (open_gt 0); lra).
  cbn [nth] in DV |- *. split.
  - generalize (filter_and _ _ LV LP). apply filter_imp. intros t [[v Hv] Ht]. rewrite (EO t Ht), Hv. cbn. eexists. reflexivity.
  - apply (is_derive_ext_loc (fun t => - value_of (lik t) - c)).
    + generalize (filter_and _ _ LV LP). apply filter_imp. intros t [[v Hv] Ht]. rewrite (EO t Ht), Hv. cbn. ring.
    + evar_last; [apply (is_derive_minus (fun t => - value_of (lik t)) (fun _ => c)); [apply (is_derive_opp (fun t => value_of (lik t))); exact DV|apply (is_derive_const c)]|].
      match goal with |- ?a = ?b => change (@eq R a b) end. cbn. ring.
Qed.

(** the length of the gradient *)
Lemma setup_hyper m x m1 : length x = length (get_hyper m) -> h_ord m = false -> set_hyper m x = Ok m1 -> get_hyper m1 = x /\ same_setup m m1.
Proof.
  intros L O E. destruct (P_Hyper.hyper_rt m x L) as [m' [E' [G S]]]; [rewrite O; discriminate|]. rewrite E in E'. injection E' as <-. auto.
Qed.
Lemma zipw_length' {A B C} (f : A -> B -> C) l l' : length l = length l' -> length (zipw f l l') = length l.
Proof. revert l'. induction l as [|x l IH]; intros [|y l'] H; try discriminate; [reflexivity|]. cbn in *. f_equal. apply IH. lia. Qed.
Lemma grad_defined sp eps inv m f Xv y x m1 k F K : h_ord m = false -> same_kinds m y -> (h_rel m = true \/ h_abs m = true) ->
  length x = length (get_hyper m) -> set_hyper m x = Ok m1 -> h_kern m1 = Some k -> additive k -> 
  (h_only_probit m = true -> (h_rel m = true /\ p_opt (h_p m) = true) \/ (h_abs m = true /\ a_opt (h_a m) = true)) ->
  predicted sp eps inv m1 k f Xv = Ok F -> kcov k Xv Xv = Ok K -> symmetric (length Xv) (mat_at K) -> pd (length Xv) (mat_at K) ->
  exists gr, hyperparamter_obj_grad sp eps inv m f Xv y x = Ok gr /\ length gr = length x.
Proof.
  intros HO [K1 [K2 K3]] Hd L HS HK AD HOP HF HC SK PK. destruct (setup_hyper m x m1 L HO HS) as [G S].
  destruct (P_KernelGrad.kcov_grad_spec k Xv Xv AD) as [DK [EDK [LDK _]]].
  assert (YO : y_ord y = None) by (destruct (y_ord y); auto; rewrite HO in K2; destruct K2 as [_ K2]; discriminate K2; discriminate).
  unfold hyperparamter_obj_grad. rewrite HS. cbn [bind]. rewrite HK, HF. cbn [bind]. rewrite HC. cbn [bind]. rewrite EDK. cbn [bind mats].
  unfold grad_likli_f_hyper. destruct (derivatives_total sp (probits_of eps m1) y (entries F) YO) as [d ->]. cbn [bind].
  destruct (chol_complete _ _ SK PK) as [Lc ->]. unfold all_W_dF. rewrite YO. cbn [bind].
  destruct S as [S1 [S2 [S3 [S4 [_ [_ [_ [S8 [_ [S10 S11]]]]]]]]]].
  assert (GL := P_HyperPrior.grad_len m1 ltac:(congruence)). rewrite G in GL.
  assert (LX : length x = (length (probit_hyper m1) + (if h_only_probit m then 0 else length (kparam k)))%nat).
  { rewrite <- G. unfold get_hyper. rewrite HK, S4. destruct (h_only_probit m); [lia|now rewrite app_length]. }
  rewrite P_HyperPrior.probit_hyper_len, S1, S2, S3, S8, S10, S11, HO in LX.
  cbn [probits_of ps_p ps_a ps_eps]. rewrite S4, S8.
  assert (MB : forall a, length a = length x -> exists gr, minus_both a (grad_hyper_likelihood m1) = Ok gr /\ length gr = length x).
  { intros a La. unfold minus_both. rewrite La, GL, Nat.eqb_refl. eexists. split; [reflexivity|]. rewrite zipw_length'; lia. }
  assert (LDs : length (map mat_at DK) = length (kparam k)) by now rewrite map_length.
  set (pe := probit_entry (length Xv) (mat_at K) (inv (length Xv) (eye_plus (length Xv) (mat_at K) (fst (fst d))))).
  assert (LA : forall a, length (zipw pe (abs_grad_hyper sp (h_a m1) eps a (entries F)) (abs_W_dHyper sp (h_a m1) eps a (entries F))) = if a_opt (h_a m) then (if a_v_only (h_a m) then 1%nat else 2%nat) else 0%nat).
  { intro a. unfold abs_grad_hyper, abs_W_dHyper. rewrite S10, S11. destruct (a_opt (h_a m)), (a_v_only (h_a m)); reflexivity. }
  destruct (y_rel y) as [r|]; cbn [option_map]; [replace (h_rel m) with true in * by (symmetry; apply K1; discriminate)|replace (h_rel m) with false in * by (destruct (h_rel m); auto; destruct K1 as [K1 _]; exfalso; now apply K1)];
    (destruct (y_abs y) as [a|]; [replace (h_abs m) with true in * by (symmetry; apply K3; discriminate)|replace (h_abs m) with false in * by (destruct (h_abs m); auto; destruct K3 as [K3 _]; exfalso; now apply K3)]);
    try (exfalso; destruct Hd; discriminate);
    destruct (map mat_at DK) as [|dk0 dks]; cbn [bind];
    rewrite ?S10; try (specialize (LA a)); destruct (p_opt (h_p m)), (a_opt (h_a m)), (h_only_probit m);
    try (exfalso; destruct (HOP eq_refl) as [[? ?]|[? ?]]; discriminate); cbn [bind app]; apply MB; cbn [length]; rewrite ?app_length, ?map_length, ?LA; cbn [length] in *; rewrite ?map_length; try lia.
Qed.

(** when the gradient cannot be computed *)
Lemma grad_ordinal sp eps inv m f Xv y x gr o : y_ord y = Some o -> hyperparamter_obj_grad sp eps inv m f Xv y x <> Ok gr.
Proof.
  intros YO H. unfold hyperparamter_obj_grad in H. destruct (set_hyper m x) as [m1|]; [|discriminate]. cbn [bind] in H. destruct (h_kern m1) as [k|]; [|discriminate].
  destruct (predicted sp eps inv m1 k f Xv) as [F|]; [|discriminate]. cbn [bind] in H. destruct (kcov k Xv Xv) as [K|]; [|discriminate]. cbn [bind] in H. destruct (kcov_grad k Xv Xv) as [dK|]; [|discriminate]. cbn [bind] in H.
  unfold grad_likli_f_hyper in H. destruct (derivatives _ _ _ _) as [d|]; [|discriminate]. cbn [bind] in H. destruct (chol _ _); [|discriminate]. unfold all_W_dF in H. rewrite YO in H. discriminate.
Qed.
(** when everything before the probits works, the exception is NotImplementedError *)
Lemma grad_ordinal_raises sp eps inv m f Xv y x o m1 k F K dK d L : y_ord y = Some o -> set_hyper m x = Ok m1 -> h_kern m1 = Some k ->
  predicted sp eps inv m1 k f Xv = Ok F -> kcov k Xv Xv = Ok K -> kcov_grad k Xv Xv = Ok dK -> derivatives sp (probits_of eps m1) y (entries F) = Ok d ->
  chol (length Xv) (mat_at K) = Some L -> hyperparamter_obj_grad sp eps inv m f Xv y x = Raise NotImplementedError.
Proof.
  intros YO HS HK HF HC HD E EL. unfold hyperparamter_obj_grad. rewrite HS. cbn [bind]. rewrite HK, HF. cbn [bind]. rewrite HC. cbn [bind]. rewrite HD. cbn [bind].
  unfold grad_likli_f_hyper. rewrite E. cbn [bind]. rewrite EL. unfold all_W_dF. now rewrite YO.
Qed.
Lemma minus_short a b gr : minus_both a b = Ok gr -> length a = length b \/ length a = 1%nat \/ length b = 1%nat.
Proof.
  unfold minus_both. destruct (Nat.eqb_spec (length a) (length b)); [auto|]. destruct a as [|x [|x2 a]], b as [|y [|y2 b]]; cbn; intro; try discriminate; auto.
Qed.
Lemma grad_no_probit sp eps inv m f Xv y x gr : h_only_probit m = true -> y_ord y = None -> p_opt (h_p m) = false -> a_opt (h_a m) = false ->
  hyperparamter_obj_grad sp eps inv m f Xv y x <> Ok gr.
Proof.
  intros HOP YO P1 P2 H. unfold hyperparamter_obj_grad in H. destruct (set_hyper m x) as [m1|] eqn:ES; [|discriminate]. cbn [bind] in H.
  assert (Q : p_opt (h_p m1) = false /\ a_opt (h_a m1) = false /\ h_only_probit m1 = true).
  { unfold set_hyper, set_probit_hyper, pref_set, abs_set in ES. rewrite P1, P2, HOP in ES.
    destruct (h_kern m); destruct (h_rel m), (h_abs m); cbn [bind] in ES;
    (destruct (if h_ord m then _ else _) as [oo|]; [|discriminate]); cbn [bind] in ES; injection ES as <-; cbn; auto. }
  destruct Q as [Q1 [Q2 Q3]]. destruct (h_kern m1) as [k|]; [|discriminate].
  destruct (predicted sp eps inv m1 k f Xv) as [F|]; [|discriminate]. cbn [bind] in H. destruct (kcov k Xv Xv) as [K|]; [|discriminate]. cbn [bind] in H. destruct (kcov_grad k Xv Xv) as [dK|]; [|discriminate]. cbn [bind] in H.
  unfold grad_likli_f_hyper in H. destruct (derivatives _ _ _ _) as [d|]; [|discriminate]. cbn [bind] in H. destruct (chol _ _); [|discriminate]. unfold all_W_dF in H. rewrite YO in H. cbn [bind] in H.
  destruct (match map mat_at (mats dK) with nil => _ | _ => _ end) as [dL|]; [|discriminate]. cbn [bind probits_of ps_p ps_a] in H. rewrite Q1, Q2, Q3 in H.
  destruct (y_rel y), (y_abs y); discriminate.
Qed.
Lemma grad_product sp eps inv m f Xv r x gr m1 a b : h_ord m = false -> h_abs m = false -> h_rel m = true -> h_only_probit m = false -> length x = length (get_hyper m) ->
  set_hyper m x = Ok m1 -> h_kern m1 = Some (KMul a b) -> p_opt (h_p m) = true -> hyperparamter_obj_grad sp eps inv m f Xv (only r) x <> Ok gr.
Proof.
  intros HO HA HR HOP L HS HK PO H. destruct (setup_hyper m x m1 L HO HS) as [G S]. destruct S as [S1 [S2 [S3 [S4 [_ [_ [_ [S8 [_ [S10 S11]]]]]]]]]].
  unfold hyperparamter_obj_grad in H. rewrite HS in H. cbn [bind] in H. rewrite HK in H.
  destruct (predicted sp eps inv m1 (KMul a b) f Xv) as [F|]; [|discriminate]. cbn [bind] in H. destruct (kcov (KMul a b) Xv Xv) as [K|]; [|discriminate]. cbn [bind] in H. destruct (kcov_grad (KMul a b) Xv Xv) as [dK|] eqn:EK; [|discriminate]. cbn [bind] in H.
  assert (LK := P_KernelEx.product_grad_short a b Xv Xv dK EK).
  unfold grad_likli_f_hyper in H. destruct (derivatives _ _ _ _) as [d|]; [|discriminate]. cbn [bind] in H. destruct (chol _ _) as [Lc|]; [|discriminate]. unfold all_W_dF in H. cbn [bind only y_ord y_rel y_abs option_map] in H.
  cbn [probits_of ps_p ps_a] in H. rewrite S8, PO, S4, HOP in H.
  assert (GL := P_HyperPrior.grad_len m1 ltac:(congruence)). unfold get_hyper in GL. rewrite HK, S4, HOP, app_length, P_HyperPrior.probit_hyper_len, S1, S2, S3, S8, HO, HA, HR, PO in GL.
  assert (L2 := P_KernelEx.kcov_grad_length _ _ _ _ EK).
  assert (LM : length (map mat_at (mats dK)) = length (mats dK)) by now rewrite map_length.
  destruct (map mat_at (mats dK)) as [|d0 ds] eqn:ED; cbn [bind app length] in *; [lia|].
  apply minus_short in H. cbn [length map] in H. rewrite map_length in H. lia.
Qed.
