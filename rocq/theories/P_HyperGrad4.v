(** A model for which the derivative of the objective with respect to a covariance parameter is not the one handed to the optimiser. *)
From Verif Require Import M_Fake M_Acq P_Acq M_HyperGrad S_Psd P_Psd P_Det.
From Verif Require P_Kernel P_KernelGrad P_KernelEx P_Hyper P_HyperPrior P_Normal.
From Coquelicot Require Import Coquelicot.
From Coq Require Import Reals Lra Lia List.
From Verif Require Import M_RBase P_RBase M_Hyper M_HyperGrad S_Fit S_HyperGrad S_Kernel S_Hyper P_PrefProbit P_Fit4 S_GP S_Psd P_Psd P_Chol P_GP P_GP2 P_GP3 P_Det P_Det2 P_Det3 P_HyperGrad P_HyperGrad2 P_HyperGrad3.
Local Open Scope R_scope.

Definition w_X : list point := (1 :: nil) :: (2 :: nil) :: nil.
Definition w_r : list M_Pairs.pair := (1%Z, 0%nat, 1%nat) :: nil.
Definition w_m : hmodel := mkH true false false (mkPref 1 true) (mkOrd 3 1 (0 :: 1 :: nil)) (mkAbs 1 1 false false) false (Some (Lin 1 1 1)).
Definition w_K (t : R) : matrix := pairwise (lin_call t 1 1) w_X w_X.
Definition w_f : fold := mkFold w_X (0 :: 0 :: nil) (w_K 1) (only w_r).
Definition w_x : list R := 1 :: 1 :: 1 :: 1 :: nil.
Lemma rsum1 a : rsum (a :: nil) = a.
Proof. unfold rsum. cbn. ring. Qed.
Lemma two_cases (P : nat -> nat -> Prop) : P 0%nat 0%nat -> P 0%nat 1%nat -> P 1%nat 0%nat -> P 1%nat 1%nat -> forall i j, (i < 2)%nat -> (j < 2)%nat -> P i j.
Proof. intros A B C D [|[|i]] [|[|j]] Hi Hj; auto; lia. Qed.
Lemma w_K_at t : forall i j, (i < 2)%nat -> (j < 2)%nat -> mat_at (w_K t) i j = match i, j with O, O => 1 | O, _ => 1 | _, O => 1 | _, _ => 1 + t * t end.
Proof. apply two_cases; unfold mat_at, w_K, pairwise, w_X, lin_call; cbn [map nth combine fst snd]; rewrite ?rsum1; ring. Qed.
Lemma w_K_sym t : symmetric 2 (mat_at (w_K t)).
Proof. intros i j Hi Hj. rewrite !w_K_at by auto. destruct i as [|[|i]], j as [|[|j]]; auto; lia. Qed.
Lemma w_K_pd t : t <> 0 -> pd 2 (mat_at (w_K t)).
Proof.
  intros Ht. apply (pd_ext 2 (fun i j => match i, j with O, O => 1 | O, _ => 1 | _, O => 1 | _, _ => 1 + t * t end)).
  - intros i j Hi Hj. symmetry. now apply w_K_at.
  - apply pd_two; try lra. assert (0 < t * t) by nra. lra.
Qed.
Lemma w_set t : set_hyper w_m (1 :: t :: 1 :: 1 :: nil) = Ok (mkH true false false (mkPref 1 true) (mkOrd 3 1 (0 :: 1 :: nil)) (mkAbs 1 1 false false) false (Some (Lin t 1 1))).
Proof. reflexivity. Qed.
Lemma w_predicted sp eps inv m t : predicted sp eps inv m (Lin t 1 1) w_f w_X = Ok (0 :: 0 :: nil).
Proof.
  unfold predicted. destruct (derivatives_total sp (probits_of eps m) (fo_y w_f) (entries (fo_F w_f)) eq_refl) as [d ->]. cbn [bind]. unfold pgp_predict. cbn [pX pF pW pK w_f fo_X fo_K fo_F kcov bind].
  change (length w_X) with 2%nat. destruct (chol_complete 2 (mat_at (w_K 1)) (w_K_sym 1) (w_K_pd 1 ltac:(lra))) as [L EL]. rewrite EL. cbn [bind fst].
  assert (Z : forall j, (j < 2)%nat -> cho_solve 2 L (fun j => nth j (0 :: 0 :: nil) 0) j = 0).
  { apply (solves_unique 2 (mat_at (w_K 1)) (fun j => nth j (0 :: 0 :: nil) 0) _ (fun _ => 0) (w_K_pd 1 ltac:(lra))).
    - apply cho_solve_spec; [apply w_K_sym|exact EL].
    - intros i Hi. rewrite sumn_zero by (intros; ring). destruct i as [|[|i]]; cbn; auto; lia. }
  cbn [map seq]. rewrite !sum_to_sumn. cbn [sumn]. rewrite !Z by lia. do 2 f_equal; [ring|f_equal; ring].
Qed.
Lemma w_dK t : kcov_grad (Lin t 1 1) w_X w_X = Ok (GTuple (pairwise (fun u v => 2 * t * rsum (map (fun ab : R * R => (fst ab - 1) * (snd ab - 1)) (combine u v))) w_X w_X :: pairwise (fun _ _ => 2 * 1) w_X w_X ::
   pairwise (fun u v => t * t * rsum (map (fun ab : R * R => 2 * 1 - fst ab - snd ab) (combine u v))) w_X w_X :: nil)).
Proof. reflexivity. Qed.
Definition w_D : nat -> nat -> R := mat_at (pairwise (fun u v => 2 * 1 * rsum (map (fun ab : R * R => (fst ab - 1) * (snd ab - 1)) (combine u v))) w_X w_X).
Lemma w_D_at : forall i j, (i < 2)%nat -> (j < 2)%nat -> w_D i j = match i, j with 1%nat, 1%nat => 2 | _, _ => 0 end.
Proof. apply two_cases; unfold w_D, mat_at, w_K, pairwise, w_X; cbn [map nth combine fst snd]; rewrite ?rsum1; ring. Qed.
Lemma w_D_derive i j : (i < 2)%nat -> (j < 2)%nat -> is_derive (fun t => mat_at (w_K t) i j) 1 (w_D i j).
Proof.
  intros Hi Hj. apply (is_derive_ext (fun t => match i, j with O, O => 1 | O, _ => 1 | _, O => 1 | _, _ => 1 + t * t end)); [intro t; symmetry; now apply w_K_at|].
  rewrite w_D_at by auto. destruct i as [|[|i]], j as [|[|j]]; try lia; auto_derive; auto; ring.
Qed.
Lemma w_extra inv : inverts inv -> 
  sumn 2 (fun i => sumn 2 (fun j => sumn 2 (fun a => inv 2%nat (eye_plus 2 (mat_at (w_K 1)) (fun i j => 0 + calc_W 1 w_r (entries (0 :: 0 :: nil)) i j)) i a * w_D a j) * (0 + derv_log_likelyhood 1 w_r (entries (0 :: 0 :: nil)) j))) <> 0.
Proof.
  intros HI. set (F := entries (0 :: 0 :: nil)). set (W := fun i j => 0 + calc_W 1 w_r F i j).
  assert (U : not_low 1 w_r F). { intros p [<-|[]]. cbn. assert (0 < 1 * sqrt 2) by (assert (0 < sqrt 2) by (apply sqrt_lt_R0; lra); lra). unfold Rdiv. replace (1 * (0 - 0) * / (1 * sqrt 2)) with 0 by ring. lra. }
  assert (SW : symmetric 2 W) by (intros i j _ _; unfold W; now rewrite W_symmetric).
  assert (PW : psd 2 W). { apply (psd_ext 2 (calc_W 1 w_r F)); [intros; unfold W; ring|]. apply W_psd; [lra|exact U]. }
  assert (KS := w_K_sym 1). assert (KP := w_K_pd 1 ltac:(lra)).
  destruct (inverse_eye 2 (mat_at (w_K 1)) W SW PW KS KP) as [T [HT [HL HR]]].
  assert (X := HI 2%nat (eye_plus 2 (mat_at (w_K 1)) W) _ (proj2 (right_inverse_eye 2 _ W _) HR)). set (B := inv 2%nat (eye_plus 2 (mat_at (w_K 1)) W)) in *.
  set (q := pdf_cdf_ratio (z_of 1 F (1%Z, 0%nat, 1%nat))). assert (Hq : 0 < q) by apply P_Normal.ratio_pos.
  set (c := 1 / (1 * sqrt 2)). assert (Hc : 0 < c). { unfold c. assert (0 < sqrt 2) by (apply sqrt_lt_R0; lra). apply Rdiv_lt_0_compat; lra. }
  assert (ZZ : z_of 1 F (1%Z, 0%nat, 1%nat) = 0) by (unfold z_of, F; cbn; unfold isqrt2sig; unfold Rdiv; ring).
  assert (PP : paren (z_of 1 F (1%Z, 0%nat, 1%nat)) = q * q) by (unfold paren; fold q; rewrite ZZ; ring).
  assert (EW : forall i j, (i < 2)%nat -> (j < 2)%nat -> W i j = match i, j with 0%nat, 0%nat => q * q * c * c | 1%nat, 1%nat => q * q * c * c | _, _ => - (q * q * c * c) end).
  { apply two_cases; unfold W; rewrite W_sum; cbn [w_r map]; rewrite rsum1; rewrite PP; unfold coef, delta, hot, dk_of, u_of, v_of; cbn [fst snd Nat.eqb]; fold c; ring. }
  assert (EG : 0 + derv_log_likelyhood 1 w_r F 1%nat = q * c).
  { rewrite derv_sum. cbn [w_r map]. rewrite rsum1. fold q. unfold coef, delta, hot, dk_of, u_of, v_of; cbn [fst snd Nat.eqb]; fold c; ring. }
  assert (EE : forall i j, (i < 2)%nat -> (j < 2)%nat -> eye_plus 2 (mat_at (w_K 1)) W i j = match i, j with 0%nat, 0%nat => 1 | 0%nat, _ => 0 | _, 0%nat => - (q * q * c * c) | _, _ => 1 + q * q * c * c end).
  { apply two_cases; unfold eye_plus; rewrite mprod_sumn; cbn [sumn Nat.eqb]; rewrite !w_K_at, !EW by lia; ring. }
  assert (X01 := X 0%nat 1%nat ltac:(lia) ltac:(lia)). assert (X11 := X 1%nat 1%nat ltac:(lia) ltac:(lia)). cbn [sumn] in X01, X11. rewrite !EE in X01, X11 by lia. unfold unitv in X01, X11. cbn [Nat.eqb] in X01, X11.
  cbn [sumn]. rewrite !w_D_at by lia. rewrite EG. set (g0 := 0 + derv_log_likelyhood 1 w_r F O). set (b := q * q * c * c) in *. assert (Hb : 0 < b) by (unfold b; exact (Rmult_lt_0_compat _ _ (Rmult_lt_0_compat _ _ (Rmult_lt_0_compat _ _ Hq Hq) Hc) Hc)).
  assert (B01 : B 0%nat 1%nat = 0) by lra. assert (B11 : B 1%nat 1%nat = / (1 + b)) by (apply (Rmult_eq_reg_l (1 + b)); [rewrite Rinv_r by lra; rewrite B01 in X11; lra|lra]).
  rewrite B01, B11. assert (0 < / (1 + b)) by (apply Rinv_0_lt_compat; lra). assert (0 < q * c) by exact (Rmult_lt_0_compat _ _ Hq Hc). assert (0 < / (1 + b) * (q * c)) by (apply Rmult_lt_0_compat; auto). nra.
Qed.
Lemma w_refuted sp g eps inv : inverts inv -> exists gr l, hyperparamter_obj_grad sp eps inv w_m w_f w_X (only w_r) w_x = Ok gr /\ length gr = 4%nat /\
  objective_derive (fun t => hyperparameter_obj sp g eps inv w_m w_f w_X (only w_r) (1 :: t :: 1 :: 1 :: nil)) 1 l /\ nth 1 gr 0 <> l.
Proof.
  intros HI. set (mt := fun t => mkH true false false (mkPref 1 true) (mkOrd 3 1 (0 :: 1 :: nil)) (mkAbs 1 1 false false) false (Some (Lin t 1 1))).
  destruct (grad_defined sp eps inv w_m w_f w_X (only w_r) w_x (mt 1) (Lin 1 1 1) (0 :: 0 :: nil) (w_K 1)) as [gr [EG LG]]; auto.
  { repeat split; cbn; intros; try discriminate; auto; congruence. }
  { exact I. }
  { apply w_predicted. }
  { apply w_K_sym. }
  { apply w_K_pd. lra. }
  exists gr. set (F := 0 :: 0 :: nil).
  set (dKs := map mat_at (mats (GTuple (pairwise (fun u v => 2 * 1 * rsum (map (fun ab : R * R => (fst ab - 1) * (snd ab - 1)) (combine u v))) w_X w_X :: pairwise (fun _ _ => 2 * 1) w_X w_X ::
   pairwise (fun u v => 1 * 1 * rsum (map (fun ab : R * R => 2 * 1 - fst ab - snd ab) (combine u v))) w_X w_X :: nil)))).
  assert (HG := EG). unfold hyperparamter_obj_grad in HG. change (set_hyper w_m w_x) with (@Ok hmodel (mt 1)) in HG. cbn [bind] in HG. change (h_kern (mt 1)) with (Some (Lin 1 1 1)) in HG. cbv beta iota in HG.
  rewrite w_predicted in HG. cbn [bind] in HG. change (kcov (Lin 1 1 1) w_X w_X) with (@Ok matrix (w_K 1)) in HG. cbn [bind] in HG. rewrite w_dK in HG. cbn [bind] in HG. fold dKs in HG. fold F in HG.
  change (length w_X) with 2%nat in HG. change (h_only_probit (mt 1)) with false in HG.
  destruct (grad_likli_f_hyper sp (probits_of eps (mt 1)) (only w_r) false inv 2 (mat_at (w_K 1)) dKs (entries F)) as [[gl|]|e] eqn:EL; [|discriminate|discriminate]. cbn [bind] in HG.
  assert (WF : well_formed 2 w_r) by (intros p [<-|[]]; cbn; repeat split; try lia; auto).
  assert (U : unclipped 1 w_r (entries F)). { intros p [<-|[]]. unfold entries, F, dk_of, u_of, v_of. cbn [fst snd nth]. unfold Rdiv. replace (1 * (0 - 0) * / (1 * sqrt 2)) with 0 by ring. lra. }
  assert (LK : locally 1 (fun t => symmetric 2 (mat_at (w_K t)) /\ pd 2 (mat_at (w_K t)))).
  { generalize (open_gt 0 1 ltac:(lra)). apply filter_imp. intros t Ht. split; [apply w_K_sym|apply w_K_pd; lra]. }
  assert (D := cov_gradient sp (probits_of eps (mt 1)) w_r 2 (fun t => mat_at (w_K t)) w_D (entries F) inv dKs 0 gl 1 ltac:(cbn; lra) WF U HI LK w_D_derive eq_refl EL).
  cbv zeta in D. change (p_sigma (ps_p (probits_of eps (mt 1)))) with 1 in D.
  match type of D with objective_derive _ _ (_ - ?e) => set (E := e) in D end. assert (NE : E <> 0) by exact (w_extra inv HI).
  assert (GP : length (grad_hyper_likelihood (mt 1)) = 4%nat) by reflexivity.
  assert (LL : length gl = 4%nat).
  { unfold minus_both in HG. rewrite GP in HG. destruct (Nat.eqb_spec (length gl) 4) as [?|N]; [auto|].
    destruct gl as [|x [|y gl]]; try discriminate.
    unfold grad_likli_f_hyper in EL. destruct (derivatives _ _ _ _) as [d|]; [|discriminate]. cbn [bind] in EL. destruct (chol _ _); [|discriminate]. cbn in EL. discriminate. }
  rewrite LL in D. change (length dKs) with 3%nat in D. cbn [Nat.sub Nat.add] in D.
  assert (EN : nth 1 gr 0 = - nth 1 gl 0 - nth 1 (grad_hyper_likelihood (mt 1)) 0).
  { unfold minus_both in HG. rewrite GP, LL, Nat.eqb_refl in HG. injection HG as <-. destruct gl as [|a0 [|a1 gl]]; try discriminate. reflexivity. }
  destruct D as [LV DV].
  assert (DP := P_HyperPrior.prior_derive g w_m 1 eq_refl ltac:(discriminate) ltac:(cbn; intros x Hx; repeat destruct Hx as [<-|Hx]; try lra; tauto) ltac:(cbn; lia)).
  change (nth 1 (get_hyper w_m) 0) with 1 in DP. change (grad_hyper_likelihood w_m) with (grad_hyper_likelihood (mt 1)) in DP.
  set (lik := fun t => likli_f_hyper sp (probits_of eps (mt 1)) (only w_r) 2 (mat_at (w_K t)) (entries F)) in *.
  change (locally 1 (fun t => has_value (lik t))) in LV. change (is_derive (fun t => value_of (lik t)) 1 (nth 1 gl 0 - E)) in DV.
  assert (EO : forall t, 0 < t -> hyperparameter_obj sp g eps inv w_m w_f w_X (only w_r) (1 :: t :: 1 :: 1 :: nil) = do l <- lik t; Ok (option_map Ropp (M_Fit.oplus l (Some (likelihood_at g w_m 1 t))))).
  { intros t Ht. unfold hyperparameter_obj. rewrite w_set. cbn [bind h_kern]. rewrite w_predicted. cbn [bind]. change (kcov (Lin t 1 1) w_X w_X) with (@Ok matrix (w_K t)). cbn [bind]. fold (mt t). fold F.
    change (probits_of eps (mt t)) with (probits_of eps (mt 1)). change (length w_X) with 2%nat. fold (lik t). destruct (lik t) as [l|e]; [|reflexivity]. cbn [bind].
    unfold likelihood_at. change (set_hyper w_m (set_nth 1 t (get_hyper w_m))) with (@Ok hmodel (mt t)). cbv beta iota. rewrite (P_HyperPrior.likelihood_value g (mt t)); [reflexivity|reflexivity|discriminate|].
    cbn. intros x Hx. repeat destruct Hx as [<-|Hx]; try lra; tauto. }
  exists (nth 1 gr 0 + E). split; [exact EG|]. split; [exact LG|]. split; [|lra].
  assert (LP : locally 1 (fun t => 0 < t)) by (apply (open_gt 0); lra). split.
  - generalize (filter_and _ _ LV LP). apply filter_imp. intros t [[v Hv] Ht]. rewrite (EO t Ht), Hv. cbn. eexists. reflexivity.
  - apply (is_derive_ext_loc (fun t => - value_of (lik t) - likelihood_at g w_m 1 t)).
    + generalize (filter_and _ _ LV LP). apply filter_imp. intros t [[v Hv] Ht]. rewrite (EO t Ht), Hv. cbn. ring.
    + evar_last; [apply (is_derive_minus (fun t => - value_of (lik t)) (likelihood_at g w_m 1)); [apply (is_derive_opp (fun t => value_of (lik t))); exact DV|exact DP]|].
      rewrite EN. match goal with |- ?a = ?b => change (@eq R a b) end. unfold minus, plus, opp. cbn -[nth grad_hyper_likelihood]. ring.
Qed.
