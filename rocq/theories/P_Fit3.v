(** Second derivative of the log likelihood, the log posterior, and the matrices of [find_mode]. *)
From Coquelicot Require Import Coquelicot.
From Coq Require Import Reals Lra Lia List.
From Verif Require Import M_RBase M_Normal M_PrefProbit M_OrdProbit M_AbsProbit M_Acq M_GP M_Fit S_PrefProbit S_OrdProbit S_AbsProbit S_GP S_Fit P_RBase P_Acq P_Normal P_PrefProbit P_Put P_OrdProbit P_AbsProbit P_Chol P_GP P_GP3 P_Fit P_Fit2.
From Verif Require Import S_Psd P_Psd.
Local Open Scope R_scope.

Lemma LLa_direction sp v s a F e : gamma_facts sp -> 0 < v -> exists l, has_direction (LLa sp v s a) F e l.
Proof.
  intros G V. eexists. apply (LLsum_direction (fun x f => rating_ll sp v s x f) (fun x f => A_ v s f * T_ sp v s x f)). intros p _. now apply rating_derive.
Qed.
Lemma dir_value f F e l : has_direction f F e l -> direction f e F = l.
Proof. intro H. now apply is_derive_unique. Qed.

Section Second.
Variables (sp : special) (P : probit_set) (n : nat) (y : labels) (F : nat -> R).
Hypothesis GP : good_probits sp P.
Hypothesis GL : good_labels P n y.
Hypothesis O : ordinary P y F.
Hypothesis NO : y_ord y = None.

Definition Wrel : nat -> nat -> R := match y_rel y with None => fun _ _ => 0 | Some r => calc_W (p_sigma (ps_p P)) r F end.
Definition Wabs : nat -> nat -> R := match y_abs y with None => fun _ _ => 0 | Some a => fst (fst (abs_derivatives sp (ps_a P) (ps_eps P) a F)) end.
Lemma second_rel e e' : has_direction (direction (fun G => part (y_rel y) (fun r => LLp (p_sigma (ps_p P)) r G)) e) F e' (- bform n Wrel e e').
Proof.
  destruct GP as [Hp _]. destruct GL as [G1 _]. destruct O as [O1 _]. unfold Wrel. destruct (y_rel y) as [r|] eqn:E; cbn [part].
  - apply pref_second; auto.
  - rewrite bform_0, Ropp_0. apply (is_derive_ext (fun _ : R => 0)); [intro t; symmetry; apply dir_value, dir_const|]. apply rconst_derive.
Qed.
Lemma second_abs e e' : has_direction (direction (fun G => part (y_abs y) (fun a => LLa sp (a_v (ps_a P)) (a_sigma (ps_a P)) a G)) e) F e' (- bform n Wabs e e').
Proof.
  destruct GP as [_ [_ [Hv [He Hg]]]]. destruct GL as [_ [_ G3]]. destruct O as [_ [_ O3]]. unfold Wabs. destruct (y_abs y) as [a|] eqn:E; cbn [part].
  - destruct (G3 a eq_refl) as [N B]. apply rating_second; auto.
  - rewrite bform_0, Ropp_0. apply (is_derive_ext (fun _ : R => 0)); [intro t; symmetry; apply dir_value, dir_const|]. apply rconst_derive.
Qed.
Lemma total_W : exists W g v, derivatives sp P y F = Ok (W, g, v) /\ forall i j, W i j = Wrel i j + Wabs i j.
Proof.
  unfold derivatives, Wrel, Wabs. rewrite NO. cbn [bind]. destruct (y_rel y) as [r|]; destruct (y_abs y) as [a|]; cbn [derivs_add fst snd]; do 3 eexists; (split; [reflexivity|]); intros i j; unfold derivs_add; cbn [fst snd]; ring.
Qed.
Lemma total_second : exists W g v, derivatives sp P y F = Ok (W, g, v) /\ forall e e', has_direction (direction (LL sp P y) e) F e' (- bform n W e e').
Proof.
  destruct total_W as [W [g [v [E HW]]]]. exists W, g, v. split; auto. intros e e'. rewrite (bform_ext n W (fun i j => Wrel i j + Wabs i j)) by auto. rewrite bform_plus, Ropp_plus_distr.
  assert (D := dir_plus _ _ F e' _ _ (second_rel e e') (second_abs e e')). unfold has_direction in D |- *. refine (is_derive_ext_loc _ _ _ _ _ D).
  destruct GP as [Hp [Ho [Hv [He Hg]]]]. destruct O as [O1 _].
  assert (U : locally (0 : R) (fun t : R => forall r, y_rel y = Some r -> unclipped (p_sigma (ps_p P)) r (along F e' t))).
  { destruct (y_rel y) as [r|] eqn:Er.
    - generalize (unclipped_along (p_sigma (ps_p P)) r F e' Hp (O1 r eq_refl)). apply filter_imp. intros t Ht r' [= <-]. exact Ht.
    - apply filter_forall. discriminate. }
  revert U. apply filter_imp. intros t Ut.
  assert (A1 : exists l, has_direction (fun G => part (y_rel y) (fun r => LLp (p_sigma (ps_p P)) r G)) (along F e' t) e l).
  { destruct (y_rel y) as [r|] eqn:Er; cbn [part]; eexists; [apply LLp_direction; auto|apply dir_const]. }
  assert (A2 : exists l, has_direction (fun G => part (y_abs y) (fun a => LLa sp (a_v (ps_a P)) (a_sigma (ps_a P)) a G)) (along F e' t) e l).
  { destruct (y_abs y) as [a|] eqn:Ea; cbn [part]; [now apply LLa_direction|eexists; apply dir_const]. }
  destruct A1 as [l1 A1]. destruct A2 as [l2 A2]. rewrite (dir_value _ _ _ _ A1), (dir_value _ _ _ _ A2). symmetry. apply dir_value.
  unfold has_direction, LL. rewrite NO. cbn [part]. apply (is_derive_ext (fun t0 : R => part (y_rel y) (fun r => LLp (p_sigma (ps_p P)) r (along (along F e' t) e t0)) + part (y_abs y) (fun a => LLa sp (a_v (ps_a P)) (a_sigma (ps_a P)) a (along (along F e' t) e t0)))); [intro; match goal with |- ?a = ?b => change (@eq R a b) end; ring|].
  exact (dir_plus _ _ (along F e' t) e l1 l2 A1 A2).
Qed.
End Second.

(** ---- the quadratic term ---- *)
Lemma qform_along n B F e t : symmetric n B -> qform n B (along F e t) = qform n B F + t * (2 * bform n B e F) + t * t * qform n B e.
Proof.
  intro HB. rewrite <- !bform_qform. transitivity (bform n B F F + t * (bform n B e F + bform n B F e) + t * t * bform n B e e).
  - unfold bform. rewrite <- sumn_plus, <- !sumn_scale, <- !sumn_plus. apply sumn_ext. intros i _. rewrite <- sumn_plus, <- !sumn_scale, <- !sumn_plus. apply sumn_ext. intros j _. unfold along. ring.
  - rewrite (bform_sym n B F e HB). ring.
Qed.
Lemma qform_direction n B F e : symmetric n B -> has_direction (fun G => 1 / 2 * qform n B G) F e (bform n B e F).
Proof.
  intro HB. unfold has_direction. apply (is_derive_ext (fun t : R => 1 / 2 * (qform n B F + t * (2 * bform n B e F) + t * t * qform n B e))); [intro t; now rewrite qform_along|].
  auto_derive; auto. field.
Qed.
Lemma bform_along n B e F e' t : bform n B e (along F e' t) = bform n B e F + t * bform n B e e'.
Proof. unfold bform. rewrite <- sumn_scale, <- sumn_plus. apply sumn_ext. intros i _. rewrite <- sumn_scale, <- sumn_plus. apply sumn_ext. intros; unfold along; ring. Qed.
Lemma post_gradient sp P n y F B : good_probits sp P -> good_labels P n y -> ordinary P y F -> symmetric n B -> exists W g, derivatives sp P y F = Ok (W, g, Some (LL sp P y F)) /\
  forall e, has_direction (log_post sp P y n B) F e (dotn n (fun i => g i - sumn n (fun j => B i j * F j)) e).
Proof.
  intros GP GL O HB. destruct (total_derivatives sp P n y F GP GL O) as [W [g [E [D _]]]]. exists W, g. split; auto. intro e. rewrite dotn_minus, <- bform_dot. apply dir_minus; auto. now apply qform_direction.
Qed.
Lemma post_second sp P n y F B : good_probits sp P -> good_labels P n y -> ordinary P y F -> y_ord y = None -> symmetric n B -> exists W g v, derivatives sp P y F = Ok (W, g, v) /\
  forall e e', has_direction (direction (log_post sp P y n B) e) F e' (bform n (fun i j => - W i j - B i j) e e').
Proof.
  intros GP GL O NO HB. destruct (total_second sp P n y F GP GL O NO) as [W [g [v [E D]]]]. exists W, g, v. split; auto. intros e e'.
  replace (bform n (fun i j => - W i j - B i j) e e') with (- bform n W e e' - bform n B e e').
  2: { unfold bform. rewrite <- (Rmult_1_l (sumn n _)), Ropp_mult_distr_l, <- sumn_scale, <- sumn_minus. apply sumn_ext. intros i _. rewrite <- sumn_scale, <- sumn_minus. apply sumn_ext. intros; ring. }
  assert (Q : has_direction (fun G => bform n B e G) F e' (bform n B e e')).
  { unfold has_direction. apply (is_derive_ext (fun t : R => bform n B e F + t * bform n B e e')); [intro; symmetry; apply bform_along|]. auto_derive; auto. ring. }
  assert (T := dir_minus _ _ F e' _ _ (D e e') Q). unfold has_direction in T |- *. refine (is_derive_ext_loc _ _ _ _ _ T).
  destruct GP as [Hp [Ho [Hv [He Hg]]]]. destruct O as [O1 _].
  assert (U : locally (0 : R) (fun t : R => forall r, y_rel y = Some r -> unclipped (p_sigma (ps_p P)) r (along F e' t))).
  { destruct (y_rel y) as [r|] eqn:Er.
    - generalize (unclipped_along (p_sigma (ps_p P)) r F e' Hp (O1 r eq_refl)). apply filter_imp. intros t Ht r' [= <-]. exact Ht.
    - apply filter_forall. discriminate. }
  revert U. apply filter_imp. intros t Ut. assert (A : exists l, has_direction (LL sp P y) (along F e' t) e l).
  { assert (A1 : exists l, has_direction (fun G => part (y_rel y) (fun r => LLp (p_sigma (ps_p P)) r G)) (along F e' t) e l).
    { destruct (y_rel y) as [r|] eqn:Er; cbn [part]; eexists; [apply LLp_direction; auto|apply dir_const]. }
    assert (A2 : exists l, has_direction (fun G => part (y_abs y) (fun a => LLa sp (a_v (ps_a P)) (a_sigma (ps_a P)) a G)) (along F e' t) e l).
    { destruct (y_abs y) as [a|] eqn:Ea; cbn [part]; [now apply LLa_direction|eexists; apply dir_const]. }
    destruct A1 as [l1 A1]. destruct A2 as [l2 A2]. exists (l1 + 0 + l2). unfold LL. rewrite NO. cbn [part].
    exact (dir_plus _ _ (along F e' t) e (l1 + 0) l2 (dir_plus _ _ (along F e' t) e l1 0 A1 (dir_const 0 (along F e' t) e)) A2). }
  destruct A as [l A]. rewrite (dir_value _ _ _ _ A). symmetry. apply dir_value. apply dir_minus; auto. now apply qform_direction.
Qed.

(** ---- the matrices of find_mode ---- *)
Lemma triangular_zero n L x : triangular n L -> (forall i, (i < n)%nat -> sumn n (fun j => L i j * x j) = 0) -> forall i, (i < n)%nat -> x i = 0.
Proof.
  intros T H. induction i as [i IH] using lt_wf_ind. intro Hi. destruct (T i Hi) as [Pi Zi]. specialize (H i Hi).
  rewrite (sumn_single n _ i Hi) in H. { apply Rmult_integral in H. destruct H; lra. }
  intros j Hj N. destruct (Nat.lt_trichotomy j i) as [Lt | [Eq | Gt]]; [rewrite (IH j Lt) by lia; ring|lia|rewrite (Zi j) by lia; ring].
Qed.
Lemma inv_lower_right n L i j : triangular n L -> (i < n)%nat -> sumn n (fun a => L i a * inv_lower n L a j) = unitv j i.
Proof. intros T Hi. unfold inv_lower. rewrite (fwd_spec n L (fun i => if Nat.eqb i j then 1 else 0) T i Hi). reflexivity. Qed.
Lemma inv_lower_left n L i j : triangular n L -> (i < n)%nat -> (j < n)%nat -> sumn n (fun a => inv_lower n L i a * L a j) = unitv j i.
Proof.
  intros T Hi Hj. cut (sumn n (fun a => inv_lower n L i a * L a j) - unitv j i = 0); [lra|]. revert i Hi.
  apply (triangular_zero n L (fun i => sumn n (fun a => inv_lower n L i a * L a j) - unitv j i) T). intros i Hi.
  rewrite (sumn_ext n _ (fun b => sumn n (fun a => L i b * inv_lower n L b a * L a j) - unitv j b * L i b)).
  - rewrite sumn_minus, sumn_swap. rewrite (sumn_ext n _ (fun a => unitv a i * L a j)).
    + rewrite (sumn_unit' n i (fun a => L a j) Hi), (sumn_unit n j (fun b => L i b) Hj). ring.
    + intros a Ha. rewrite sumn_scale_r. f_equal. now apply inv_lower_right.
  - intros b _. rewrite Rmult_minus_distr_l, <- sumn_scale. f_equal; [apply sumn_ext; intros; ring|ring].
Qed.
Lemma k_inv_inverse n K L : symmetric n K -> chol n K = Some L -> right_inverse n K (k_inv n L).
Proof.
  intros HS HL i j Hi Hj. destruct (chol_spec n K L HS HL) as [T E]. set (X := inv_lower n L).
  rewrite (sumn_ext n _ (fun a => sumn n (fun c => sumn n (fun b => L i c * (X b a * L a c) * X b j)))).
  2: { intros a Ha. rewrite <- (E i a Hi Ha). unfold k_inv. rewrite sum_to_sumn. fold X. rewrite <- sumn_scale_r. apply sumn_ext. intros c _. rewrite <- sumn_scale. apply sumn_ext. intros; ring. }
  rewrite sumn_swap. rewrite (sumn_ext n _ (fun c => L i c * X c j)); [exact (inv_lower_right n L i j T Hi)|]. intros c Hc. rewrite sumn_swap.
  rewrite (sumn_ext n _ (fun b => unitv c b * (L i c * X b j))). { now rewrite (sumn_unit n c (fun b => L i c * X b j) Hc). }
  intros b Hb. rewrite <- (inv_lower_left n L b c T Hb Hc : _ = unitv c b). fold X. rewrite <- sumn_scale_r. apply sumn_ext. intros; ring.
Qed.
Lemma inverse_solves n K L F : symmetric n K -> chol n K = Some L -> forall i, (i < n)%nat -> cho_solve n L F i = sumn n (fun j => k_inv n L i j * F j).
Proof.
  intros HS HL i Hi. apply (solves_unique n K F (cho_solve n L F) (fun i => sumn n (fun j => k_inv n L i j * F j))); auto; [now apply (chol_pd n K L)|now apply cho_solve_spec|]. intros u Hu. assert (R := k_inv_inverse n K L HS HL).
  rewrite (sumn_ext n _ (fun j => sumn n (fun c => K u j * k_inv n L j c * F c))) by (intros; rewrite <- sumn_scale; apply sumn_ext; intros; ring). rewrite sumn_swap.
  rewrite (sumn_ext n _ (fun c => unitv c u * F c)); [now apply sumn_unit'|]. intros c Hc. rewrite sumn_scale_r. f_equal. exact (R u c Hu Hc).
Qed.
Lemma inverse_unique n K B C : symmetric n K -> pd n K -> right_inverse n K B -> right_inverse n K C -> forall i j, (i < n)%nat -> (j < n)%nat -> B i j = C i j.
Proof.
  intros HS HP HB HC i j Hi Hj. apply (solves_unique n K (unitv j) (fun i => B i j) (fun i => C i j)); auto; intros u Hu; [exact (HB u j Hu Hj)|exact (HC u j Hu Hj)].
Qed.
