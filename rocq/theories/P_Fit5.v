(** The linear model: chain rule, ascent, and the two failing cases (ordinal labels; a single comparison). *)
From Coquelicot Require Import Coquelicot.
From Coq Require Import Reals Lra Lia List.
From Verif Require Import M_RBase M_Normal M_PrefProbit M_OrdProbit M_AbsProbit M_Acq M_GP M_Search M_Fit S_PrefProbit S_OrdProbit S_AbsProbit S_GP S_Fit P_RBase P_Acq P_Normal P_PrefProbit P_Put P_OrdProbit P_AbsProbit P_Chol P_GP P_GP2 P_GP3 P_Search P_Fit P_Fit2 P_Fit3 P_Fit4.
From Verif Require Import S_Psd P_Psd.
Local Open Scope R_scope.

(** ---- ordinal labels ---- *)
Lemma bo_derivatives s eps : 0 < s -> 0 < eps <= 1 / 2 -> exists W g p, ord_derivatives (bo s) eps ((2%nat, 0%nat) :: nil) (fun _ => 0) = Ok (W, g, p) /\
  W 0%nat 0%nat = ivar (bo s) * (4 * npdf 0 ^ 2 - 2 * npdf 0) /\ g 0%nat = 2 * npdf 0 / s.
Proof.
  intros Hs He. unfold ord_derivatives. rewrite each_ok by (intros p [<- |[]]; cbn; lia). cbn [bind map fst snd combine]. rewrite bo_lik by (auto; lia). eexists. eexists. eexists. split; [reflexivity|].
  assert (E : ord_derv (bo s) eps 2 0 (1 / 2) = (2 * npdf 0 / s, - (ivar (bo s) * (4 * npdf 0 ^ 2 - 2 * npdf 0)))).
  { unfold ord_derv. replace (Rltb (1 / 2) eps) with false by (symmetry; apply Rltb_false; lra). unfold norm_pdf. cbn [bo o_n Nat.sub Nat.eqb orb]. fold (bo s). rewrite ?oz_bo. unfold ivar, isigma, bo. cbn [o_sigma]. f_equal; field; lra. }
  rewrite E. unfold put_diag, put_vec, put. cbn [Nat.eqb combine fold_left fst snd]. split; ring.
Qed.
Lemma npdf_0_value : 1 / 7 < 2 * npdf 0 - 4 * npdf 0 ^ 2.
Proof.
  assert (E : npdf 0 = / sqrt (2 * PI)). { unfold npdf. replace (- 0 ^ 2 / 2) with 0 by field. rewrite exp_0. unfold Rdiv. ring. } set (u := 2 * npdf 0).
  assert (P1 : 3 < PI) by (generalize PI2_3_2; lra). assert (P2 := PI_4). assert (Q : sqrt (2 * PI) * sqrt (2 * PI) = 2 * PI) by (apply sqrt_sqrt; lra). assert (Qp : 0 < sqrt (2 * PI)) by (apply sqrt_lt_R0; lra).
  assert (U : u * sqrt (2 * PI) = 2) by (unfold u; rewrite E; field; lra). assert (Up : 0 < u) by (unfold u; generalize npdf_0_bounds; lra).
  assert (Uz : 0 < u * u) by nra.
  assert (U2 : u * u * PI = 2). { assert (T : u * sqrt (2 * PI) * (u * sqrt (2 * PI)) = 4) by (rewrite U; ring). replace (u * sqrt (2 * PI) * (u * sqrt (2 * PI))) with (u * u * (sqrt (2 * PI) * sqrt (2 * PI))) in T by ring. rewrite Q in T. lra. } assert (U3 : u * u < 2 / 3) by nra. assert (U4 : 1 / 2 <= u * u) by nra. assert (U5 : u < 8166 / 10000) by nra. assert (U6 : 7 / 10 < u) by nra.
  assert (EU : 4 * npdf 0 ^ 2 = u * u) by (unfold u; ring). rewrite EU. assert (0 <= (8166 / 10000 - u) * (u - 7 / 10)) by (apply Rmult_le_pos; lra). lra.
Qed.
Lemma bo_post sp P s k F : 0 < s -> 0 < k -> ps_o P = bo s -> log_post sp P (ord_only ((2%nat, 0%nat) :: nil)) 1 (fun _ _ => 1 / k) F = ln (ndtr (F 0%nat / s)) - 1 / 2 * (F 0%nat * F 0%nat / k).
Proof.
  intros Hs Hk Ho. unfold log_post, LL, part. cbn [y_rel y_ord y_abs ord_only]. rewrite Ho. unfold LLo, S_OrdProbit.LLo, qform. cbn. rewrite bo_prob2. unfold Rdiv. ring.
Qed.
Lemma bo_hess sp P s k L W g p : 0 < s -> 7 * s ^ 2 <= k -> ps_o P = bo s -> 0 < ps_eps P <= 1 / 2 -> chol 1 (fun _ _ => k) = Some L ->
  derivatives sp P (ord_only ((2%nat, 0%nat) :: nil)) (fun _ => 0) = Ok (W, g, p) -> 0 < mode_hess 1 L W 0%nat 0%nat.
Proof.
  intros Hs Hk Ho He HL ED. assert (Kp : 0 < k) by nra. destruct (bo_derivatives s (ps_eps P) Hs He) as [W' [g' [p' [ED' [EW EG]]]]].
  unfold derivatives in ED. cbn [y_rel y_ord y_abs ord_only] in ED. rewrite Ho, ED' in ED. cbn in ED. injection ED as <- <- <-.
  assert (HK : symmetric 1 (fun _ _ : nat => k)) by (intros ? ? _ _; reflexivity). assert (EI := k_inv_inverse 1 _ L HK HL). assert (EI0 : k_inv 1 L 0%nat 0%nat = 1 / k). { specialize (EI 0%nat 0%nat ltac:(lia) ltac:(lia)). cbn -[k_inv] in EI. apply (Rmult_eq_reg_l k); [|lra]. replace (k * (1 / k)) with 1 by (field; lra). lra. }
  unfold mode_hess. rewrite EI0, EW. unfold ivar, isigma, bo. cbn [o_sigma]. assert (N := npdf_0_value). replace ((1 / s) ^ 2) with (/ (s ^ 2)) by (field; lra).
  assert (S2 : 0 < s ^ 2) by nra. assert (/ k <= / 7 * / (s ^ 2)). { rewrite <- Rinv_mult. apply Rinv_le_contravar; lra. } assert (0 < / s ^ 2) by (now apply Rinv_0_lt_compat). unfold Rdiv. nra.
Qed.
Lemma bo_slope sp P s k t : 0 < s -> 0 < k -> ps_o P = bo s ->
  direction (log_post sp P (ord_only ((2%nat, 0%nat) :: nil)) 1 (fun _ _ => 1 / k)) (fun _ => 1) (along (fun _ => 0) (fun _ => 1) t) = hazard (t / s) / s - t / k.
Proof.
  intros Hs Hk Ho. unfold direction. rewrite (Derive_ext _ (fun u => log_ndtr ((t + u) / s) - 1 / 2 * ((t + u) * (t + u) / k))).
  - apply is_derive_unique. apply (is_derive_minus (fun u : R => log_ndtr ((t + u) / s)) (fun u : R => 1 / 2 * ((t + u) * (t + u) / k)) 0 (hazard (t / s) / s) (t / k)).
    + replace (hazard (t / s) / s) with (hazard ((t + 0) / s) * (1 / s)) by (rewrite Rplus_0_r; field; lra). apply (comp_derive log_ndtr (fun u => (t + u) / s)); [apply log_ndtr_derive|]. auto_derive; auto.
    + auto_derive; auto. match goal with |- ?a = ?b => change (@eq R a b) end. field; lra.
  - intro u. rewrite (bo_post sp P s k _ Hs Hk Ho). unfold along. replace (0 + t * 1 + u * 1) with (t + u) by ring. reflexivity.
Qed.
Lemma bo_hess_wrong sp P s k L : 0 < s -> 7 * s ^ 2 <= k -> ps_o P = bo s -> 0 < ps_eps P <= 1 / 2 -> chol 1 (fun _ _ => k) = Some L ->
  exists W g p, derivatives sp P (ord_only ((2%nat, 0%nat) :: nil)) (fun _ => 0) = Ok (W, g, p) /\
    ~ has_direction (direction (log_post sp P (ord_only ((2%nat, 0%nat) :: nil)) 1 (fun _ _ => 1 / k)) (fun _ => 1)) (fun _ => 0) (fun _ => 1) (bform 1 (mode_hess 1 L W) (fun _ => 1) (fun _ => 1)).
Proof.
  intros Hs Hk Ho He HL. assert (Kp : 0 < k) by nra. destruct (bo_derivatives s (ps_eps P) Hs He) as [W' [g' [p' [ED' _]]]].
  assert (ED : exists W g p, derivatives sp P (ord_only ((2%nat, 0%nat) :: nil)) (fun _ => 0) = Ok (W, g, p)). { unfold derivatives. cbn [y_rel y_ord y_abs ord_only]. rewrite Ho, ED'. do 3 eexists. reflexivity. }
  destruct ED as [W [g [p ED]]]. exists W, g, p. split; auto. intro D. assert (Hp := bo_hess sp P s k L W g p Hs Hk Ho He HL ED).
  assert (EB : bform 1 (mode_hess 1 L W) (fun _ => 1) (fun _ => 1) = mode_hess 1 L W 0%nat 0%nat) by (unfold bform; cbn -[mode_hess]; ring). rewrite EB in D.
  destruct (derive_raises _ _ D Hp) as [dd [Hd K]]. specialize (K (dd / 2) ltac:(lra)). rewrite !(bo_slope sp P s k _ Hs Kp Ho) in K.
  assert (T : 0 / s < dd / 2 / s) by (unfold Rdiv; apply Rmult_lt_compat_r; [now apply Rinv_0_lt_compat|lra]). apply hazard_decreasing in T. assert (Is : 0 < / s) by (now apply Rinv_0_lt_compat). assert (Ik : 0 < / k) by (now apply Rinv_0_lt_compat). unfold Rdiv in *. nra.
Qed.
Lemma ord_step_wrong sp P s k L inv : 0 < s -> 7 * s ^ 2 <= k -> ps_o P = bo s -> 0 < ps_eps P <= 1 / 2 -> chol 1 (fun _ _ => k) = Some L -> inverts_all inv ->
  exists f, mode_step sp P (ord_only ((2%nat, 0%nat) :: nil)) 1 L inv (0 :: nil) = Ok (f :: nil) /\ f < 0 /\
    log_post sp P (ord_only ((2%nat, 0%nat) :: nil)) 1 (fun _ _ => 1 / k) (entries (f :: nil)) < log_post sp P (ord_only ((2%nat, 0%nat) :: nil)) 1 (fun _ _ => 1 / k) (entries (0 :: nil)).
Proof.
  intros Hs Hk Ho He HL I1. assert (Kp : 0 < k) by nra. set (y := ord_only _).
  destruct (bo_derivatives s (ps_eps P) Hs He) as [W [g [p [ED [EW EG]]]]].
  assert (HK : symmetric 1 (fun _ _ : nat => k)) by (intros ? ? _ _; reflexivity).
  assert (EI := k_inv_inverse 1 _ L HK HL). assert (EI0 : k_inv 1 L 0%nat 0%nat = 1 / k). { specialize (EI 0%nat 0%nat ltac:(lia) ltac:(lia)). cbn -[k_inv] in EI. apply (Rmult_eq_reg_l k); [|lra]. replace (k * (1 / k)) with 1 by (field; lra). lra. }
  assert (EE : entries (0 :: nil) = fun _ => 0) by (apply FunctionalExtensionality.functional_extensionality; intros [|[|i]]; reflexivity).
  unfold mode_step. assert (EDD : derivatives sp P y (entries (0 :: nil)) = Ok (fun i j => 0 + W i j, fun i => 0 + g i, oplus (Some 0) p)).
  { unfold derivatives, y. cbn [y_rel y_ord y_abs ord_only]. rewrite Ho, EE, ED. reflexivity. }
  rewrite EDD. cbn [bind fst snd]. set (H := mode_hess _ _ _). set (G := mode_gradient _ _ _ _).
  assert (HG : G 0%nat = 2 * npdf 0 / s). { unfold G, mode_gradient. rewrite (inverse_solves 1 _ L _ HK HL 0%nat ltac:(lia)). cbn. rewrite EG. ring. }
  assert (HH : 0 < H 0%nat 0%nat).
  { unfold H, mode_hess. rewrite EI0, EW. unfold ivar, isigma, bo. cbn [o_sigma]. assert (N := npdf_0_value). replace ((1 / s) ^ 2) with (/ (s ^ 2)) by (field; lra).
    assert (S2 : 0 < s ^ 2) by nra. assert (/ k <= / 7 * / (s ^ 2)). { rewrite <- Rinv_mult. apply Rinv_le_contravar; lra. } assert (0 < / s ^ 2) by (now apply Rinv_0_lt_compat). unfold Rdiv. nra. }
  assert (HR : right_inverse 1 H (fun _ _ => / H 0%nat 0%nat)). { intros i j Hi Hj. replace i with 0%nat by lia. replace j with 0%nat by lia. cbn. field. lra. }
  destruct (I1 1%nat H _ HR) as [C [EC HC]]. specialize (HC 0%nat 0%nat ltac:(lia) ltac:(lia)). cbn in HC.
  assert (Cp : 0 < C 0%nat 0%nat). { apply (Rmult_lt_reg_l (H 0%nat 0%nat)); lra. }
  assert (EX : descent inv 1 G H = (G 0%nat * C 0%nat 0%nat) :: nil). { unfold descent. rewrite EC. cbn. f_equal. ring. }
  rewrite EX. destruct (newton_binary (0 :: nil) ((G 0%nat * C 0%nat 0%nat) :: nil) (objective (likli_f sp P y 1 L)) 3) as [lam [Hl EL]]. rewrite EL. cbn [step_from combine map fst snd].
  exists (0 - lam * (G 0%nat * C 0%nat 0%nat)). set (f := 0 - _). assert (Np := npdf_0_bounds). assert (Gp : 0 < G 0%nat) by (rewrite HG; apply Rdiv_lt_0_compat; lra).
  assert (Fn : f < 0). { unfold f. assert (0 < lam * (G 0%nat * C 0%nat 0%nat)) by (apply Rmult_lt_0_compat; [lra|now apply Rmult_lt_0_compat]). lra. }
  split; [reflexivity|]. split; auto.
  assert (V : forall x, log_post sp P y 1 (fun _ _ => 1 / k) (entries (x :: nil)) = ln (ndtr (x / s)) - 1 / 2 * (x * x / k)).
  { intro x. unfold log_post, LL, part, y. cbn [y_rel y_ord y_abs ord_only]. rewrite Ho. unfold LLo, S_OrdProbit.LLo, qform, entries. cbn. rewrite bo_prob2. unfold Rdiv. ring. }
  rewrite !V. assert (ndtr (f / s) < ndtr (0 / s)). { apply ndtr_increasing. unfold Rdiv. apply Rmult_lt_compat_r; auto. now apply Rinv_0_lt_compat. }
  assert (ln (ndtr (f / s)) < ln (ndtr (0 / s))) by (apply ln_increasing; auto; apply ndtr_range). assert (0 <= f * f / k). { apply Rmult_le_pos; [nra|]. left. now apply Rinv_0_lt_compat. } unfold Rdiv in *. lra.
Qed.

(** ---- the linear model ---- *)
Lemma lin_along d X w e t : lin_F d X (along w e t) = along (lin_F d X w) (lin_F d X e) t.
Proof. apply FunctionalExtensionality.functional_extensionality. intro i. unfold lin_F, along. rewrite !sum_to_sumn, <- sumn_scale, <- sumn_plus. apply sumn_ext. intros; ring. Qed.
Lemma lin_direction f d X w e l : has_direction f (lin_F d X w) (lin_F d X e) l -> has_direction (fun v => f (lin_F d X v)) w e l.
Proof. intro H. unfold has_direction in *. eapply is_derive_ext; [|exact H]. intro t. cbn. now rewrite lin_along. Qed.
Lemma lin_direction_value f d X e w : direction (fun v => f (lin_F d X v)) e w = direction f (lin_F d X e) (lin_F d X w).
Proof. unfold direction. apply Derive_ext. intro t. now rewrite lin_along. Qed.
Lemma lin_dot n d X (g e : nat -> R) : dotn d (fun a => sum_to n (fun i => g i * X i a)) e = dotn n g (lin_F d X e).
Proof.
  unfold dotn, lin_F. rewrite (sumn_ext d _ (fun a => sumn n (fun i => g i * X i a * e a))) by (intros; now rewrite sum_to_sumn, sumn_scale_r). rewrite sumn_swap. apply sumn_ext. intros i Hi. rewrite sum_to_sumn, <- sumn_scale. apply sumn_ext. intros; ring.
Qed.
Definition lin_mat (n : nat) (X W : nat -> nat -> R) : nat -> nat -> R := fun a b => sum_to n (fun j => sum_to n (fun i => X i a * W i j) * X j b).
Lemma lin_mat_bform n d X W e e' : bform d (lin_mat n X W) e e' = bform n W (lin_F d X e) (lin_F d X e').
Proof.
  unfold bform, lin_mat. transitivity (sumn d (fun a => sumn n (fun i => e a * X i a * sumn n (fun j => W i j * lin_F d X e' j)))).
  - apply sumn_ext. intros a Ha. rewrite (sumn_ext d _ (fun b => sumn n (fun j => sumn n (fun i => e a * X i a * (W i j * (X j b * e' b)))))).
    + rewrite sumn_swap. rewrite (sumn_ext n _ (fun j => sumn n (fun i => e a * X i a * (W i j * lin_F d X e' j)))).
      * rewrite sumn_swap. apply sumn_ext. intros i Hi. now rewrite sumn_scale.
      * intros j Hj. rewrite sumn_swap. apply sumn_ext. intros i Hi. rewrite !sumn_scale. unfold lin_F. now rewrite sum_to_sumn.
    + intros b Hb. rewrite sum_to_sumn, <- sumn_scale, <- sumn_scale_r. apply sumn_ext. intros j Hj. rewrite sum_to_sumn, <- !sumn_scale_r, <- sumn_scale, <- sumn_scale_r. apply sumn_ext. intros; ring.
  - rewrite sumn_swap. apply sumn_ext. intros i Hi. rewrite sumn_scale_r. transitivity (lin_F d X e i * sumn n (fun j => W i j * lin_F d X e' j)).
    + f_equal. unfold lin_F. rewrite sum_to_sumn. apply sumn_ext. intros; ring.
    + rewrite <- sumn_scale. apply sumn_ext. intros; ring.
Qed.
Lemma lin_total sp P n d y X w : good_probits sp P -> good_labels P n y -> ordinary P y (lin_F d X w) -> exists W g,
  lin_derivatives sp P y n d X w = Ok (W, g, Some (LL sp P y (lin_F d X w))) /\
  (forall e, has_direction (fun v => LL sp P y (lin_F d X v)) w e (dotn d g e)) /\ lin_loss sp P y n d X w = Ok (Some (LL sp P y (lin_F d X w))).
Proof.
  intros GP GL O. destruct (total_derivatives sp P n y _ GP GL O) as [W [g [E [D T]]]]. unfold lin_derivatives, lin_loss. rewrite E, T. cbn [bind fst snd]. eexists. eexists. split; [reflexivity|]. split; auto.
  intro e. rewrite lin_dot. apply lin_direction, D.
Qed.
Lemma dir_ext f g F e l : (forall G, f G = g G) -> has_direction f F e l -> has_direction g F e l.
Proof. intros H D. unfold has_direction in *. eapply is_derive_ext; [|exact D]. intro t. cbn. apply H. Qed.
Lemma bform_opp n A x y : bform n (fun i j => - A i j) x y = - bform n A x y.
Proof. replace (- bform n A x y) with (bform n (fun _ _ => 0) x y - bform n A x y) by (rewrite bform_0; ring). unfold bform. rewrite <- sumn_minus. apply sumn_ext. intros. rewrite <- sumn_minus. apply sumn_ext. intros; ring. Qed.
Lemma lin_second sp P n d y X w : good_probits sp P -> good_labels P n y -> ordinary P y (lin_F d X w) -> y_ord y = None -> exists W g v,
  lin_derivatives sp P y n d X w = Ok (W, g, v) /\ forall e e', has_direction (direction (fun v => LL sp P y (lin_F d X v)) e) w e' (- bform d W e e').
Proof.
  intros GP GL O NO. destruct (total_second sp P n y _ GP GL O NO) as [W [g [v [E D]]]]. unfold lin_derivatives. rewrite E. cbn [bind fst snd]. eexists. eexists. eexists. split; [reflexivity|].
  intros e e'. change (fun a b : nat => sum_to n (fun j => sum_to n (fun i => X i a * W i j) * X j b)) with (lin_mat n X W). rewrite lin_mat_bform.
  apply (dir_ext (fun v => direction (LL sp P y) (lin_F d X e) (lin_F d X v))); [intro G; symmetry; apply lin_direction_value|]. apply (lin_direction (direction (LL sp P y) (lin_F d X e))), D.
Qed.
Lemma dz_lin s p d X c : dz s p (lin_F d X c) = isqrt2sig s * dk_of p * sumn d (fun a => (X (v_of p) a - X (u_of p) a) * c a).
Proof. unfold dz, lin_F. rewrite !sum_to_sumn. f_equal. rewrite <- sumn_minus. apply sumn_ext. intros; ring. Qed.
Lemma isqrt_nonzero s : s <> 0 -> isqrt2sig s <> 0.
Proof. intro H. unfold isqrt2sig. assert (0 < sqrt 2) by (apply sqrt_lt_R0; lra). apply Rmult_integral_contrapositive_currified; [lra|]. apply Rinv_neq_0_compat. nra. Qed.
Lemma rsum_pos {A} (f : A -> R) l : (forall p, In p l -> 0 <= f p) -> (exists p, In p l /\ 0 < f p) -> 0 < rsum (map f l).
Proof.
  induction l as [|q l IH]; intros N [p [Hp Pp]]; [destruct Hp|]. cbn [map rsum]. assert (Q : 0 <= rsum (map f l)).
  { clear -N. induction l as [|a l IH]; cbn [map rsum]; [lra|]. assert (0 <= f a) by (apply N; right; now left). assert (0 <= rsum (map f l)) by (apply IH; intros p [-> |Hq]; apply N; [now left|right; now right]). lra. }
  destruct Hp as [<- |Hp]; [lra|]. assert (0 <= f q) by (apply N; now left). assert (0 < rsum (map f l)) by (apply IH; [intros; apply N; now right|eauto]). lra.
Qed.
Lemma lin_rel sp P n d r X w : good_probits sp P -> good_labels P n (only r) -> ordinary P (only r) (lin_F d X w) -> exists W g v,
  lin_derivatives sp P (only r) n d X w = Ok (W, g, v) /\ symmetric d W /\ psd d W /\ (spanning d r X -> pd d W).
Proof.
  intros GP GL O. destruct (rel_W sp P n r _ GP GL O) as [W [g [v [E [WS [WP EW]]]]]]. destruct (rel_facts sp P n r _ GP GL O) as [S [WF U]]. fold (only r) in E. unfold lin_derivatives. rewrite E. cbn [bind fst snd].
  eexists. eexists. eexists. split; [reflexivity|]. change (fun a b : nat => sum_to n (fun j => sum_to n (fun i => X i a * W i j) * X j b)) with (lin_mat n X W). split; [|split].
  - intros a b _ _. unfold lin_mat. rewrite !sum_to_sumn. rewrite (sumn_ext n _ (fun j => sumn n (fun i => X i a * W i j * X j b))) by (intros; now rewrite sum_to_sumn, sumn_scale_r). rewrite sumn_swap.
    apply sumn_ext. intros i Hi. rewrite sum_to_sumn, <- sumn_scale_r. apply sumn_ext. intros j Hj. rewrite (WS i j) by auto. ring.
  - intro c. rewrite <- bform_qform, lin_mat_bform, bform_qform. apply WP.
  - intros SP c Hc. rewrite <- bform_qform, lin_mat_bform. rewrite (bform_ext n W (calc_W (p_sigma (ps_p P)) r (lin_F d X w))) by (intros; apply EW). rewrite W_bform by auto.
    assert (Z := z_clip _ _ _ S U). apply rsum_pos.
    + intros p Hp. specialize (Z p Hp). assert (0 < paren (z_of (p_sigma (ps_p P)) (lin_F d X w) p)) by (apply paren_pos; lra). rewrite Rmult_assoc. apply Rmult_le_pos; [lra|]. apply Rle_0_sqr.
    + destruct (SP c Hc) as [p [Hp Np]]. exists p. split; auto. specialize (Z p Hp). assert (0 < paren (z_of (p_sigma (ps_p P)) (lin_F d X w) p)) by (apply paren_pos; lra). rewrite Rmult_assoc. apply Rmult_lt_0_compat; auto.
      apply Rsqr_pos_lt. rewrite dz_lin. destruct (WF p Hp) as [_ [_ Dk]]. assert (I := isqrt_nonzero _ S). apply Rmult_integral_contrapositive_currified; auto. apply Rmult_integral_contrapositive_currified; auto. destruct Dk; lra.
Qed.
Lemma opp_opp_pd n M : pd n M -> pd n (fun i j => - (fun i j => - M i j) i j).
Proof. apply pd_ext. intros; ring. Qed.
Section LinStep.
Variables (sp : special) (P : probit_set) (n d : nat) (r : list pair) (X : nat -> nat -> R) (inv : nat -> (nat -> nat -> R) -> option (nat -> nat -> R)).
Hypothesis GP : good_probits sp P.
Hypothesis GL : good_labels P n (only r).
Hypothesis HI : inverts_all inv.
Hypothesis SP : spanning d r X.
Let f := fun v => LL sp P (only r) (lin_F d X v).
Lemma lin_shape w : length w = d -> ordinary P (only r) (lin_F d X (entries w)) -> exists g x lam H, 0 < lam < 15 / 10 /\
  lin_step sp P (only r) n d X inv w = Ok (map (fun i => entries w i - lam * x i) (seq 0 d)) /\ solves d H g x /\ pd d (fun i j => - H i j) /\
  (forall e, has_direction f (entries w) e (dotn d g e)).
Proof.
  intros HF O. destruct (lin_total sp P n d (only r) X (entries w) GP GL O) as [W [g [E [D _]]]].
  destruct (lin_rel sp P n d r X (entries w) GP GL O) as [W' [g' [v' [E' [WS [_ WP]]]]]]. rewrite E in E'. injection E' as <- <- <-. specialize (WP SP).
  assert (HSy : symmetric d (fun a b => - W a b)) by (intros i j Hi Hj; now rewrite (WS i j)).
  destruct (descent_spec inv d g (fun a b => - W a b) HI HSy (opp_opp_pd d W WP)) as [x [Ex Sx]].
  unfold lin_step. rewrite E. cbn [bind fst snd]. rewrite Ex. destruct (newton_binary w (map x (seq 0 d)) (objective (lin_loss sp P (only r) n d X)) 5) as [lam [Hl EL]]. rewrite EL.
  exists g, x, lam, (fun a b => - W a b). split; auto. split; [now rewrite step_from_map|]. split; auto. split; [now apply opp_opp_pd|]. exact D.
Qed.
Lemma lin_ascent w : length w = d -> ordinary P (only r) (lin_F d X (entries w)) -> exists e lam, 0 < lam < 15 / 10 /\
  lin_step sp P (only r) n d X inv w = Ok (map (along (entries w) e lam) (seq 0 d)) /\
  ((exists l dd, has_direction f (entries w) e l /\ 0 < l /\ 0 < dd /\ forall t, 0 < t < dd -> f (entries w) < f (along (entries w) e t)) \/ ((forall e', has_direction f (entries w) e' 0) /\ lin_step sp P (only r) n d X inv w = Ok w)).
Proof.
  intros HF O. destruct (lin_shape w HF O) as [g [x [lam [H [Hl [E [Sx [MP D]]]]]]]]. exists (fun i => - x i), lam. split; auto. split.
  - rewrite E. f_equal. apply map_ext. intro i. unfold along. ring.
  - destruct (zero_or_not d x) as [Z|Z].
    + left. assert (Lp : 0 < dotn d g (fun i => - x i)) by (rewrite (descent_rise d H g x Sx); now apply MP). destruct (dir_raises _ _ _ _ (D (fun i => - x i)) Lp) as [dd [Hd Kd]]. exists (dotn d g (fun i => - x i)), dd. auto.
    + right. split.
      * intro e'. rewrite <- (zero_solution d g x H Sx Z e'). apply D.
      * rewrite E. f_equal. transitivity (map (entries w) (seq 0 d)); [|now apply map_entries]. apply map_ext_in. intros i Hi. apply in_seq in Hi. rewrite Z by lia. ring.
Qed.
End LinStep.

(** ---- a single comparison ---- *)
Lemma lin_mat_cols n X W a b : lin_mat n X W a b = bform n W (fun i => X i a) (fun j => X j b).
Proof. unfold lin_mat, bform. rewrite sum_to_sumn, sumn_swap. apply sumn_ext. intros j Hj. now rewrite sum_to_sumn, sumn_scale_r. Qed.
Lemma rank1_singular d k (q : nat -> R) C : (2 <= d)%nat -> ~ right_inverse d (fun i j => - (k * q i * q j)) C.
Proof.
  intros Hd H. assert (K : forall x, sumn d (fun i => x i * q i) = 0 -> forall a, (a < d)%nat -> x a = 0).
  { intros x Z a Ha. transitivity (sumn d (fun i => x i * unitv a i)).
    - rewrite (sumn_ext d _ (fun i => unitv a i * x i)) by (intros; ring). symmetry. now apply sumn_unit.
    - rewrite (sumn_ext d _ (fun i => x i * q i * (- k * sumn d (fun j => q j * C j a)))).
      + rewrite sumn_scale_r, Z. ring.
      + intros i Hi. change (unitv a i) with (if Nat.eqb i a then 1 else 0). rewrite <- (H i a Hi Ha). rewrite <- sumn_scale, <- !sumn_scale. apply sumn_ext. intros; ring. }
  destruct d as [|[|d]]; try lia. destruct (Req_dec (q 0%nat) 0) as [Z|N].
  - assert (T := K (fun i => match i with O => 1 | S _ => 0 end)). cbv beta in T. specialize (T ltac:(rewrite sumn_first, sumn_zero by (intros; ring); rewrite Z; ring) 0%nat ltac:(lia)). cbn in T. lra.
  - assert (T := K (fun i => match i with O => q 1%nat | S O => - q 0%nat | _ => 0 end)). cbv beta in T. specialize (T ltac:(rewrite 2 sumn_first, sumn_zero by (intros; ring); ring) 1%nat ltac:(lia)). cbn in T. lra.
Qed.
Lemma single_step sp P n d p X inv w : good_probits sp P -> 0 < p_sigma (ps_p P) -> good_labels P n (only (p :: nil)) -> inverse_routine inv -> (2 <= d)%nat -> length w = d ->
  (exists a, (a < d)%nat /\ X (v_of p) a <> X (u_of p) a) ->
  exists w', lin_step sp P (only (p :: nil)) n d X inv w = Ok w' /\ length w' = d /\ agreement d X p w' < agreement d X p w.
Proof.
  intros GP Sp GL [_ I2] Hd Hw HX. set (s := p_sigma (ps_p P)) in *. assert (WF : well_formed n (p :: nil)) by (apply (proj1 GL); reflexivity). destruct (WF p (or_introl eq_refl)) as [_ [_ Dk]].
  set (F := lin_F d X (entries w)). set (z := z_of s F p). set (q := fun a => dz s p (fun i => X i a)).
  unfold lin_step, lin_derivatives. fold F. assert (E : derivatives sp P (only (p :: nil)) F = Ok (fun i j => 0 + calc_W s (p :: nil) F i j, fun i => 0 + derv_log_likelyhood s (p :: nil) F i, Some (0 + log_likelihood s (p :: nil) F))) by reflexivity.
  rewrite E. cbn [bind fst snd]. set (H := fun a b : nat => - _). set (g := fun a : nat => _).
  assert (EH : forall a b, H a b = - (paren z * q a * q b)).
  { intros a b. unfold H. f_equal. change (lin_mat n X (fun i j => 0 + calc_W s (p :: nil) F i j) a b = paren z * q a * q b). rewrite lin_mat_cols, (bform_ext n _ (calc_W s (p :: nil) F)) by (intros; ring). rewrite W_bform by auto. cbn [map rsum]. unfold q, z. ring. }
  assert (Eg : forall a, g a = pdf_cdf_ratio z * q a).
  { intro a. unfold g. rewrite sum_to_sumn. rewrite (sumn_ext n _ (fun i => derv_log_likelyhood s (p :: nil) F i * X i a)) by (intros; ring). change (dotn n (derv_log_likelyhood s (p :: nil) F) (fun i => X i a) = pdf_cdf_ratio z * q a). rewrite derv_dot by auto. unfold dLLp. cbn [map rsum]. unfold q, z. ring. }
  assert (EI : inv d H = None).
  { destruct (inv d H) as [C|] eqn:EC; auto. exfalso. apply (rank1_singular d (paren z) q C Hd). apply I2 in EC. intros i j Hi Hj. rewrite <- (EC i j Hi Hj). apply sumn_ext. intros. now rewrite EH. }
  unfold descent. rewrite EI. destruct (newton_binary w (map g (seq 0 d)) (objective (lin_loss sp P (only (p :: nil)) n d X)) 5) as [lam [Hl EL]]. rewrite EL, step_from_map by auto. eexists. split; [reflexivity|]. split; [now rewrite map_length, seq_length|].
  unfold agreement. set (c := fun a => X (v_of p) a - X (u_of p) a).
  assert (Q : forall a, q a = isqrt2sig s * dk_of p * c a) by (intro a; unfold q, dz, c; ring).
  rewrite (sumn_ext d _ (fun a => c a * nth a w 0 - lam * pdf_cdf_ratio z * isqrt2sig s * dk_of p * (c a * c a))).
  - rewrite sumn_minus, sumn_scale. fold (c). change (fun a : nat => (X (v_of p) a - X (u_of p) a) * nth a w 0) with (fun a : nat => c a * nth a w 0).
    assert (Cp : 0 < sumn d (fun a => c a * c a)).
    { destruct HX as [a [Ha Na]]. apply Rlt_le_trans with (c a * c a); [apply Rsqr_pos_lt; unfold c; lra|].
      apply Rle_trans with (sumn d (fun i => if Nat.eqb i a then c a * c a else 0)).
      - rewrite (sumn_single d _ a Ha); [rewrite Nat.eqb_refl; lra|]. intros i _ Ni. now rewrite (proj2 (Nat.eqb_neq i a) Ni).
      - apply sumn_le. intros i Hi. destruct (Nat.eqb_spec i a) as [-> |]; [lra|apply Rle_0_sqr]. }
    assert (Rp := ratio_pos z). assert (Ip := isqrt_pos s Sp). assert (0 < lam * pdf_cdf_ratio z * isqrt2sig s * sumn d (fun a => c a * c a)) by (apply Rmult_lt_0_compat; auto; apply Rmult_lt_0_compat; auto; apply Rmult_lt_0_compat; lra).
    destruct Dk as [-> | ->]; lra.
  - intros a Ha. rewrite nth_map_seq by auto. unfold entries. fold (c a). rewrite Eg, Q. ring.
Qed.
Lemma loop_lowers {V} (upd : nat -> V -> result V) far (inv : V -> Prop) (m : V -> R) maxloops :
  (forall k w, inv w -> exists w', upd k w = Ok w' /\ inv w' /\ m w' < m w) ->
  forall fuel k go w, (maxloops < k + fuel)%nat -> (k <= maxloops)%nat -> inv w ->
  exists k' w', linear_loop upd far maxloops fuel k go w = Ok (k', w') /\ inv w' /\ m w' <= m w /\ (go = true -> (k < maxloops)%nat -> m w' < m w).
Proof.
  intros HU. induction fuel as [|fuel IH]; intros k go w Hk Hm Hw; [lia|]. cbn [linear_loop]. destruct (go && Nat.ltb k maxloops)%bool eqn:E.
  - apply andb_prop in E. destruct E as [-> E]. apply Nat.ltb_lt in E. destruct (HU k w Hw) as [w1 [E1 [I1 M1]]]. rewrite E1. cbn [bind].
    destruct (IH (S k) (far w1 w) w1 ltac:(lia) ltac:(lia) I1) as [k' [w' [E2 [I2 [M2 _]]]]]. exists k', w'. repeat split; auto; intros; lra.
  - exists k, w. repeat split; auto; [lra|]. intros -> Hl. apply Nat.ltb_lt in Hl. rewrite Hl in E. discriminate.
Qed.
Lemma single_fit sp P n d p X inv far w0 maxloops : good_probits sp P -> 0 < p_sigma (ps_p P) -> good_labels P n (only (p :: nil)) -> inverse_routine inv -> (2 <= d)%nat -> length w0 = d ->
  (exists a, (a < d)%nat /\ X (v_of p) a <> X (u_of p) a) -> (1 <= maxloops)%nat ->
  exists k w, lin_optimize sp P (only (p :: nil)) n d X inv far w0 maxloops (S maxloops) = Ok (k, w) /\ agreement d X p w < agreement d X p w0.
Proof.
  intros GP Sp GL HI Hd Hw HX Hm. unfold lin_optimize, linear_optimize.
  destruct (loop_lowers (fun _ => lin_step sp P (only (p :: nil)) n d X inv) far (fun w => length w = d) (agreement d X p) maxloops) with (fuel := S maxloops) (k := 0%nat) (go := true) (w := w0) as [k [w [E [_ [_ M]]]]]; try lia; auto.
  - intros k w Hl. destruct (single_step sp P n d p X inv w GP Sp GL HI Hd Hl HX) as [w' [E [L M]]]. eauto.
  - exists k, w. split; auto.
Qed.

(** ---- the objective of the linear model ---- *)
Lemma lin_LLp sp P r F : LL sp P (only r) F = LLp (p_sigma (ps_p P)) r F.
Proof. unfold LL, part, only. cbn. ring. Qed.
Lemma lin_max sp P n d r X w v : good_probits sp P -> good_labels P n (only r) -> ordinary P (only r) (lin_F d X w) ->
  (forall e, has_direction (fun v => LL sp P (only r) (lin_F d X v)) w e 0) -> LL sp P (only r) (lin_F d X v) <= LL sp P (only r) (lin_F d X w).
Proof.
  intros GP GL O Z. destruct (rel_facts sp P n r _ GP GL O) as [S [WF U]]. set (e := fun a => v a - w a). assert (D := Z e).
  assert (D2 := lin_direction _ d X w e _ (LLp_direction (p_sigma (ps_p P)) r (lin_F d X w) (lin_F d X e) S U)).
  assert (D3 : has_direction (fun v => LL sp P (only r) (lin_F d X v)) w e (dLLp (p_sigma (ps_p P)) r (lin_F d X w) (lin_F d X e))) by (eapply dir_ext; [|exact D2]; intro G; cbn; now rewrite lin_LLp).
  assert (E0 : dLLp (p_sigma (ps_p P)) r (lin_F d X w) (lin_F d X e) = 0) by (rewrite <- (is_derive_unique _ _ _ D3); apply (is_derive_unique _ _ _ D)).
  rewrite !lin_LLp. assert (T := LLp_tangent (p_sigma (ps_p P)) r (lin_F d X w) (lin_F d X v) (dLLp (p_sigma (ps_p P)) r (lin_F d X w) (lin_F d X e)) S).
  assert (EE : (fun i => lin_F d X v i - lin_F d X w i) = lin_F d X e). { apply FunctionalExtensionality.functional_extensionality. intro i. unfold lin_F, e. rewrite !sum_to_sumn, <- sumn_minus. apply sumn_ext. intros; ring. }
  rewrite EE in T. specialize (T (LLp_direction (p_sigma (ps_p P)) r (lin_F d X w) (lin_F d X e) S U)). lra.
Qed.
Lemma log_ndtr_lt x y : x < y -> log_ndtr x < log_ndtr y.
Proof. intro H. apply ln_increasing; [apply ndtr_range|now apply ndtr_increasing]. Qed.
Lemma separable_raises sp P d r X w c t : 0 < p_sigma (ps_p P) -> r <> nil -> (forall p, In p r -> 0 < agreement d X p c) -> 0 < t ->
  LL sp P (only r) (lin_F d X (entries w)) < LL sp P (only r) (lin_F d X (along (entries w) (entries c) t)).
Proof.
  intros Sp Ne HA Ht. rewrite !lin_LLp, lin_along, !LLp_z by lra. assert (I := isqrt_pos _ Sp).
  assert (Zp : forall p, In p r -> log_ndtr (z_of (p_sigma (ps_p P)) (lin_F d X (entries w)) p) < log_ndtr (z_of (p_sigma (ps_p P)) (along (lin_F d X (entries w)) (lin_F d X (entries c)) t) p)).
  { intros p Hp. apply log_ndtr_lt. rewrite z_along, dz_lin. specialize (HA p Hp). unfold agreement in HA. change (fun a => (X (v_of p) a - X (u_of p) a) * nth a c 0) with (fun a => (X (v_of p) a - X (u_of p) a) * entries c a) in HA.
    rewrite Rmult_assoc. assert (0 < t * (isqrt2sig (p_sigma (ps_p P)) * (dk_of p * sumn d (fun a => (X (v_of p) a - X (u_of p) a) * entries c a)))) by (apply Rmult_lt_0_compat; auto; now apply Rmult_lt_0_compat). lra. }
  clear HA. assert (G : forall l, (forall p, In p l -> In p r) -> rsum (map (fun p => log_ndtr (z_of (p_sigma (ps_p P)) (lin_F d X (entries w)) p)) l) <= rsum (map (fun p => log_ndtr (z_of (p_sigma (ps_p P)) (along (lin_F d X (entries w)) (lin_F d X (entries c)) t) p)) l)).
  { induction l as [|p l IH]; intro Hl; cbn [map rsum]; [lra|]. assert (A := Zp p (Hl p (or_introl eq_refl))). assert (B := IH (fun q Hq => Hl q (or_intror Hq))). lra. }
  destruct r as [|p r]; [congruence|]. cbn [map rsum]. assert (A := Zp p (or_introl eq_refl)). assert (B := G r (fun q Hq => or_intror Hq)). lra.
Qed.
Lemma separable_no_mode sp P n d r X w c : good_probits sp P -> good_labels P n (only r) -> 0 < p_sigma (ps_p P) -> r <> nil -> (forall p, In p r -> 0 < agreement d X p c) ->
  ordinary P (only r) (lin_F d X (entries w)) -> ~ forall e, has_direction (fun v => LL sp P (only r) (lin_F d X v)) (entries w) e 0.
Proof.
  intros GP GL Sp Ne HA O Z. assert (A := separable_raises sp P d r X w c 1 Sp Ne HA ltac:(lra)). assert (B := lin_max sp P n d r X (entries w) (along (entries w) (entries c) 1) GP GL O Z). lra.
Qed.
(** ---- a routine ---- *)
Definition safe_inv (n : nat) (A : nat -> nat -> R) : option (nat -> nat -> R) := match chol n (outer n A) with Some _ => Some (gram_inv n A) | None => None end.
Lemma safe_sound n A C : safe_inv n A = Some C -> right_inverse n A C.
Proof.
  unfold safe_inv. destruct (chol n (outer n A)) as [L|] eqn:EL; [|discriminate]. injection 1 as <-. assert (SO : symmetric n (outer n A)) by (intros i j _ _; unfold outer; apply sumn_ext; intros; ring).
  intros i j Hi Hj. unfold gram_inv. rewrite EL. rewrite <- (cho_solve_spec n _ L (unitv j) SO EL i Hi : _ = if Nat.eqb i j then 1 else 0). unfold outer.
  transitivity (sumn n (fun a => sumn n (fun b => A i a * A b a * cho_solve n L (unitv j) b))).
  - apply sumn_ext. intros a _. rewrite <- sumn_scale. apply sumn_ext. intros; ring.
  - rewrite sumn_swap. apply sumn_ext. intros b _. now rewrite sumn_scale_r.
Qed.
Lemma safe_routine : inverse_routine safe_inv.
Proof.
  split; [|exact safe_sound]. intros n A B HB. assert (SO : symmetric n (outer n A)) by (intros i j _ _; unfold outer; apply sumn_ext; intros; ring).
  destruct (chol_complete n _ SO (outer_pd n A B HB)) as [L EL]. exists (gram_inv n A). assert (E : safe_inv n A = Some (gram_inv n A)) by (unfold safe_inv; now rewrite EL). split; auto. now apply safe_sound.
Qed.
Lemma lin_unique sp P n d r X w v : good_probits sp P -> good_labels P n (only r) -> ordinary P (only r) (lin_F d X w) -> ordinary P (only r) (lin_F d X v) -> spanning d r X ->
  (forall e, has_direction (fun v => LL sp P (only r) (lin_F d X v)) w e 0) -> (forall e, has_direction (fun v => LL sp P (only r) (lin_F d X v)) v e 0) -> forall a, (a < d)%nat -> w a = v a.
Proof.
  intros GP GL OW OV SP ZW ZV a Ha. destruct (rel_facts sp P n r _ GP GL OW) as [S [WF UW]]. destruct (rel_facts sp P n r _ GP GL OV) as [_ [_ UV]]. set (s := p_sigma (ps_p P)) in *.
  set (e := fun a => v a - w a). destruct (zero_or_not d e) as [K|K]; [|specialize (K a Ha); unfold e in K; lra]. exfalso.
  assert (D0 : forall u, unclipped s r (lin_F d X u) -> (forall e, has_direction (fun v => LL sp P (only r) (lin_F d X v)) u e 0) -> dLLp s r (lin_F d X u) (lin_F d X e) = 0).
  { intros u U Z. assert (D2 := lin_direction _ d X u e _ (LLp_direction s r (lin_F d X u) (lin_F d X e) S U)).
    assert (D3 : has_direction (fun v => LL sp P (only r) (lin_F d X v)) u e (dLLp s r (lin_F d X u) (lin_F d X e))) by (eapply dir_ext; [|exact D2]; intro G; cbn; now rewrite lin_LLp).
    rewrite <- (is_derive_unique _ _ _ D3). apply (is_derive_unique _ _ _ (Z e)). }
  assert (E1 := D0 w UW ZW). assert (E2 := D0 v UV ZV). clear D0 ZW ZV. unfold dLLp in *. assert (CW := z_clip _ _ _ S UW). assert (CV := z_clip _ _ _ S UV).
  assert (T : 0 < rsum (map (fun p => (pdf_cdf_ratio (z_of s (lin_F d X w) p) - pdf_cdf_ratio (z_of s (lin_F d X v) p)) * dz s p (lin_F d X e)) r)).
  { assert (EZ : forall p, z_of s (lin_F d X v) p = z_of s (lin_F d X w) p + dz s p (lin_F d X e)).
    { intro p. rewrite <- (Rmult_1_l (dz s p (lin_F d X e))), <- z_along, <- lin_along. unfold e. now rewrite along_diff. }
    assert (M : forall p, In p r -> dz s p (lin_F d X e) <> 0 -> 0 < (pdf_cdf_ratio (z_of s (lin_F d X w) p) - pdf_cdf_ratio (z_of s (lin_F d X v) p)) * dz s p (lin_F d X e)).
    { intros p Hp N. specialize (CW p Hp). specialize (CV p Hp). rewrite !ratio_id by lra. rewrite EZ in *. destruct (Rtotal_order (dz s p (lin_F d X e)) 0) as [Q|[Q|Q]]; [|contradiction|].
      - assert (Hh := hazard_decreasing (z_of s (lin_F d X w) p + dz s p (lin_F d X e)) (z_of s (lin_F d X w) p) ltac:(lra)). nra.
      - assert (Hh := hazard_decreasing (z_of s (lin_F d X w) p) (z_of s (lin_F d X w) p + dz s p (lin_F d X e)) ltac:(lra)). apply Rmult_lt_0_compat; lra. }
    apply rsum_pos.
    - intros p Hp. destruct (Req_dec (dz s p (lin_F d X e)) 0) as [Z|Z]; [rewrite Z; lra|left; now apply M].
    - destruct (SP e K) as [p [Hp Np]]. exists p. split; auto. apply M; auto. rewrite dz_lin. destruct (WF p Hp) as [_ [_ Dk]]. assert (I := isqrt_nonzero _ S). apply Rmult_integral_contrapositive_currified; auto. apply Rmult_integral_contrapositive_currified; auto. destruct Dk; lra. }
  assert (EQ : rsum (map (fun p => (pdf_cdf_ratio (z_of s (lin_F d X w) p) - pdf_cdf_ratio (z_of s (lin_F d X v) p)) * dz s p (lin_F d X e)) r) =
     rsum (map (fun p => pdf_cdf_ratio (z_of s (lin_F d X w) p) * dz s p (lin_F d X e)) r) - rsum (map (fun p => pdf_cdf_ratio (z_of s (lin_F d X v) p) * dz s p (lin_F d X e)) r)).
  { clear. induction r as [|p r IH]; cbn [map rsum]; [ring|]. rewrite IH. ring. }
  rewrite EQ in T. lra.
Qed.
Lemma lin_dominance d X u i j : (forall a, (a < d)%nat -> 0 <= u a) -> (forall a, (a < d)%nat -> X i a <= X j a) -> lin_F d X u i <= lin_F d X u j.
Proof. intros U H. unfold lin_F. rewrite !sum_to_sumn. apply sumn_le. intros a Ha. specialize (U a Ha). specialize (H a Ha). nra. Qed.
Lemma lin_dominance_strict d X u i j : (forall a, (a < d)%nat -> 0 < u a) -> (forall a, (a < d)%nat -> X i a <= X j a) -> (exists a, (a < d)%nat /\ X i a < X j a) -> lin_F d X u i < lin_F d X u j.
Proof.
  intros U H [a [Ha L]]. unfold lin_F. rewrite !sum_to_sumn. assert (T : sumn d (fun b => if Nat.eqb b a then (X j a - X i a) * u a else 0) <= sumn d (fun b => X j b * u b - X i b * u b)).
  { apply sumn_le. intros b Hb. specialize (U b Hb). specialize (H b Hb). destruct (Nat.eqb_spec b a) as [-> |]; nra. }
  rewrite (sumn_single d _ a Ha), Nat.eqb_refl in T by (intros b _ Nb; now rewrite (proj2 (Nat.eqb_neq b a) Nb)). rewrite sumn_minus in T. specialize (U a Ha). assert (0 < (X j a - X i a) * u a) by (apply Rmult_lt_0_compat; lra). lra.
Qed.
Lemma agreement_agrees n d X p w : well_formed n (p :: nil) -> (0 < agreement d X p w <-> agrees (lin_F d X (entries w)) p).
Proof.
  intro WF. destruct (WF p (or_introl eq_refl)) as [_ [_ Dk]]. unfold agreement, agrees, lin_F, entries. rewrite !sum_to_sumn.
  assert (E : sumn d (fun a => (X (v_of p) a - X (u_of p) a) * nth a w 0) = sumn d (fun a => X (v_of p) a * nth a w 0) - sumn d (fun a => X (u_of p) a * nth a w 0)) by (rewrite <- sumn_minus; apply sumn_ext; intros; ring).
  rewrite E. destruct Dk as [-> | ->]; split; intro H.
  - left. lra.
  - destruct H as [[_ H]|[H _]]; lra.
  - right. lra.
  - destruct H as [[H _]|[_ H]]; lra.
Qed.
