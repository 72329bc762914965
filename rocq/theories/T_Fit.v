(** Properties C108-C114: the objective of the preference models and its maximisation *)
From Coquelicot Require Import Coquelicot.
From Coq Require Import Reals Lra Lia List.
From Verif Require Import M_RBase M_Normal M_PrefProbit M_OrdProbit M_AbsProbit M_Acq M_GP M_Search M_Fit S_PrefProbit S_OrdProbit S_AbsProbit S_GP S_Fit P_RBase P_Normal P_AbsProbit P_Chol P_GP P_GP3 P_Fit P_Fit2 P_Fit3 P_Fit4 P_Fit5 P_LinOrd.
From Verif Require Import S_Psd P_Psd.
Local Open Scope R_scope.

(** example data: two points, one comparison, one ordinal label, one rating; covariance [[2, 1], [1, 2]] *)
Definition ex_P : probit_set := mkProbits (mkPref 1 true) (mkOrd 2 1 (0 :: nil)) (mkAbs 1 80 true true) (1 / 10).
Definition ex_y : labels := mkLabels (Some ((1%Z, 0%nat, 1%nat) :: nil)) (Some ((2%nat, 1%nat) :: nil)) (Some ((1 / 4, 0%nat) :: nil)).
Definition ex_K (i j : nat) : R := match i, j with O, O => 2 | O, _ => 1 | _, O => 1 | _, _ => 2 end.
Lemma ex_good : good_probits sp_ex ex_P.
Proof. repeat split; cbn; try lra; apply sp_ex_facts; lra. Qed.
Lemma ex_sigma : 0 < p_sigma (ps_p ex_P).
Proof. cbn. lra. Qed.
Lemma ex_labels : good_labels ex_P 2 ex_y.
Proof.
  repeat split.
  1-3: injection H as <-; destruct H0 as [<- |[]]; cbn; try lia; now left.
  - injection H as <-. constructor; [intros []|constructor].
  - injection H as <-. destruct H0 as [<- |[]]. cbn. lia.
  - injection H as <-. destruct H0 as [<- |[]]. cbn. lia.
  - intros p Hp. injection H as <-. destruct Hp as [<- |[]]. cbn. lia.
  - injection H as <-. constructor; [intros []|constructor].
  - intros p Hp. injection H as <-. destruct Hp as [<- |[]]. cbn. lia.
Qed.
Lemma zero_unclipped s r : unclipped s r (fun _ => 0).
Proof. intros p _. replace (dk_of p * (0 - 0) / (s * sqrt 2)) with 0 by (unfold Rdiv; ring). lra. Qed.
Lemma ex_ordinary : ordinary ex_P ex_y (fun _ => 0).
Proof.
  split; [|split].
  - intros r _. apply zero_unclipped.
  - intros o H. injection H as <-. intros p [<- |[]]. cbn [fst snd ex_P ps_o ps_eps o_n o_sigma o_b]. split.
    + unfold label_unclipped. cbn. split; intros; try lia. lra.
    + unfold label_prob, cumulative. cbn. replace ((0 - 0) / 1) with 0 by field. rewrite ndtr_0. lra.
  - intros a _ p _. apply free_0. cbn. lra.
Qed.
Lemma ex_sym : symmetric 2 ex_K.
Proof. intros [|[|i]] [|[|j]] Hi Hj; try lia; reflexivity. Qed.
Lemma ex_chol : exists L B, chol 2 ex_K = Some L /\ right_inverse 2 ex_K B.
Proof.
  assert (E : pd 2 ex_K) by (apply pd_two; [reflexivity|lra|lra]). destruct (chol_complete 2 ex_K ex_sym E) as [L EL]. exists L, (k_inv 2 L). split; auto. apply k_inv_inverse; auto. exact ex_sym.
Qed.

(** C108: what find_mode maximises and with which derivatives *)
Theorem C108_value : forall sp P n y K L B, good_probits sp P -> good_labels P n y -> symmetric n K -> chol n K = Some L -> right_inverse n K B ->
  exists c, forall F, ordinary P y F -> likli_f sp P y n L F = Ok (Some (log_post sp P y n B F - c)).
Proof. exact likli_value. Qed.
Print Assumptions C108_value.
Theorem C108_gradient : forall sp P n y K L B F, good_probits sp P -> good_labels P n y -> ordinary P y F -> symmetric n K -> chol n K = Some L -> right_inverse n K B ->
  exists W g, derivatives sp P y F = Ok (W, g, Some (LL sp P y F)) /\ forall e, has_direction (log_post sp P y n B) F e (dotn n (mode_gradient n L g F) e).
Proof. exact mode_gradient_right. Qed.
Print Assumptions C108_gradient.
(** without ordinal labels *)
Theorem C108_hessian_partial : forall sp P n y K L B F, good_probits sp P -> good_labels P n y -> ordinary P y F -> y_ord y = None -> symmetric n K -> chol n K = Some L -> right_inverse n K B ->
  exists W g v, derivatives sp P y F = Ok (W, g, v) /\ forall e e', has_direction (direction (log_post sp P y n B) e) F e' (bform n (mode_hess n L W) e e').
Proof. exact mode_hess_right. Qed.
Print Assumptions C108_hessian_partial.
Theorem C108_hessian_refuted : forall sp P s k L, 0 < s -> 7 * s ^ 2 <= k -> ps_o P = mkOrd 2 s (0 :: nil) -> 0 < ps_eps P <= 1 / 2 -> chol 1 (fun _ _ => k) = Some L ->
  exists W g p, derivatives sp P (ord_only ((2%nat, 0%nat) :: nil)) (fun _ => 0) = Ok (W, g, p) /\
    ~ has_direction (direction (log_post sp P (ord_only ((2%nat, 0%nat) :: nil)) 1 (fun _ _ => 1 / k)) (fun _ => 1)) (fun _ => 0) (fun _ => 1) (bform 1 (mode_hess 1 L W) (fun _ => 1) (fun _ => 1)).
Proof. exact bo_hess_wrong. Qed.
Print Assumptions C108_hessian_refuted.
Example C108_ex : exists L B W g, right_inverse 2 ex_K B /\ derivatives sp_ex ex_P ex_y (fun _ => 0) = Ok (W, g, Some (LL sp_ex ex_P ex_y (fun _ => 0))) /\
  has_direction (log_post sp_ex ex_P ex_y 2 B) (fun _ => 0) (fun _ => 1) (dotn 2 (mode_gradient 2 L g (fun _ => 0)) (fun _ => 1)).
Proof.
  destruct ex_chol as [L [B [EL EB]]]. destruct (C108_gradient sp_ex ex_P 2 ex_y ex_K L B (fun _ => 0) ex_good ex_labels ex_ordinary ex_sym EL EB) as [W [g [E D]]]. exists L, B, W, g. auto.
Qed.
Lemma chol_one k : 0 < k -> exists L, chol 1 (fun _ _ => k) = Some L.
Proof. intro H. cbn [chol]. assert (E : Rltb 0 k = true) by (now apply Rltb_true). rewrite E. eauto. Qed.
Example C108_refuted_ex : exists L, chol 1 (fun _ _ => 7) = Some L /\ ps_o ex_P = mkOrd 2 1 (0 :: nil) /\ 7 * 1 ^ 2 <= 7.
Proof. destruct (chol_one 7 ltac:(lra)) as [L E]. exists L. split; auto. split; [reflexivity|lra]. Qed.

(** C109: an update of find_mode with comparisons goes uphill, or stands still at a stationary point *)
Theorem C109_ascent_partial : forall sp P n r K L B inv, good_probits sp P -> good_labels P n (only r) -> symmetric n K -> chol n K = Some L -> right_inverse n K B -> inverts_all inv ->
  forall F, length F = n -> ordinary P (only r) (entries F) -> exists e lam, 0 < lam < 15 / 10 /\
    mode_step sp P (only r) n L inv F = Ok (map (along (entries F) e lam) (seq 0 n)) /\
    ((exists l d, has_direction (log_post sp P (only r) n B) (entries F) e l /\ 0 < l /\ 0 < d /\ forall t, 0 < t < d -> log_post sp P (only r) n B (entries F) < log_post sp P (only r) n B (along (entries F) e t)) \/
     ((forall e', has_direction (log_post sp P (only r) n B) (entries F) e' 0) /\ mode_step sp P (only r) n L inv F = Ok F)).
Proof. exact step_ascent. Qed.
Print Assumptions C109_ascent_partial.
Theorem C109_fixed_point : forall sp P n r K L B inv, good_probits sp P -> good_labels P n (only r) -> symmetric n K -> chol n K = Some L -> right_inverse n K B -> inverts_all inv ->
  forall F, length F = n -> ordinary P (only r) (entries F) ->
  (mode_step sp P (only r) n L inv F = Ok F <-> forall e, has_direction (log_post sp P (only r) n B) (entries F) e 0).
Proof. exact step_fixed. Qed.
Print Assumptions C109_fixed_point.
(** one ordinal label and a wide prior: the update moves away from the label and lowers the objective *)
Theorem C109_ordinal_refuted : forall sp P s k L inv, 0 < s -> 7 * s ^ 2 <= k -> ps_o P = mkOrd 2 s (0 :: nil) -> 0 < ps_eps P <= 1 / 2 -> chol 1 (fun _ _ => k) = Some L -> inverts_all inv ->
  exists f, mode_step sp P (ord_only ((2%nat, 0%nat) :: nil)) 1 L inv (0 :: nil) = Ok (f :: nil) /\ f < 0 /\
    log_post sp P (ord_only ((2%nat, 0%nat) :: nil)) 1 (fun _ _ => 1 / k) (entries (f :: nil)) < log_post sp P (ord_only ((2%nat, 0%nat) :: nil)) 1 (fun _ _ => 1 / k) (entries (0 :: nil)).
Proof. exact ord_step_wrong. Qed.
Print Assumptions C109_ordinal_refuted.
Definition ex_r : list pair := (1%Z, 0%nat, 1%nat) :: nil.
Lemma ex_only : good_labels ex_P 2 (only ex_r).
Proof.
  split; [|split]; try (intros o H; discriminate H). intros r H. injection H as <-. intros p [<- |[]]. cbn. split; [lia|]. split; [lia|now left].
Qed.
Lemma ex_entries : entries (0 :: 0 :: nil) = fun _ => 0.
Proof. apply FunctionalExtensionality.functional_extensionality. intros [|[|[|i]]]; reflexivity. Qed.
Lemma only_ordinary P r F : unclipped (p_sigma (ps_p P)) r F -> ordinary P (only r) F.
Proof. intro U. split; [|split]; try (intros o H; discriminate H). intros r' H. injection H as <-. exact U. Qed.
Example C109_ex : exists L F', chol 2 ex_K = Some L /\ mode_step sp_ex ex_P (only ex_r) 2 L safe_inv (0 :: 0 :: nil) = Ok F' /\ length F' = 2%nat.
Proof.
  destruct ex_chol as [L [B [EL EB]]]. destruct (C109_ascent_partial sp_ex ex_P 2 ex_r ex_K L B safe_inv ex_good ex_only ex_sym EL EB (proj1 safe_routine) (0 :: 0 :: nil) eq_refl) as [e [lam [_ [E _]]]].
  - rewrite ex_entries. apply only_ordinary, zero_unclipped.
  - exists L. eexists. split; [exact EL|]. split; [exact E|reflexivity].
Qed.
Example C109_refuted_ex : exists L f, chol 1 (fun _ _ => 9) = Some L /\ mode_step sp_ex ex_P (ord_only ((2%nat, 0%nat) :: nil)) 1 L safe_inv (0 :: nil) = Ok (f :: nil) /\ f < 0.
Proof.
  destruct (chol_one 9 ltac:(lra)) as [L E]. destruct (C109_ordinal_refuted sp_ex ex_P 1 9 L safe_inv ltac:(lra) ltac:(lra) eq_refl ltac:(cbn; lra) E (proj1 safe_routine)) as [f [A [B _]]]. exists L, f. auto.
Qed.

(** C110: with comparisons only, a point where find_mode stands still is the global maximum of the log posterior *)
Theorem C110_mode : forall sp P n r B F G, good_probits sp P -> good_labels P n (only r) -> ordinary P (only r) F -> symmetric n B ->
  (forall e, has_direction (log_post sp P (only r) n B) F e 0) ->
  log_post sp P (only r) n B G <= log_post sp P (only r) n B F - 1 / 2 * qform n B (fun i => G i - F i).
Proof. exact mode_max. Qed.
Print Assumptions C110_mode.
Theorem C110_unique : forall sp P n r B F G, good_probits sp P -> good_labels P n (only r) -> ordinary P (only r) F -> ordinary P (only r) G -> symmetric n B -> pd n B ->
  (forall e, has_direction (log_post sp P (only r) n B) F e 0) -> (forall e, has_direction (log_post sp P (only r) n B) G e 0) -> forall i, (i < n)%nat -> F i = G i.
Proof. exact mode_unique. Qed.
Print Assumptions C110_unique.
(** two opposite comparisons: the zero vector is stationary *)
Definition ex_opp : list pair := (1%Z, 0%nat, 1%nat) :: (-1, 0%nat, 1%nat)%Z :: nil.
Lemma ex_opp_good : good_labels ex_P 2 (only ex_opp).
Proof. split; [|split]; try (intros o H; discriminate H). intros r' H. injection H as <-. intros p [<- |[<- |[]]]; cbn; (split; [lia|]); (split; [lia|]); [now left|now right]. Qed.
Lemma ex_opp_slope e : dLLp 1 ex_opp (fun _ => 0) e = 0.
Proof.
  unfold dLLp, ex_opp. cbn [map rsum]. assert (Z : forall p, z_of 1 (fun _ => 0) p = 0) by (intro p; unfold z_of; ring). rewrite !Z. unfold dz, dk_of, u_of, v_of. cbn [fst snd]. ring.
Qed.
Example C110_ex : good_probits sp_ex ex_P /\ good_labels ex_P 2 (only ex_opp) /\ ordinary ex_P (only ex_opp) (fun _ => 0) /\
  forall B, symmetric 2 B -> forall e, has_direction (log_post sp_ex ex_P (only ex_opp) 2 B) (fun _ => 0) e 0.
Proof.
  split; [exact ex_good|]. split; [exact ex_opp_good|]. split; [apply only_ordinary, zero_unclipped|]. intros B BS e.
  assert (D := dir_minus _ _ _ _ _ _ (LLp_direction 1 ex_opp (fun _ => 0) e ltac:(lra) (zero_unclipped 1 ex_opp)) (qform_direction 2 B (fun _ => 0) e BS)). rewrite ex_opp_slope in D.
  assert (E : 0 - bform 2 B e (fun _ => 0) = 0) by (unfold bform; cbn; ring). rewrite E in D. apply (dir_ext _ _ _ _ _ (fun G => eq_sym (f_equal (fun z => z - 1 / 2 * qform 2 B G) (lin_LLp sp_ex ex_P ex_opp G))) D).
Qed.

(** C111: the linear model *)
Theorem C111_gradient : forall sp P n d y X w, good_probits sp P -> good_labels P n y -> ordinary P y (lin_F d X w) -> exists W g,
  lin_derivatives sp P y n d X w = Ok (W, g, Some (LL sp P y (lin_F d X w))) /\
  (forall e, has_direction (fun v => LL sp P y (lin_F d X v)) w e (dotn d g e)) /\ lin_loss sp P y n d X w = Ok (Some (LL sp P y (lin_F d X w))).
Proof. exact lin_total. Qed.
Print Assumptions C111_gradient.
Theorem C111_hessian_partial : forall sp P n d y X w, good_probits sp P -> good_labels P n y -> ordinary P y (lin_F d X w) -> y_ord y = None -> exists W g v,
  lin_derivatives sp P y n d X w = Ok (W, g, v) /\ forall e e', has_direction (direction (fun v => LL sp P y (lin_F d X v)) e) w e' (- bform d W e e').
Proof. exact lin_second. Qed.
Print Assumptions C111_hessian_partial.
Theorem C111_ordinal_refuted : forall sp P s, 0 < s -> ps_o P = mkOrd 2 s (0 :: nil) -> 0 < ps_eps P <= 1 / 2 -> exists W g p,
  lin_derivatives sp P (ord_only ((2%nat, 0%nat) :: nil)) 1 1 (fun _ _ => 1) (fun _ => 0) = Ok (W, g, p) /\ W 0%nat 0%nat < 0 /\
  ~ has_direction (direction (fun v => LL sp P (ord_only ((2%nat, 0%nat) :: nil)) (lin_F 1 (fun _ _ => 1) v)) (fun _ => 1)) (fun _ => 0) (fun _ => 1) (- bform 1 W (fun _ => 1) (fun _ => 1)).
Proof. exact lin_ord_wrong. Qed.
Print Assumptions C111_ordinal_refuted.
Theorem C111_psd : forall sp P n d r X w, good_probits sp P -> good_labels P n (only r) -> ordinary P (only r) (lin_F d X w) -> exists W g v,
  lin_derivatives sp P (only r) n d X w = Ok (W, g, v) /\ symmetric d W /\ psd d W /\ (spanning d r X -> pd d W).
Proof. exact lin_rel. Qed.
Print Assumptions C111_psd.
Definition ex_X (i a : nat) : R := match i, a with O, O => 1 | S O, S O => 2 | _, _ => 0 end.
Lemma ex_lin0 : lin_F 2 ex_X (fun _ => 0) = fun _ => 0.
Proof. apply FunctionalExtensionality.functional_extensionality. intro i. unfold lin_F. rewrite P_Acq.sum_to_sumn. apply sumn_zero. intros; ring. Qed.
Example C111_ex : exists W g, lin_derivatives sp_ex ex_P ex_y 2 2 ex_X (fun _ => 0) = Ok (W, g, Some (LL sp_ex ex_P ex_y (lin_F 2 ex_X (fun _ => 0)))).
Proof.
  destruct (C111_gradient sp_ex ex_P 2 2 ex_y ex_X (fun _ => 0) ex_good ex_labels) as [W [g [E _]]]; [rewrite ex_lin0; exact ex_ordinary|]. exists W, g. exact E.
Qed.

(** C112: an update of the linear model *)
Theorem C112_ascent_partial : forall sp P n d r X inv, good_probits sp P -> good_labels P n (only r) -> inverts_all inv -> spanning d r X ->
  forall w, length w = d -> ordinary P (only r) (lin_F d X (entries w)) -> exists e lam, 0 < lam < 15 / 10 /\
    lin_step sp P (only r) n d X inv w = Ok (map (along (entries w) e lam) (seq 0 d)) /\
    ((exists l dd, has_direction (fun v => LL sp P (only r) (lin_F d X v)) (entries w) e l /\ 0 < l /\ 0 < dd /\ forall t, 0 < t < dd -> LL sp P (only r) (lin_F d X (entries w)) < LL sp P (only r) (lin_F d X (along (entries w) e t))) \/
     ((forall e', has_direction (fun v => LL sp P (only r) (lin_F d X v)) (entries w) e' 0) /\ lin_step sp P (only r) n d X inv w = Ok w)).
Proof. exact lin_ascent. Qed.
Print Assumptions C112_ascent_partial.
(** a single comparison of two points with at least two features: the Hessian is singular, the fallback direction is the gradient with
    the sign of a Newton step, and the fitted weights agree less with the comparison than the random start *)
Theorem C112_single_refuted : forall sp P n d p X inv far w0 maxloops, good_probits sp P -> 0 < p_sigma (ps_p P) -> good_labels P n (only (p :: nil)) -> inverse_routine inv -> (2 <= d)%nat -> length w0 = d ->
  (exists a, (a < d)%nat /\ X (v_of p) a <> X (u_of p) a) -> (1 <= maxloops)%nat ->
  exists k w, lin_optimize sp P (only (p :: nil)) n d X inv far w0 maxloops (S maxloops) = Ok (k, w) /\ agreement d X p w < agreement d X p w0.
Proof. exact single_fit. Qed.
Print Assumptions C112_single_refuted.
Definition ex_X4 (i a : nat) : R := match i, a with O, O => 1 | S O, S O => 1 | _, _ => 0 end.
Definition ex_r4 : list pair := (1%Z, 0%nat, 2%nat) :: (-1, 1%nat, 2%nat)%Z :: nil.
Example C112_ex : spanning 2 ex_r4 ex_X4 /\ good_labels ex_P 3 (only ex_r4).
Proof.
  split.
  - intros c [[|[|i]] [Hi Hc]]; [exists (1%Z, 0%nat, 2%nat)|exists (-1, 1%nat, 2%nat)%Z|lia]; (split; [cbn; auto|]); cbn; intro H; apply Hc; lra.
  - split; [|split]; try (intros o H; discriminate H). intros r H. injection H as <-. intros p [<- |[<- |[]]]; cbn; (split; [lia|]); (split; [lia|]); [now left|now right].
Qed.
Example C112_refuted_ex : exists k w, lin_optimize sp_ex ex_P (only ex_r) 2 2 ex_X safe_inv (fun _ _ => true) (3 / 5 :: 4 / 5 :: nil) 100 101 = Ok (k, w) /\
  agreement 2 ex_X (1%Z, 0%nat, 1%nat) w < 1.
Proof.
  destruct (C112_single_refuted sp_ex ex_P 2 2 (1%Z, 0%nat, 1%nat) ex_X safe_inv (fun _ _ => true) (3 / 5 :: 4 / 5 :: nil) 100 ex_good ex_sigma ex_only safe_routine ltac:(lia) eq_refl) as [k [w [E A]]]; [exists 0%nat; split; [lia|cbn; lra]|lia|].
  exists k, w. split; [exact E|]. replace 1 with (agreement 2 ex_X (1%Z, 0%nat, 1%nat) (3 / 5 :: 4 / 5 :: nil)); [exact A|]. unfold agreement, dk_of, u_of, v_of. cbn [sumn fst snd nth ex_X]. lra.
Qed.

(** C113: the best weights *)
Theorem C113_best : forall sp P n d r X w v, good_probits sp P -> good_labels P n (only r) -> ordinary P (only r) (lin_F d X w) ->
  (forall e, has_direction (fun v => LL sp P (only r) (lin_F d X v)) w e 0) -> LL sp P (only r) (lin_F d X v) <= LL sp P (only r) (lin_F d X w).
Proof. exact lin_max. Qed.
Print Assumptions C113_best.
Theorem C113_unique : forall sp P n d r X w v, good_probits sp P -> good_labels P n (only r) -> ordinary P (only r) (lin_F d X w) -> ordinary P (only r) (lin_F d X v) -> spanning d r X ->
  (forall e, has_direction (fun v => LL sp P (only r) (lin_F d X v)) w e 0) -> (forall e, has_direction (fun v => LL sp P (only r) (lin_F d X v)) v e 0) -> forall a, (a < d)%nat -> w a = v a.
Proof. exact lin_unique. Qed.
Print Assumptions C113_unique.
(** comparisons that some weights satisfy have no best weights: there is always something better, and no stationary point *)
Theorem C113_separable_refuted : forall sp P n d r X w c, good_probits sp P -> good_labels P n (only r) -> 0 < p_sigma (ps_p P) -> r <> nil -> (forall p, In p r -> 0 < agreement d X p c) ->
  (forall t, 0 < t -> LL sp P (only r) (lin_F d X (entries w)) < LL sp P (only r) (lin_F d X (along (entries w) (entries c) t))) /\
  (ordinary P (only r) (lin_F d X (entries w)) -> ~ forall e, has_direction (fun v => LL sp P (only r) (lin_F d X v)) (entries w) e 0).
Proof. intros. split; [intros; now apply separable_raises|intro; now apply (separable_no_mode sp P n d r X w c)]. Qed.
Print Assumptions C113_separable_refuted.
Example C113_ex : ex_r <> nil /\ forall p, In p ex_r -> 0 < agreement 2 ex_X p (0 :: 1 :: nil).
Proof. split; [discriminate|]. intros p [<- |[]]. unfold agreement, dk_of, u_of, v_of. cbn [sumn fst snd nth ex_X]. lra. Qed.
(** two opposite comparisons: the zero weights are stationary *)
Example C113_best_ex : good_labels ex_P 2 (only ex_opp) /\ ordinary ex_P (only ex_opp) (lin_F 2 ex_X (fun _ => 0)) /\
  forall e, has_direction (fun v => LL sp_ex ex_P (only ex_opp) (lin_F 2 ex_X v)) (fun _ => 0) e 0.
Proof.
  split; [exact ex_opp_good|]. split; [rewrite ex_lin0; apply only_ordinary, zero_unclipped|]. intro e.
  assert (U : unclipped 1 ex_opp (lin_F 2 ex_X (fun _ => 0))) by (rewrite ex_lin0; apply zero_unclipped).
  assert (D := lin_direction _ 2 ex_X (fun _ => 0) e _ (LLp_direction 1 ex_opp (lin_F 2 ex_X (fun _ => 0)) (lin_F 2 ex_X e) ltac:(lra) U)).
  rewrite ex_lin0, ex_opp_slope in D. apply (dir_ext (fun v => LLp 1 ex_opp (lin_F 2 ex_X v))); [intro G; now rewrite lin_LLp|exact D].
Qed.

(** C114: predictions of the linear model *)
Theorem C114_untrained : forall dims d X rand w, (forall a, (a < d)%nat -> 0 <= rand a) ->
  (dims = 1%nat -> lin_predict dims false d X rand w = Raise GenericException) /\
  (dims <> 1%nat -> exists F, lin_predict dims false d X rand w = Ok F /\ forall i j, (forall a, (a < d)%nat -> X i a <= X j a) -> F i <= F j).
Proof.
  intros dims d X rand w H. unfold lin_predict. split; intro E; [now rewrite E|]. rewrite (proj2 (Nat.eqb_neq dims 1) E). eexists. split; [reflexivity|]. intros i j L. now apply lin_dominance.
Qed.
Print Assumptions C114_untrained.
Theorem C114_dominance : forall d X w i j, (forall a, (a < d)%nat -> 0 < w a) -> (forall a, (a < d)%nat -> X i a <= X j a) -> (exists a, (a < d)%nat /\ X i a < X j a) -> lin_F d X w i < lin_F d X w j.
Proof. exact lin_dominance_strict. Qed.
Print Assumptions C114_dominance.
(** the model orders two points like the comparison it agrees with *)
Theorem C114_agreement : forall n d X p w, well_formed n (p :: nil) -> (0 < agreement d X p w <-> agrees (lin_F d X (entries w)) p).
Proof. exact agreement_agrees. Qed.
Print Assumptions C114_agreement.
Example C114_ex : exists F, lin_predict 2 false 2 ex_X (fun a => / INR (S a)) (fun _ => 0) = Ok F /\ F 2%nat <= F 0%nat /\ agreement 2 ex_X (1%Z, 0%nat, 1%nat) (1 :: 1 :: nil) = 1.
Proof.
  destruct (C114_untrained 2 2 ex_X (fun a => / INR (S a)) (fun _ => 0)) as [_ K]; [intros a Ha; left; apply Rinv_0_lt_compat, lt_0_INR; lia|]. destruct (K ltac:(lia)) as [F [E M]]. exists F. split; [exact E|]. split; [apply M; intros [|[|a]] Ha; cbn; lra|]. unfold agreement, dk_of, u_of, v_of. cbn [sumn fst snd nth ex_X]. lra.
Qed.
