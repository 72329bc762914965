(** Answers turned upside down: the mode, ordinal labels, predictions, normalisation. *)
From Coq Require Import FunctionalExtensionality.
From Coquelicot Require Import Coquelicot.
From Coq Require Import Reals Lra Lia List.
From Verif Require Import M_Fake M_RBase M_Base M_Normal M_PrefProbit M_OrdProbit M_AbsProbit M_Acq M_GP M_Search M_Fit M_Mode M_NormMode S_PrefProbit S_OrdProbit S_AbsProbit S_Kernel S_GP S_Fit S_Mode S_Turned P_RBase P_Acq P_Normal P_PrefProbit P_Put P_OrdProbit P_AbsProbit P_Chol P_GP P_GP2 P_GP3 P_Fit P_Fit2 P_Fit3 P_Fit4 P_Fit5 P_Mode P_Mode2 P_Mode3 P_Mode4 P_Mode5 P_NormMode P_Turned.
From Verif Require Import S_Psd P_Psd.
Import ListNotations.
Local Open Scope R_scope.

(** ---- the mode ---- *)
Lemma rating_ll_turned sp v s x f : rating_ll sp v s (1 - x) (- f) = rating_ll sp v s x f.
Proof.
  unfold rating_ll. cbv zeta. assert (E : mean_rating s (- f) = 1 - mean_rating s f).
  { unfold mean_rating. rewrite <- ndtr_sym. f_equal. unfold Rdiv. ring. }
  rewrite E. replace (1 - (1 - x)) with x by ring. replace (1 - (1 - mean_rating s f)) with (mean_rating s f) by ring. ring.
Qed.
Lemma LLa_turned sp v s a F : LLa sp v s (map turned_rating a) (opposite F) = LLa sp v s a F.
Proof. unfold LLa. rewrite map_map. f_equal. apply map_ext. intros p. apply rating_ll_turned. Qed.
Lemma opposite_twice F : opposite (opposite F) = F.
Proof. apply opp_opp. Qed.
Lemma post_turned sp P y n B F : y_ord y = None -> log_post sp P (turned P y) n B (opposite F) = log_post sp P y n B F.
Proof.
  intros NO. unfold log_post, LL, turned. cbn [y_rel y_ord y_abs]. rewrite NO. unfold opposite at 4. rewrite qform_opp. cbn [option_map part].
  destruct (y_rel y) as [r|]; destruct (y_abs y) as [a|]; cbn [option_map part]; rewrite ?LLa_turned; try reflexivity.
  all: rewrite (LLp_contrary _ r (opposite F)); change (fun i => - opposite F i) with (opposite (opposite F)); rewrite opposite_twice; reflexivity.
Qed.
Lemma mode_turned sp P y n B F : y_ord y = None -> (mode sp P (turned P y) n B (opposite F) <-> mode sp P y n B F).
Proof.
  intros NO. split; intros M G.
  - specialize (M (opposite G)). now rewrite !post_turned in M.
  - rewrite post_turned by exact NO. rewrite <- (opposite_twice G), post_turned by exact NO. apply M.
Qed.

(** ---- ordinal labels ---- *)
Lemma breaks_turned b m i : (2 <= m)%nat -> (i < m)%nat -> nth (m - 1 - i) (linspace0 b m) 0 = b - nth i (linspace0 b m) 0.
Proof.
  intros H Hi. rewrite !linspace0_nth by lia. rewrite minus_INR by lia. assert (0 < INR (m - 1)) by (apply lt_0_INR; lia). field. lra.
Qed.
Lemma cumulative_turned n s b k f : (3 <= n)%nat -> 0 < s -> (k <= n)%nat ->
  cumulative n s (linspace0 b (n - 1)) (n - k) (b - f) = 1 - cumulative n s (linspace0 b (n - 1)) k f.
Proof.
  intros Hn Hs Hk. unfold cumulative. destruct (Nat.eqb_spec (n - k) 0) as [E|N].
  - assert (k = n) by lia. subst k. destruct (Nat.eqb_spec n 0); [lia|]. rewrite Nat.ltb_irrefl. ring.
  - destruct (Nat.eqb_spec k 0) as [->|K0].
    + rewrite Nat.sub_0_r, Nat.ltb_irrefl. ring.
    + rewrite (proj2 (Nat.ltb_lt (n - k) n)), (proj2 (Nat.ltb_lt k n)) by lia. rewrite <- ndtr_sym. f_equal.
      replace (n - k - 1)%nat with (n - 1 - 1 - (k - 1))%nat by lia. rewrite breaks_turned by lia. unfold Rdiv. ring.
Qed.
Lemma label_turned n s b k f : (3 <= n)%nat -> 0 < s -> (1 <= k <= n)%nat ->
  label_prob n s (linspace0 b (n - 1)) (n + 1 - k) (b - f) = label_prob n s (linspace0 b (n - 1)) k f.
Proof.
  intros Hn Hs Hk. unfold label_prob. replace (n + 1 - k - 1)%nat with (n - k)%nat by lia. replace (n + 1 - k)%nat with (n - (k - 1))%nat by lia.
  rewrite !cumulative_turned by lia || lra. ring.
Qed.
Lemma label_first n s b f : (3 <= n)%nat -> label_prob n s (linspace0 b (n - 1)) 1 f = ndtr ((0 - f) / s).
Proof.
  intros Hn. unfold label_prob, cumulative. cbn [Nat.sub Nat.eqb]. rewrite (proj2 (Nat.ltb_lt 1 n)) by lia. rewrite linspace0_nth by lia. cbn [INR]. rewrite Rminus_0_r. f_equal. f_equal. unfold Rdiv. ring.
Qed.
Lemma label_last n s b f : (3 <= n)%nat -> label_prob n s (linspace0 b (n - 1)) n f = ndtr ((f - b) / s).
Proof.
  intros Hn. unfold label_prob, cumulative. destruct (Nat.eqb_spec n 0); [lia|]. rewrite Nat.ltb_irrefl. destruct (Nat.eqb_spec (n - 1) 0); [lia|].
  rewrite (proj2 (Nat.ltb_lt (n - 1) n)) by lia. rewrite linspace0_nth by lia. rewrite <- ndtr_sym. f_equal. replace (n - 1 - 1)%nat with (n - 2)%nat by lia.
  assert (0 < INR (n - 2)) by (apply lt_0_INR; lia). replace (INR (n - 2) * b / INR (n - 2)) with b by (field; lra). unfold Rdiv. ring.
Qed.
(** the lowest label at a value is always more likely than the highest label at the opposite value *)
Lemma label_ends n s b f : (3 <= n)%nat -> 0 < s -> 0 < b ->
  label_prob n s (linspace0 b (n - 1)) n (- f) < label_prob n s (linspace0 b (n - 1)) 1 f.
Proof.
  intros Hn Hs Hb. rewrite label_first, label_last by exact Hn. apply ndtr_increasing. unfold Rdiv. apply Rmult_lt_compat_r; [now apply Rinv_0_lt_compat|lra].
Qed.
Section one.
  Variables (sp : special) (P : probit_set) (b : R).
  Hypothesis Hn : (3 <= o_n (ps_o P))%nat.
  Hypothesis Hs : 0 < o_sigma (ps_o P).
  Hypothesis Hb : o_b (ps_o P) = linspace0 b (o_n (ps_o P) - 1).
  Let s := o_sigma (ps_o P).
  Lemma one_post k (c d : R) : (forall f, label_prob (o_n (ps_o P)) s (o_b (ps_o P)) k f = ndtr ((c * f + d) / s)) ->
    forall F, mode sp P (ord_only [(k, 0%nat)]) 1 unit_prior F -> hazard ((c * F 0%nat + d) / s) * (c / s) = F 0%nat.
  Proof.
    intros HL F M. set (e := fun i : nat => if Nat.eqb i 0 then 1 else 0).
    assert (E : forall t, log_post sp P (ord_only [(k, 0%nat)]) 1 unit_prior (along F e t) = log_ndtr ((c * (F 0%nat + t) + d) / s) - 1 / 2 * ((F 0%nat + t) * (F 0%nat + t))).
    { intros t. unfold log_post, LL, ord_only, LLo, qform, along, e, log_ndtr, unit_prior. cbn [y_rel y_ord y_abs part map fst snd sumn Nat.eqb]. unfold rsum. cbn [fold_right].
      fold s. rewrite HL. rewrite Rmult_1_r. ring. }
    assert (D : has_direction (log_post sp P (ord_only [(k, 0%nat)]) 1 unit_prior) F e (hazard ((c * F 0%nat + d) / s) * (c / s) - F 0%nat)).
    { unfold has_direction. apply (is_derive_ext (fun t : R => log_ndtr ((c * (F 0%nat + t) + d) / s) - 1 / 2 * ((F 0%nat + t) * (F 0%nat + t)))); [intros t; symmetry; apply E|].
      assert (D1 : is_derive (fun t : R => (c * (F 0%nat + t) + d) / s) 0 (c / s)) by (auto_derive; [exact I|unfold Rdiv; ring]).
      assert (D2 : is_derive (fun t : R => 1 / 2 * ((F 0%nat + t) * (F 0%nat + t))) 0 (F 0%nat)) by (auto_derive; [exact I|field]).
      assert (D3 := is_derive_comp log_ndtr (fun t : R => (c * (F 0%nat + t) + d) / s) 0 _ _ (log_ndtr_derive _) D1).
      assert (D4 := is_derive_minus _ _ 0 _ _ D3 D2). cbn beta in D4. rewrite Rplus_0_r in D4.
      assert (Q : hazard ((c * F 0%nat + d) / s) * (c / s) - F 0%nat = minus (scal (c / s) (hazard ((c * F 0%nat + d) / s))) (F 0%nat)) by (unfold minus, plus, opp, scal; cbn; unfold mult; cbn; ring).
      rewrite Q. exact D4. }
    assert (Z := fermat sp P _ 1 unit_prior F e _ M D). lra.
  Qed.
  Lemma ordinal_not_turned F : 0 < b -> mode sp P (ord_only [(1%nat, 0%nat)]) 1 unit_prior F ->
    ~ mode sp P (turned P (ord_only [(1%nat, 0%nat)])) 1 unit_prior (opposite F).
  Proof.
    intros B0 M M'. unfold turned, ord_only, turned_label in M'. cbn [y_rel y_ord y_abs option_map map fst snd] in M'.
    replace (o_n (ps_o P) + 1 - 1)%nat with (o_n (ps_o P)) in M' by lia. change (mkLabels None (Some [(o_n (ps_o P), 0%nat)]) None) with (ord_only [(o_n (ps_o P), 0%nat)]) in M'.
    assert (A := one_post 1 (-1) 0). rewrite Hb in A. specialize (A ltac:(intros f; rewrite label_first by exact Hn; f_equal; f_equal; ring) F M).
    assert (C := one_post (o_n (ps_o P)) 1 (- b)). rewrite Hb in C. specialize (C ltac:(intros f; rewrite label_last by exact Hn; f_equal; f_equal; ring) (opposite F) M').
    unfold opposite in C. assert (L : hazard ((-1 * F 0%nat + 0) / s) < hazard ((1 * - F 0%nat + - b) / s)).
    { apply hazard_decreasing. unfold Rdiv. apply Rmult_lt_compat_r; [now apply Rinv_0_lt_compat|lra]. }
    assert (0 < / s) by now apply Rinv_0_lt_compat. unfold Rdiv in A at 2, C at 2. nra.
  Qed.
End one.

(** ---- normalisation ---- *)
Lemma norm_inf_turned F : norm_inf (map Ropp F) = norm_inf F.
Proof. unfold norm_inf. induction F as [|f F IH]; cbn; [reflexivity|]. rewrite IH, Rabs_Ropp. reflexivity. Qed.
Lemma scale_turned c F : scale_down c (map Ropp F) = option_map (map Ropp) (scale_down c F).
Proof. unfold scale_down. destruct (Req_EM_T c 0); [reflexivity|]. cbn. f_equal. rewrite !map_map. apply map_ext. intros x. unfold Rdiv. ring. Qed.
Lemma norm_loop_turned (upd upd' : nat -> option (list R) -> result (option (list R))) far maxloops :
  (forall k F, upd' k (option_map (map Ropp) F) = match upd k F with Ok G => Ok (option_map (map Ropp) G) | Raise e => Raise e end) ->
  (forall G F, far (option_map (map Ropp) G) (option_map (map Ropp) F) = far G F) ->
  forall fuel k F, mode_loop upd' far maxloops fuel k (option_map (map Ropp) F) = turn_norm (mode_loop upd far maxloops fuel k F).
Proof.
  intros HU HF. induction fuel as [|fuel IH]; intros k F; cbn [mode_loop]; [reflexivity|]. rewrite HU. destruct (upd k F) as [G|e]; cbn [bind]; [|reflexivity].
  rewrite HF. destruct (Nat.ltb maxloops (S k)); [reflexivity|]. destruct (far G F); [apply IH|reflexivity].
Qed.
Lemma fit_normalised_turned sp P y n K inv delta_f maxloops F0 : ndtr (-30) <= ps_eps P -> ps_eps P < 1 / 2 -> y_ord y = None ->
  fit_normalised false sp P (turned P y) n K inv delta_f maxloops (map Ropp F0) = turn_norm (fit_normalised false sp P y n K inv delta_f maxloops F0).
Proof.
  intros E1 E2 NO. unfold fit_normalised, find_mode. destruct (chol n K) as [L|]; [|reflexivity].
  change (Some (map Ropp F0)) with (option_map (map Ropp) (Some F0)). apply norm_loop_turned.
  - intros k [F|]; [|reflexivity]. cbn [option_map norm_step]. rewrite mode_step_turned by assumption. destruct (mode_step sp P y n L inv F) as [G|e]; cbn [bind]; [|reflexivity].
    unfold normalise. rewrite norm_inf_turned, scale_turned. reflexivity.
  - intros [G|] [F|]; cbn [option_map still_far]; try reflexivity. now rewrite err_turned.
Qed.
Lemma positive_not_turned sp P y y' n K L inv d maxloops F0 F0' k k' F : chol n K = Some L -> fit_normalised true sp P y n K inv d maxloops F0 = Ok (k, Some F) ->
  fit_normalised true sp P y' n K inv d maxloops F0' <> Ok (k', Some (map Ropp F)).
Proof.
  intros EL H H'. destruct (fit_norm_range true _ _ _ _ _ _ _ _ _ _ _ _ EL H) as [_ [_ I1]]. destruct (fit_norm_range true _ _ _ _ _ _ _ _ _ _ _ _ EL H') as [A _].
  specialize (A (- 1) (in_map Ropp F 1 I1)). lra.
Qed.

(** ---- predictions ---- *)
Lemma predict_turned inv k d X : pgp_predict inv k (Some {| pX := pX d; pF := map Ropp (pF d); pW := pW d; pK := pK d |}) X =
  match pgp_predict inv k (Some d) X with Ok (mu, var) => Ok (map Ropp mu, var) | Raise e => Raise e end.
Proof.
  unfold pgp_predict. cbv zeta. cbn [pX pF pW pK]. destruct (kcov k X (pX d)) as [cX|e]; cbn [bind]; [|reflexivity]. destruct (kcov k X X) as [cT|e]; cbn [bind]; [|reflexivity].
  destruct (chol _ _) as [L|]; [|reflexivity]. do 2 f_equal. rewrite map_map. apply map_ext. intros i.
  assert (E : (fun j => nth j (map Ropp (pF d)) 0) = opposite (fun j => nth j (pF d) 0)) by (apply functional_extensionality; intro j; apply (f_equal (fun g => g j) (entries_turned (pF d)))).
  rewrite E, cho_opp, !sum_to_sumn. replace (- sumn _ _) with (-1 * sumn (length (pX d)) (fun j => mat_at cX i j * cho_solve (length (pX d)) L (fun j0 => nth j0 (pF d) 0) j)) by ring.
  rewrite <- sumn_scale. apply sumn_ext. intros j _. unfold opposite. ring.
Qed.

(** the default of eps (AbsBoundProbit.py:126) is large enough *)
Lemma default_eps : ndtr (-30) <= / 10 ^ 10.
Proof.
  assert (T := ndtr_left_tail (-30) ltac:(lra)). replace (- (-30) ^ 2 / 2) with (INR 6 * - 75) in T by (cbn; lra).
  assert (Q : exp (INR 6 * - 75) = exp (- 75) ^ 6).
  { replace (INR 6 * - 75) with (- 75 + (- 75 + (- 75 + (- 75 + (- 75 + - 75))))) by (cbn; lra). rewrite !exp_plus. ring. }
  assert (E : exp (- 75) ^ 6 <= (/ 76) ^ 6).
  { apply pow_incr. split; [apply Rlt_le, exp_pos|]. replace (exp (- 75)) with (/ exp 75) by (rewrite <- exp_Ropp; f_equal; lra). apply Rinv_le_contravar; [lra|]. assert (H := exp_ineq1 75 ltac:(lra)). lra. }
  rewrite Q in T. assert (D : (/ 76) ^ 6 <= / 10 ^ 10) by lra. assert (G : 0 < (/ 76) ^ 6) by (apply pow_lt; lra). lra.
Qed.
