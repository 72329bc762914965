(** Lemmas on the normal density and distribution function. *)
From Verif Require Export M_Normal P_Gauss.
From Coquelicot Require Import Coquelicot.
From Coq Require Import Reals Lra Lia.
From Verif Require Import M_Normal P_RBase.
Local Open Scope R_scope.

Lemma s2pi_pos : 0 < sqrt (2 * PI).
Proof. apply sqrt_lt_R0. assert (K := PI_RGT_0). lra. Qed.
Lemma s2pi_sq : sqrt (2 * PI) * sqrt (2 * PI) = 2 * PI.
Proof. apply sqrt_sqrt. assert (K := PI_RGT_0). lra. Qed.
Lemma npdf_gE x : npdf x = / sqrt (2 * PI) * gE x.
Proof. unfold npdf, gE. field. assert (K := s2pi_pos). lra. Qed.
Lemma ndtr_gI x : ndtr x = 1 / 2 + gI x / sqrt (2 * PI).
Proof.
  unfold ndtr. f_equal. unfold gI. apply (is_RInt_unique (V := R_CompleteNormedModule)).
  apply (is_RInt_ext (V := R_NormedModule) (fun t => scal (/ sqrt (2 * PI)) (gE t))).
  - intros t _. change (/ sqrt (2 * PI) * gE t = npdf t). now rewrite npdf_gE.
  - evar_last. apply (is_RInt_scal (V := R_NormedModule)). apply (RInt_correct (V := R_CompleteNormedModule)). apply gE_ex.
    change (/ sqrt (2 * PI) * RInt gE 0 x = RInt gE 0 x / sqrt (2 * PI)). unfold Rdiv. ring.
Qed.
Lemma npdf_pos x : 0 < npdf x.
Proof. unfold npdf. apply Rdiv_lt_0_compat; [apply exp_pos|apply s2pi_pos]. Qed.
Lemma npdf_even x : npdf (- x) = npdf x.
Proof. unfold npdf. do 3 f_equal. ring. Qed.
Lemma npdf_derive (x : R) : is_derive npdf x (- x * npdf x).
Proof. assert (K := s2pi_pos). unfold npdf. auto_derive; auto. change (- (x * (x * 1)) * / 2) with (- x ^ 2 / 2). field. lra. Qed.
Lemma npdf_continuous x : continuity_pt npdf x.
Proof. apply derivable_continuous_pt. eexists. apply is_derive_Reals. apply npdf_derive. Qed.
Lemma ndtr_derive (x : R) : is_derive ndtr x (npdf x).
Proof.
  assert (E : forall t : R, 1 / 2 + / sqrt (2 * PI) * gI t = ndtr t) by (intro t; rewrite ndtr_gI; unfold Rdiv; ring).
  apply (is_derive_ext (fun x => 1 / 2 + / sqrt (2 * PI) * gI x)); [exact E|].
  evar_last. apply @is_derive_plus; [apply @is_derive_const|]. apply is_derive_scal. apply gI_derive.
  rewrite npdf_gE. unfold plus, zero; simpl. ring.
Qed.
Lemma ndtr_continuous x : continuity_pt ndtr x.
Proof. apply derivable_continuous_pt. eexists. apply is_derive_Reals. apply ndtr_derive. Qed.
Lemma ndtr_increasing x y : x < y -> ndtr x < ndtr y.
Proof.
  intro H. destruct (MVT_gen ndtr x y npdf) as [c [_ Hc]]; [intros; apply ndtr_derive|intros; apply ndtr_continuous|].
  assert (0 < npdf c * (y - x)); [apply Rmult_lt_0_compat; [apply npdf_pos|lra]|lra].
Qed.
Lemma ndtr_le x y : x <= y -> ndtr x <= ndtr y.
Proof. intros [H| ->]; [left; now apply ndtr_increasing|lra]. Qed.
Lemma ndtr_sym x : ndtr (- x) = 1 - ndtr x.
Proof. rewrite !ndtr_gI, gI_odd. assert (K := s2pi_pos). field. lra. Qed.
Lemma ndtr_0 : ndtr 0 = 1 / 2.
Proof. assert (K := ndtr_sym 0). rewrite Ropp_0 in K. lra. Qed.
Lemma ndtr_square x : 4 * (ndtr x * (1 - ndtr x)) = 2 / PI * gB x.
Proof.
  rewrite ndtr_gI. assert (K := s2pi_pos). assert (G := gauss_square x). assert (P := PI_RGT_0). assert (S := s2pi_sq).
  replace (4 * ((1 / 2 + gI x / sqrt (2 * PI)) * (1 - (1 / 2 + gI x / sqrt (2 * PI))))) with (1 - 4 * gI x ^ 2 / (sqrt (2 * PI) * sqrt (2 * PI))) by (field; lra).
  rewrite S. replace (gB x) with (PI / 2 - gI x ^ 2) by lra. field. lra.
Qed.
Lemma ndtr_range x : 0 < ndtr x < 1.
Proof.
  assert (K := ndtr_square x). assert (B := gB_pos x). assert (P := PI_RGT_0). assert (0 < 2 / PI * gB x) by (apply Rmult_lt_0_compat; auto; apply Rdiv_lt_0_compat; lra).
  destruct (Rle_dec (ndtr x) 0); [nra|]. destruct (Rle_dec 1 (ndtr x)); nra.
Qed.
Lemma ndtr_tail x : 0 <= x -> 1 - ndtr x <= exp (- x ^ 2 / 2) / 2.
Proof.
  intro H. assert (K := ndtr_square x). assert (B := gB_upper x). assert (P := PI_RGT_0). assert (R := ndtr_range x).
  assert (1 / 2 <= ndtr x) by (rewrite <- ndtr_0; now apply ndtr_le).
  assert (2 / PI * gB x <= exp (- x ^ 2 / 2)).
  { replace (exp (- x ^ 2 / 2)) with (2 / PI * (PI / 2 * exp (- x ^ 2 / 2))) by (field; lra). apply Rmult_le_compat_l; auto. left. apply Rdiv_lt_0_compat; lra. }
  nra.
Qed.
Lemma ndtr_left_tail x : x <= 0 -> ndtr x <= exp (- x ^ 2 / 2) / 2.
Proof. intro H. assert (K := ndtr_tail (- x) ltac:(lra)). rewrite ndtr_sym in K. replace ((- x) ^ 2) with (x ^ 2) in K by ring. lra. Qed.
Lemma exp_sq_small x : x <> 0 -> exp (- x ^ 2 / 2) < 2 / x ^ 2.
Proof.
  intro H. assert (K := exp_ineq1 (x ^ 2 / 2)). assert (0 < x ^ 2) by (apply pow2_gt_0; auto). specialize (K ltac:(lra)).
  replace (- x ^ 2 / 2) with (- (x ^ 2 / 2)) by field. rewrite exp_Ropp. replace (2 / x ^ 2) with (/ (x ^ 2 / 2)) by (field; lra). apply Rinv_lt_contravar; [|lra]. apply Rmult_lt_0_compat; [lra|apply exp_pos].
Qed.
Lemma ndtr_lim_p : is_lim ndtr p_infty 1.
Proof.
  apply is_lim_spec. intros eps. exists (Rmax 1 (1 / eps)). intros x Hx. assert (E := cond_pos eps). assert (1 < x /\ 1 / eps < x) as [H1 H2] by (split; eapply Rle_lt_trans; [apply Rmax_l|eauto|apply Rmax_r|eauto]).
  assert (T := ndtr_tail x ltac:(lra)). assert (R := ndtr_range x). rewrite Rabs_left by lra. assert (S := exp_sq_small x ltac:(lra)).
  assert (1 / x ^ 2 < eps).
  { apply Rmult_lt_reg_r with (x ^ 2); [nra|]. replace (1 / x ^ 2 * x ^ 2) with 1 by (field; lra). apply (Rmult_lt_compat_r eps) in H2; auto. replace (1 / eps * eps) with 1 in H2 by (field; lra). nra. }
  replace (2 / x ^ 2) with (2 * (1 / x ^ 2)) in S by (field; lra). lra.
Qed.
Lemma ndtr_lim_m : is_lim ndtr m_infty 0.
Proof.
  apply is_lim_spec. intros eps. assert (K := ndtr_lim_p). apply is_lim_spec in K. destruct (K eps) as [M HM]. exists (- M). intros x Hx. specialize (HM (- x) ltac:(lra)). rewrite ndtr_sym in HM.
  rewrite <- Rabs_Ropp. replace (- (ndtr x - 0)) with (1 - ndtr x - 1) by ring. auto.
Qed.

(** ---- Mills ratio ---- *)
Lemma mills_derive (z : R) : is_derive (fun z => npdf z + z * ndtr z) z (ndtr z).
Proof.
  evar_last. apply @is_derive_plus; [apply npdf_derive|]. apply (is_derive_mult (fun z => z) ndtr); [apply @is_derive_id|apply ndtr_derive|]. intros; apply Rmult_comm.
  unfold plus, one, mult; simpl; unfold mult; simpl. ring.
Qed.
Lemma mills z : 0 < npdf z + z * ndtr z.
Proof.
  destruct (Rlt_dec 0 (npdf z + z * ndtr z)) as [|N]; auto. exfalso.
  assert (I : forall x y, x < y -> npdf x + x * ndtr x < npdf y + y * ndtr y).
  { intros x y H. destruct (MVT_gen (fun z => npdf z + z * ndtr z) x y ndtr) as [c [_ Hc]].
    - intros; apply mills_derive.
    - intros t _. apply derivable_continuous_pt. eexists. apply is_derive_Reals. apply mills_derive.
    - assert (0 < ndtr c * (y - x)); [apply Rmult_lt_0_compat; [apply ndtr_range|lra]|lra]. }
  assert (L : forall x, x < 0 -> 1 / x < npdf x + x * ndtr x).
  { intros x H. assert (P := npdf_pos x). assert (T := ndtr_left_tail x ltac:(lra)). assert (S := exp_sq_small x ltac:(lra)). replace (2 / x ^ 2) with (2 * (1 / x ^ 2)) in S by (field; lra).
    assert (ndtr x < 1 / x ^ 2) by lra. apply (Rmult_lt_gt_compat_neg_l x) in H0; auto. replace (x * (1 / x ^ 2)) with (1 / x) in H0 by (field; lra). lra. }
  set (z1 := Rmin z 0 - 1). assert (H1 : z1 < z) by (unfold z1; assert (K := Rmin_l z 0); lra). assert (H2 : z1 < 0) by (unfold z1; assert (K := Rmin_r z 0); lra).
  assert (C := I _ _ H1). set (c := npdf z1 + z1 * ndtr z1) in *. assert (c < 0) by lra.
  set (w := Rmin (z1 - 1) (1 / c)). assert (Hw : w < z1) by (unfold w; assert (K := Rmin_l (z1 - 1) (1 / c)); lra). assert (Hw2 : w <= 1 / c) by apply Rmin_r.
  assert (I1 := I _ _ Hw). assert (L1 := L w ltac:(lra)).
  assert (c <= 1 / w). { apply Rmult_le_reg_l with (w * (1 / c)). { assert (1 / c < 0) by (unfold Rdiv; rewrite Rmult_1_l; apply Rinv_lt_0_compat; lra). assert (w < 0) by lra. nra. } replace (w * (1 / c) * c) with w by (field; lra). replace (w * (1 / c) * (1 / w)) with (1 / c) by (field; lra). auto. }
  fold c in I1. lra.
Qed.

(** ---- the ratio of density and distribution function ---- *)
Definition hazard (z : R) : R := npdf z / ndtr z.
Lemma hazard_pos z : 0 < hazard z.
Proof. unfold hazard. apply Rdiv_lt_0_compat; [apply npdf_pos|apply ndtr_range]. Qed.
Lemma hazard_mills z : 0 < z + hazard z.
Proof.
  unfold hazard. assert (K := mills z). assert (R := ndtr_range z). replace (z + npdf z / ndtr z) with ((npdf z + z * ndtr z) / ndtr z) by (field; lra). apply Rdiv_lt_0_compat; lra.
Qed.
Lemma hazard_derive (z : R) : is_derive hazard z (- hazard z * (z + hazard z)).
Proof.
  assert (R := ndtr_range z). unfold hazard. evar_last. apply is_derive_div; [apply npdf_derive|apply ndtr_derive|lra]. field. lra.
Qed.
Lemma hazard_decreasing x y : x < y -> hazard y < hazard x.
Proof.
  intro H. destruct (MVT_gen hazard x y (fun z => - hazard z * (z + hazard z))) as [c [_ Hc]].
  - intros; apply hazard_derive.
  - intros t _. apply derivable_continuous_pt. eexists. apply is_derive_Reals. apply hazard_derive.
  - assert (0 < hazard c * (c + hazard c)) by (apply Rmult_lt_0_compat; [apply hazard_pos|apply hazard_mills]). assert (0 < hazard c * (c + hazard c) * (y - x)) by (apply Rmult_lt_0_compat; lra). nra.
Qed.
Lemma log_ndtr_derive (z : R) : is_derive log_ndtr z (hazard z).
Proof.
  assert (R := ndtr_range z). unfold log_ndtr, hazard. evar_last. apply (is_derive_comp ln ndtr); [apply is_derive_Reals, derivable_pt_lim_ln; lra|apply ndtr_derive].
  change (npdf z * / ndtr z = npdf z / ndtr z). reflexivity.
Qed.
Lemma log_ndtr_neg z : log_ndtr z < 0.
Proof. unfold log_ndtr. rewrite <- ln_1. apply ln_increasing; apply ndtr_range. Qed.
(** a function whose derivative decreases is concave *)
Lemma decreasing_derive_concave (f df : R -> R) : (forall x, is_derive f x (df x)) -> (forall x y, x < y -> df y <= df x) ->
  forall x y t, 0 <= t <= 1 -> t * f x + (1 - t) * f y <= f (t * x + (1 - t) * y).
Proof.
  intros D M.
  assert (K : forall x y t, x < y -> 0 < t < 1 -> t * f x + (1 - t) * f y <= f (t * x + (1 - t) * y)).
  { intros x y t H Ht. set (m := t * x + (1 - t) * y).
    assert (Hm : x < m < y) by (unfold m; split; nra).
    assert (C : forall u, continuity_pt f u) by (intro u; apply derivable_continuous_pt; eexists; apply is_derive_Reals, D).
    destruct (MVT_gen f x m df) as [c [Hc1 Hc2]]; auto. destruct (MVT_gen f m y df) as [d [Hd1 Hd2]]; auto.
    rewrite Rmin_left, Rmax_right in Hc1 by lra. rewrite Rmin_left, Rmax_right in Hd1 by lra.
    assert (G : df d <= df c). { destruct (Req_dec c d) as [->|N]; [lra|]. apply M. lra. }
    replace (t * f x + (1 - t) * f y) with (f m - t * (f m - f x) + (1 - t) * (f y - f m)) by ring. rewrite Hc2, Hd2.
    assert (m - x = (1 - t) * (y - x)) by (unfold m; ring). assert (y - m = t * (y - x)) by (unfold m; ring). rewrite H0, H1.
    assert (0 <= t * (1 - t) * (y - x)) by (apply Rmult_le_pos; [apply Rmult_le_pos|]; lra). nra. }
  intros x y t Ht. destruct (Req_dec t 0) as [-> |N0]; [right; rewrite Rmult_0_l, Rminus_0_r, Rmult_0_l, !Rmult_1_l, !Rplus_0_l; reflexivity|]. destruct (Req_dec t 1) as [-> |N1].
  { right. replace (1 - 1) with 0 by ring. rewrite !Rmult_0_l, !Rmult_1_l, !Rplus_0_r. reflexivity. }
  destruct (Rtotal_order x y) as [H|[-> |H]].
  - apply K; lra.
  - right. replace (t * y + (1 - t) * y) with y by ring. ring.
  - assert (Q := K y x (1 - t) H ltac:(lra)). replace ((1 - (1 - t))) with t in Q by ring. replace (t * x + (1 - t) * y) with ((1 - t) * y + t * x) by ring. lra.
Qed.
Lemma log_ndtr_concave x y t : 0 <= t <= 1 -> t * log_ndtr x + (1 - t) * log_ndtr y <= log_ndtr (t * x + (1 - t) * y).
Proof. apply (decreasing_derive_concave log_ndtr hazard); [apply log_ndtr_derive|]. intros a b H. left. now apply hazard_decreasing. Qed.

(** ---- clipping ---- *)
Lemma rclip_id lo hi x : lo <= x <= hi -> rclip lo hi x = x.
Proof. intro H. unfold rclip. rewrite Rmax_left, Rmin_left; lra. Qed.
Lemma rclip_low lo hi x : lo <= hi -> x <= lo -> rclip lo hi x = lo.
Proof. intros. unfold rclip. rewrite Rmax_right, Rmin_left; lra. Qed.
Lemma rclip_high lo hi x : lo <= hi -> hi <= x -> rclip lo hi x = hi.
Proof. intros. unfold rclip. rewrite Rmax_left, Rmin_right; lra. Qed.
Lemma rclip_range lo hi x : lo <= hi -> lo <= rclip lo hi x <= hi.
Proof. intro. unfold rclip, Rmin, Rmax. repeat destruct (Rle_dec _ _); lra. Qed.
Lemma rclip_le lo hi x y : x <= y -> rclip lo hi x <= rclip lo hi y.
Proof. intro. unfold rclip, Rmin, Rmax. repeat destruct (Rle_dec _ _); lra. Qed.
Lemma std_norm_cdf_id x : -30 <= x <= 100 -> std_norm_cdf x = ndtr x.
Proof. intro H. unfold std_norm_cdf. now rewrite rclip_id. Qed.
Lemma std_norm_cdf_range x : 0 < std_norm_cdf x < 1.
Proof. apply ndtr_range. Qed.
Lemma std_norm_cdf_le x y : x <= y -> std_norm_cdf x <= std_norm_cdf y.
Proof. intro H. apply ndtr_le, rclip_le, H. Qed.
Lemma std_norm_cdf_error x : Rabs (std_norm_cdf x - ndtr x) < exp (-450).
Proof.
  assert (P := exp_pos (-450)). unfold std_norm_cdf. destruct (Rlt_dec x (-30)) as [H|H].
  - rewrite rclip_low by lra. assert (K := ndtr_left_tail (-30) ltac:(lra)). replace (- (-30) ^ 2 / 2) with (-450) in K by field. assert (R := ndtr_range x). assert (I := ndtr_increasing _ _ H). rewrite Rabs_right; lra.
  - destruct (Rlt_dec 100 x) as [H1|H1].
    + rewrite rclip_high by lra. assert (K := ndtr_tail 100 ltac:(lra)). replace (- 100 ^ 2 / 2) with (-5000) in K by field. assert (R := ndtr_range x). assert (I := ndtr_increasing _ _ H1).
      assert (exp (-5000) < exp (-450)) by (apply exp_increasing; lra). rewrite Rabs_left; lra.
    + rewrite rclip_id by lra. unfold Rminus. rewrite Rplus_opp_r, Rabs_R0. auto.
Qed.
Lemma ratio_id z : -30 <= z <= 100 -> pdf_cdf_ratio z = hazard z.
Proof. intro H. unfold pdf_cdf_ratio, hazard. now rewrite std_norm_cdf_id. Qed.
Lemma ratio_pos z : 0 < pdf_cdf_ratio z.
Proof. unfold pdf_cdf_ratio. apply Rdiv_lt_0_compat; [apply npdf_pos|apply std_norm_cdf_range]. Qed.
