(** Lemmas for the gamma function: the series can be differentiated term by term. *)
From Coquelicot Require Import Coquelicot.
From Coq Require Import Reals Lra Lia.
From Verif Require Import M_RBase M_AbsProbit S_AbsProbit S_Gamma.
Local Open Scope R_scope.

(** ---- series ---- *)
Lemma lin_bound (f : R -> R) (f' : R -> R) (M x y d : R) : (forall z, Rabs (z - x) < d -> is_derive f z (f' z)) -> (forall z, Rabs (z - x) < d -> Rabs (f' z) <= M) -> Rabs (y - x) < d -> Rabs (f y - f x) <= M * Rabs (y - x).
Proof.
  intros D B H. assert (In : forall z, Rmin x y <= z <= Rmax x y -> Rabs (z - x) < d).
  { intros z Hz. unfold Rmin, Rmax in Hz. destruct (Rle_dec x y); apply Rabs_lt_between in H; apply Rabs_lt_between; lra. }
  destruct (MVT_gen f x y f') as [c [Hc E]].
  - intros z Hz. apply D, In. lra.
  - intros z Hz. apply continuity_pt_filterlim. apply (ex_derive_continuous f z). exists (f' z). apply D, In. exact Hz.
  - rewrite E, Rabs_mult. apply Rmult_le_compat_r; [apply Rabs_pos|]. apply B, In, Hc.
Qed.
Lemma quad_bound (a b c : R -> R) (M x y d : R) : 0 <= M -> (forall z, Rabs (z - x) < d -> is_derive a z (b z)) -> (forall z, Rabs (z - x) < d -> is_derive b z (c z)) -> (forall z, Rabs (z - x) < d -> Rabs (c z) <= M) ->
  Rabs (y - x) < d -> Rabs (a y - a x - (y - x) * b x) <= M * (y - x) ^ 2.
Proof.
  intros HM Da Db Bc H.
  set (e := Rabs (y - x)) in *. destruct (Req_dec e 0) as [E0|E0].
  { assert (y - x = 0). { destruct (Req_dec (y - x) 0); auto. apply Rabs_no_R0 in H0. exfalso. apply H0. exact E0. } assert (Ey : y = x) by lra. clear E0 H e. subst y. replace (a x - a x - (x - x) * b x) with 0 by ring. rewrite Rabs_R0. apply Rmult_le_pos; [lra|apply pow2_ge_0]. }
  assert (e0 : 0 < e) by (assert (T := Rabs_pos (y - x)); fold e in T; lra).
  assert (In : forall z, Rmin x y <= z <= Rmax x y -> Rabs (z - x) <= e).
  { intros z Hz. unfold e, Rmin, Rmax in *. destruct (Rle_dec x y); [rewrite (Rabs_right (y - x)) by lra|rewrite (Rabs_left (y - x)) by lra]; apply Rabs_le; lra. }
  destruct (MVT_gen (fun z => a z - (z - x) * b x) x y (fun z => b z - b x)) as [z [Hz E]].
  - intros z Hz. assert (T := In z ltac:(lra)). replace (b z - b x) with (b z - 1 * b x) by ring. apply (is_derive_minus a (fun z => (z - x) * b x)); [apply Da; lra|]. auto_derive; [trivial|ring].
  - intros z Hz. assert (T := In z Hz). apply continuity_pt_filterlim. apply (ex_derive_continuous (fun z => a z - (z - x) * b x) z). apply (ex_derive_minus a (fun z => (z - x) * b x)); [exists (b z); apply Da; lra|]. auto_derive. trivial.
  - replace (a y - a x - (y - x) * b x) with (a y - (y - x) * b x - (a x - (x - x) * b x)) by ring. rewrite E, Rabs_mult. fold e. assert (Tz := In z Hz).
    assert (B := lin_bound b c M x z d Db Bc ltac:(lra)). assert (M * Rabs (z - x) <= M * e) by (apply Rmult_le_compat_l; lra). replace ((y - x) ^ 2) with (e * e) by (unfold e; rewrite <- Rabs_mult; rewrite Rabs_right; [ring|]; apply Rle_ge, Rle_0_sqr).
    rewrite <- Rmult_assoc. apply Rmult_le_compat_r; lra.
Qed.
Lemma series_nonneg (u : nat -> R) : (forall n, 0 <= u n) -> ex_series u -> 0 <= Series u.
Proof.
  intros H E. rewrite <- (Rmult_0_l (Series u)), <- Series_scal_l. apply Series_le; auto. intro n. assert (T := H n). lra.
Qed.
Lemma series_derive (a b c : nat -> R -> R) (M : nat -> R) (x d : R) : 0 < d -> (forall n z, Rabs (z - x) < d -> is_derive (a n) z (b n z)) -> (forall n z, Rabs (z - x) < d -> is_derive (b n) z (c n z)) ->
  (forall n z, Rabs (z - x) < d -> Rabs (c n z) <= M n) -> (forall z, Rabs (z - x) < d -> ex_series (fun n => a n z)) -> ex_series (fun n => b n x) -> ex_series M ->
  is_derive (fun z => Series (fun n => a n z)) x (Series (fun n => b n x)).
Proof.
  intros Hd Da Db Bc Sa Sb SM. assert (X0 : Rabs (x - x) < d) by (rewrite Rminus_eq_0, Rabs_R0; exact Hd). assert (M0 : forall n, 0 <= M n) by (intro n; eapply Rle_trans; [apply Rabs_pos|apply (Bc n x X0)]). assert (T0 : 0 <= Series M) by (apply series_nonneg; auto).
  apply is_derive_Reals. intros eps He. set (T := Series M + 1). assert (D1 : 0 < Rmin d (eps / T)) by (apply Rmin_pos; [exact Hd|apply Rdiv_lt_0_compat; unfold T; lra]). exists (mkposreal _ D1). intros h Hh Hs. cbn [pos] in Hs.
  assert (Hh1 : Rabs h < d) by (eapply Rlt_le_trans; [exact Hs|apply Rmin_l]). assert (Hh2 : Rabs h < eps / T) by (eapply Rlt_le_trans; [exact Hs|apply Rmin_r]).
  assert (Hy : Rabs (x + h - x) < d) by (replace (x + h - x) with h by ring; exact Hh1).
  assert (E1 : ex_series (fun n => a n (x + h) - a n x)) by (apply (ex_series_minus (fun n => a n (x + h)) (fun n => a n x)); apply Sa; auto). assert (E2 : ex_series (fun n => h * b n x)) by (apply (ex_series_scal h (fun n => b n x)); exact Sb).
  assert (Eq : Series (fun n => a n (x + h)) - Series (fun n => a n x) - h * Series (fun n => b n x) = Series (fun n => a n (x + h) - a n x - h * b n x)).
  { rewrite (Series_minus _ _ E1 E2). rewrite Series_minus by (apply Sa; auto). rewrite Series_scal_l. reflexivity. }
  assert (Bd : forall n, Rabs (a n (x + h) - a n x - h * b n x) <= h ^ 2 * M n). { intro n. replace (h * b n x) with ((x + h - x) * b n x) by ring. rewrite (Rmult_comm (h ^ 2)). replace (h ^ 2) with ((x + h - x) ^ 2) by ring. apply (quad_bound (a n) (b n) (c n) (M n) x (x + h) d); auto. }
  assert (SM2 : ex_series (fun n => h ^ 2 * M n)) by (apply (ex_series_scal (h ^ 2) M); exact SM).
  assert (SA : ex_series (fun n => Rabs (a n (x + h) - a n x - h * b n x))). { apply (ex_series_le (fun n => Rabs (a n (x + h) - a n x - h * b n x)) (fun n => h ^ 2 * M n)); [|exact SM2]. intro n. change (Rabs (Rabs (a n (x + h) - a n x - h * b n x)) <= h ^ 2 * M n). rewrite Rabs_Rabsolu. apply Bd. }
  assert (Main : Rabs (Series (fun n => a n (x + h)) - Series (fun n => a n x) - h * Series (fun n => b n x)) <= h ^ 2 * Series M).
  { rewrite Eq. eapply Rle_trans; [apply Series_Rabs; exact SA|]. rewrite <- Series_scal_l. apply Series_le; [|exact SM2]. intro n. split; [apply Rabs_pos|apply Bd]. }
  replace ((Series (fun n => a n (x + h)) - Series (fun n => a n x)) / h - Series (fun n => b n x)) with ((Series (fun n => a n (x + h)) - Series (fun n => a n x) - h * Series (fun n => b n x)) / h) by (field; exact Hh).
  unfold Rdiv. rewrite Rabs_mult, Rabs_inv. assert (P0 := Rabs_pos_lt h Hh). apply (Rmult_lt_reg_r (Rabs h)); [exact P0|]. rewrite Rmult_assoc, Rinv_l, Rmult_1_r by lra. eapply Rle_lt_trans; [exact Main|].
  replace (h ^ 2) with (Rabs h * Rabs h) by (rewrite <- Rabs_mult, Rabs_right; [ring|apply Rle_ge, Rle_0_sqr]). rewrite Rmult_assoc, (Rmult_comm eps). apply Rmult_lt_compat_l; [exact P0|].
  assert (Rabs h * T < eps) by (apply (Rmult_lt_reg_r (/ T)); [apply Rinv_0_lt_compat; unfold T; lra|]; rewrite Rmult_assoc, Rinv_r, Rmult_1_r by (unfold T; lra); exact Hh2). unfold T in H. nra.
Qed.
(** ---- summability ---- *)
Lemma ex_scal (c : R) (u : nat -> R) : ex_series u -> ex_series (fun n => c * u n).
Proof. apply (ex_series_scal c u). Qed.
Lemma ex_sq1 : ex_series (fun n => / INR (S n) ^ 2).
Proof.
  apply (ex_series_le (fun n => / INR (S n) ^ 2) (fun n => 2 * (/ INR (S n) - / INR (S (S n))))).
  - intro n. change (Rabs (/ INR (S n) ^ 2) <= 2 * (/ INR (S n) - / INR (S (S n)))). assert (P : 0 < INR (S n)) by (apply lt_0_INR; lia). assert (E : INR (S (S n)) = INR (S n) + 1) by (rewrite (S_INR (S n)); reflexivity). rewrite E. assert (1 <= INR (S n)) by (change 1 with (INR 1); apply le_INR; lia). rewrite Rabs_right; [|apply Rle_ge, Rlt_le, Rinv_0_lt_compat, pow_lt, P].
    set (z := INR (S n)) in *. apply (Rmult_le_reg_r (z ^ 2 * (z + 1))); [apply Rmult_lt_0_compat; [apply pow_lt; lra|lra]|]. replace (/ z ^ 2 * (z ^ 2 * (z + 1))) with (z + 1) by (field; lra). replace (2 * (/ z - / (z + 1)) * (z ^ 2 * (z + 1))) with (2 * z) by (field; lra). lra.
  - apply (ex_series_scal 2 (fun n => / INR (S n) - / INR (S (S n)))). exists 1. assert (L : is_lim_seq (fun n => 1 - / INR (S (S n))) (1 - 0)).
    { apply is_lim_seq_minus'; [apply is_lim_seq_const|]. apply (is_lim_seq_inv (fun n => INR (S (S n))) p_infty); [|discriminate]. apply (is_lim_seq_incr_n INR 2 p_infty) || idtac. apply (is_lim_seq_ext (fun n => INR (n + 2))); [intro n; f_equal; lia|]. apply -> (is_lim_seq_incr_n INR 2). apply is_lim_seq_INR. }
    rewrite Rminus_0_r in L. unfold is_series. apply (is_lim_seq_ext _ _ 1) with (2 := L). intro n. induction n as [|n IH]; [rewrite sum_O; cbn; field|]. rewrite sum_Sn, <- IH. unfold plus; cbn -[INR]. ring.
Qed.
Lemma low_shift z n : 0 < z -> Rmin z 1 * INR (S n) <= z + INR n.
Proof. intro H. rewrite S_INR. assert (P := pos_INR n). unfold Rmin. destruct (Rle_dec z 1); nra. Qed.
Lemma shift_pos z n : 0 < z -> 0 < z + INR n.
Proof. intro H. assert (P := pos_INR n). lra. Qed.
Lemma S_pos n : 0 < INR (S n).
Proof. apply lt_0_INR. lia. Qed.
Lemma dominated (u : nat -> R) C : (forall n, Rabs (u n) <= C * / INR (S n) ^ 2) -> ex_series u.
Proof. intro H. apply (ex_series_le u (fun n => C * / INR (S n) ^ 2)); [exact H|]. apply ex_scal. exact ex_sq1. Qed.
Lemma inv_shift z n : 0 < z -> / (z + INR n) <= / Rmin z 1 * / INR (S n).
Proof.
  intro H. assert (P := S_pos n). assert (M : 0 < Rmin z 1) by (apply Rmin_pos; lra). rewrite <- Rinv_mult_distr by lra. apply Rinv_le_contravar; [now apply Rmult_lt_0_compat|]. now apply low_shift.
Qed.
Lemma ex_prod z : 0 < z -> ex_series (fun n => / (INR (S n) * (z + INR n))).
Proof.
  intro H. apply (dominated _ (/ Rmin z 1)). intro n. assert (P := S_pos n). assert (Q := shift_pos z n H). rewrite Rabs_right; [|apply Rle_ge, Rlt_le, Rinv_0_lt_compat, Rmult_lt_0_compat; lra]. rewrite Rinv_mult_distr by lra. assert (T := inv_shift z n H). assert (0 < / INR (S n)) by now apply Rinv_0_lt_compat.
  replace (/ Rmin z 1 * / INR (S n) ^ 2) with (/ INR (S n) * (/ Rmin z 1 * / INR (S n))) by (field; split; [lra|apply Rgt_not_eq, Rmin_pos; lra]). apply Rmult_le_compat_l; lra.
Qed.
Lemma ex_psi1 z : 0 < z -> ex_series (psi1_term z).
Proof.
  intro H. apply (dominated _ (/ Rmin z 1 ^ 2)). intro n. unfold psi1_term. assert (P := S_pos n). assert (Q := shift_pos z n H). rewrite Rabs_right; [|apply Rle_ge, Rlt_le, Rinv_0_lt_compat, pow_lt; lra]. assert (T := inv_shift z n H). assert (M : 0 < Rmin z 1) by (apply Rmin_pos; lra). assert (0 < / (z + INR n)) by now apply Rinv_0_lt_compat.
  replace (/ (z + INR n) ^ 2) with (/ (z + INR n) * / (z + INR n)) by (field; lra). replace (/ Rmin z 1 ^ 2 * / INR (S n) ^ 2) with (/ Rmin z 1 * / INR (S n) * (/ Rmin z 1 * / INR (S n))) by (field; lra). apply Rmult_le_compat; lra.
Qed.
Lemma ex_psi2 z : 0 < z -> ex_series (psi2_term z).
Proof.
  intro H. apply (ex_series_le (psi2_term z) (fun n => 2 / z * psi1_term z n)); [|apply ex_scal; now apply ex_psi1]. intro n. change (Rabs (psi2_term z n) <= 2 / z * psi1_term z n). unfold psi2_term, psi1_term. assert (Q := shift_pos z n H).
  replace (- 2 / (z + INR n) ^ 3) with (- (2 * / (z + INR n) * / (z + INR n) ^ 2)) by (field; lra). assert (I0 : 0 < / (z + INR n) ^ 2) by (apply Rinv_0_lt_compat, pow_lt; lra). assert (I1 : 0 < / (z + INR n)) by (apply Rinv_0_lt_compat; lra). rewrite Rabs_Ropp, Rabs_right by (apply Rle_ge, Rmult_le_pos; lra).
  apply Rmult_le_compat_r; [lra|]. unfold Rdiv. apply Rmult_le_compat_l; [lra|]. apply Rinv_le_contravar; [exact H|]. assert (T := pos_INR n). lra.
Qed.
Lemma psi_term_eq z n : 0 < z -> psi_term z n = (z - 1) * / (INR (S n) * (z + INR n)).
Proof. intro H. unfold psi_term. assert (P := S_pos n). assert (Q := shift_pos z n H). rewrite S_INR in *. field. lra. Qed.
Lemma ex_psi z : 0 < z -> ex_series (psi_term z).
Proof. intro H. apply (ex_series_ext (fun n => (z - 1) * / (INR (S n) * (z + INR n)))); [intro n; now rewrite psi_term_eq|]. apply ex_scal. now apply ex_prod. Qed.
Lemma ln_above t : -1 < t -> t / (1 + t) <= ln (1 + t) <= t.
Proof.
  intro H. split.
  - assert (T := ln_le (/ (1 + t)) (exp (/ (1 + t) - 1)) ltac:(apply Rinv_0_lt_compat; lra)). assert (E := exp_ineq1_le (/ (1 + t) - 1)). rewrite ln_exp, ln_Rinv in T by lra. specialize (T ltac:(lra)). replace (t / (1 + t)) with (1 - / (1 + t)) by (field; lra). lra.
  - assert (T := ln_le (1 + t) (exp t) ltac:(lra)). rewrite ln_exp in T. apply T. assert (E := exp_ineq1_le t). lra.
Qed.
Lemma lgam_term_bound z n : 0 < z -> 0 <= lgam_term z n <= (z - 1) ^ 2 * / (INR (S n) * (z + INR n)).
Proof.
  intro H. unfold lgam_term. assert (P := S_pos n). assert (Q := shift_pos z n H). set (t := (z - 1) / INR (S n)). assert (E : 1 + t = (z + INR n) / INR (S n)) by (unfold t; rewrite S_INR in *; field; lra).
  assert (T : -1 < t). { assert (0 < 1 + t) by (rewrite E; apply Rdiv_lt_0_compat; lra). lra. } assert (L := ln_above t T). split; [lra|]. replace ((z - 1) ^ 2 * / (INR (S n) * (z + INR n))) with (t - t / (1 + t)); [lra|]. rewrite E. unfold t. rewrite S_INR in *. field. lra.
Qed.
Lemma ex_lgam z : 0 < z -> ex_series (lgam_term z).
Proof.
  intro H. apply (ex_series_le (lgam_term z) (fun n => (z - 1) ^ 2 * / (INR (S n) * (z + INR n)))); [|apply ex_scal; now apply ex_prod]. intro n. change (Rabs (lgam_term z n) <= (z - 1) ^ 2 * / (INR (S n) * (z + INR n))). assert (T := lgam_term_bound z n H). rewrite Rabs_right; lra.
Qed.
Lemma ball_half x z : 0 < x -> Rabs (z - x) < x / 2 -> x / 2 < z.
Proof. intros H B. apply Rabs_lt_between in B. lra. Qed.
(** ---- the derivatives ---- *)
Lemma d_lgam z n : 0 < z -> is_derive (fun y => lgam_term y n) z (psi_term z n).
Proof.
  intro H. assert (P := S_pos n). assert (Q := shift_pos z n H). unfold lgam_term, psi_term. assert (Es : INR n = INR (S n) - 1) by (rewrite S_INR; ring). rewrite Es in *. set (s := INR (S n)) in *. clearbody s. clear Es.
  assert (E : 1 + (z - 1) / s = (z + (s - 1)) / s) by (field; lra). assert (0 < 1 + (z - 1) / s) by (rewrite E; apply Rdiv_lt_0_compat; lra). auto_derive; [exact H0|]. replace (1 + (z + - (1)) * / s) with ((z + (s - 1)) / s) by (field; lra). field. lra.
Qed.
Lemma d_psi z n : 0 < z -> is_derive (fun y => psi_term y n) z (psi1_term z n).
Proof. intro H. assert (P := S_pos n). assert (Q := shift_pos z n H). unfold psi_term, psi1_term. auto_derive; [lra|]. field. lra. Qed.
Lemma d_psi1 z n : 0 < z -> is_derive (fun y => psi1_term y n) z (psi2_term z n).
Proof. intro H. assert (P := S_pos n). assert (Q := shift_pos z n H). unfold psi1_term, psi2_term. auto_derive; [apply Rgt_not_eq, Rmult_lt_0_compat; lra|]. field. lra. Qed.
Lemma d_psi2 z n : 0 < z -> is_derive (fun y => psi2_term y n) z (6 * / (z + INR n) ^ 4).
Proof. intro H. assert (P := S_pos n). assert (Q := shift_pos z n H). unfold psi2_term. auto_derive; [apply Rgt_not_eq; assert (0 < (z + INR n) ^ 3) by (apply pow_lt; lra); cbn in H0; lra|]. field. lra. Qed.
Lemma psi1_term_le x z n : 0 < x -> x < z -> 0 < psi1_term z n <= psi1_term x n.
Proof.
  intros H B. unfold psi1_term. assert (Q := shift_pos x n H). assert (0 < (x + INR n) ^ 2) by (apply pow_lt; lra). split; [apply Rinv_0_lt_compat, pow_lt; lra|]. apply Rinv_le_contravar; auto. apply pow_incr. lra.
Qed.
Lemma inv_le x z n : 0 < x -> x < z -> 0 < / (z + INR n) <= / x.
Proof. intros H B. assert (Q := pos_INR n). split; [apply Rinv_0_lt_compat; lra|]. apply Rinv_le_contravar; lra. Qed.
Lemma lgam_derive x : 0 < x -> is_derive (lgam true_special) x (psi true_special x).
Proof.
  intro H. cbn [lgam psi true_special]. apply (is_derive_plus (fun y => - euler * (y - 1)) (fun y => Series (lgam_term y))); [auto_derive; [trivial|ring]|].
  apply (series_derive (fun n y => lgam_term y n) (fun n y => psi_term y n) (fun n y => psi1_term y n) (psi1_term (x / 2)) x (x / 2)); [lra| | | | | |].
  - intros n z B. apply ball_half in B; auto. apply d_lgam. lra.
  - intros n z B. apply ball_half in B; auto. apply d_psi. lra.
  - intros n z B. apply ball_half in B; auto. assert (T := psi1_term_le (x / 2) z n ltac:(lra) B). rewrite Rabs_right; lra.
  - intros z B. apply ball_half in B; auto. apply ex_lgam. lra.
  - now apply ex_psi.
  - apply ex_psi1. lra.
Qed.
Lemma psi_derive x : 0 < x -> is_derive (psi true_special) x (psi1 true_special x).
Proof.
  intro H. cbn [psi psi1 true_special]. rewrite <- (Rplus_0_l (Series (psi1_term x))). apply (is_derive_plus (fun y => - euler) (fun y => Series (psi_term y))); [apply (is_derive_const (- euler) x)|].
  apply (series_derive (fun n y => psi_term y n) (fun n y => psi1_term y n) (fun n y => psi2_term y n) (fun n => 2 / (x / 2) * psi1_term (x / 2) n) x (x / 2)); [lra| | | | | |].
  - intros n z B. apply ball_half in B; auto. apply d_psi. lra.
  - intros n z B. apply ball_half in B; auto. apply d_psi1. lra.
  - intros n z B. apply ball_half in B; auto. assert (T := psi1_term_le (x / 2) z n ltac:(lra) B). assert (I := inv_le (x / 2) z n ltac:(lra) B). assert (Q := shift_pos z n ltac:(lra)).
    replace (psi2_term z n) with (- (2 * / (z + INR n) * psi1_term z n)) by (unfold psi2_term, psi1_term; field; lra). rewrite Rabs_Ropp, Rabs_right; [|apply Rle_ge; apply Rmult_le_pos; lra]. apply Rmult_le_compat; [lra|lra|unfold Rdiv; lra|lra].
  - intros z B. apply ball_half in B; auto. apply ex_psi. lra.
  - now apply ex_psi1.
  - apply ex_scal. apply ex_psi1. lra.
Qed.
Lemma psi1_derive x : 0 < x -> is_derive (psi1 true_special) x (psi2 true_special x).
Proof.
  intro H. cbn [psi1 psi2 true_special].
  apply (series_derive (fun n y => psi1_term y n) (fun n y => psi2_term y n) (fun n y => 6 * / (y + INR n) ^ 4) (fun n => 6 * (/ (x / 2) * / (x / 2)) * psi1_term (x / 2) n) x (x / 2)); [lra| | | | | |].
  - intros n z B. apply ball_half in B; auto. apply d_psi1. lra.
  - intros n z B. apply ball_half in B; auto. apply d_psi2. lra.
  - intros n z B. apply ball_half in B; auto. assert (T := psi1_term_le (x / 2) z n ltac:(lra) B). assert (I := inv_le (x / 2) z n ltac:(lra) B). assert (Q := shift_pos z n ltac:(lra)).
    replace (6 * / (z + INR n) ^ 4) with (6 * (/ (z + INR n) * / (z + INR n)) * psi1_term z n) by (unfold psi1_term; field; lra). assert (0 < / (z + INR n) * / (z + INR n)) by (apply Rmult_lt_0_compat; lra). assert (/ (z + INR n) * / (z + INR n) <= / (x / 2) * / (x / 2)) by (apply Rmult_le_compat; lra). rewrite Rabs_right; [|apply Rle_ge; apply Rmult_le_pos; lra]. apply Rmult_le_compat; lra.
  - intros z B. apply ball_half in B; auto. apply ex_psi1. lra.
  - now apply ex_psi2.
  - apply ex_scal. apply ex_psi1. lra.
Qed.
Lemma psi1_positive x : 0 < x -> 0 < psi1 true_special x.
Proof.
  intro H. cbn [psi1 true_special]. rewrite (Series_incr_1 (psi1_term x)) by now apply ex_psi1. assert (0 < psi1_term x 0) by (unfold psi1_term; apply Rinv_0_lt_compat, pow_lt; cbn; lra).
  assert (0 <= Series (fun k => psi1_term x (S k))); [|lra]. apply series_nonneg; [|apply (ex_series_incr_1 (psi1_term x)); now apply ex_psi1]. intro n. unfold psi1_term. apply Rlt_le, Rinv_0_lt_compat, pow_lt. now apply shift_pos.
Qed.
Lemma psi2_low x : 0 < x -> - 2 * psi1 true_special x <= x * psi2 true_special x.
Proof.
  intro H. cbn [psi1 psi2 true_special]. rewrite <- !Series_scal_l. assert (E : ex_series (fun n => x * psi2_term x n - - 2 * psi1_term x n)) by (apply (ex_series_minus (fun n => x * psi2_term x n) (fun n => - 2 * psi1_term x n)); apply ex_scal; [now apply ex_psi2|now apply ex_psi1]).
  assert (0 <= Series (fun n => x * psi2_term x n - - 2 * psi1_term x n)).
  { apply series_nonneg; [|exact E]. intro n. unfold psi1_term, psi2_term. assert (Q := shift_pos x n H). assert (P := pos_INR n). replace (x * (- 2 / (x + INR n) ^ 3) - - 2 * / (x + INR n) ^ 2) with (2 * INR n / (x + INR n) ^ 3) by (field; lra). apply Rmult_le_pos; [lra|]. apply Rlt_le, Rinv_0_lt_compat, pow_lt. lra. }
  rewrite Series_minus in H0 by (apply ex_scal; [now apply ex_psi2|now apply ex_psi1] || (apply ex_scal; now apply ex_psi2) || (apply ex_scal; now apply ex_psi1)). lra.
Qed.
Lemma true_facts : gamma_facts true_special.
Proof. constructor; [exact lgam_derive|exact psi_derive|exact psi1_derive|exact psi1_positive|exact psi2_low]. Qed.

(** ---- the functional equation ---- *)
Lemma euler_eq n : euler_term n = lgam_term 2 n.
Proof. unfold euler_term, lgam_term. replace (2 - 1) with 1 by ring. unfold Rdiv. now rewrite !Rmult_1_l. Qed.
Lemma lgam_1 : lgam true_special 1 = 0.
Proof.
  cbn [lgam true_special]. rewrite (Series_ext (lgam_term 1) (fun n => 0 * lgam_term 1 n)); [rewrite Series_scal_l; ring|]. intro n. unfold lgam_term. replace (1 - 1) with 0 by ring. unfold Rdiv. rewrite Rmult_0_l, Rplus_0_r, ln_1. ring.
Qed.
Definition harmonic (N : nat) : R := sum_n (fun n => / INR (S n)) N.
Lemma euler_partial N : sum_n euler_term N = harmonic N - ln (INR (S (S N))).
Proof.
  unfold harmonic. induction N as [|N IH]; [rewrite !sum_O; unfold euler_term; cbn; rewrite Rinv_1; reflexivity|]. rewrite !sum_Sn, IH. unfold plus; cbn -[INR sum_n]. unfold euler_term. assert (P := S_pos (S N)). assert (Q := S_pos (S (S N))).
  replace (1 + / INR (S (S N))) with (INR (S (S (S N))) / INR (S (S N))) by (rewrite (S_INR (S (S N))); field; lra). rewrite ln_div by lra. ring.
Qed.
Lemma lgam_partial x N : 0 < x -> sum_n (lgam_term (x + 1)) N - sum_n (lgam_term x) N = harmonic N - ln (x + 1 + INR N) + ln x.
Proof.
  intro H. unfold harmonic. assert (Step : forall n, lgam_term (x + 1) n - lgam_term x n = / INR (S n) - (ln (x + 1 + INR n) - ln (x + INR n))).
  { intro n. unfold lgam_term. assert (P := S_pos n). assert (Q := shift_pos x n H). assert (E0 := S_INR n). replace (1 + (x + 1 - 1) / INR (S n)) with ((x + 1 + INR n) / INR (S n)) by (rewrite E0 in *; field; lra). replace (1 + (x - 1) / INR (S n)) with ((x + INR n) / INR (S n)) by (rewrite E0 in *; field; lra). rewrite !ln_div by lra. field. lra. }
  induction N as [|N IH].
  - rewrite !sum_O. rewrite Step. cbn [INR]. rewrite !Rplus_0_r. lra.
  - rewrite !sum_Sn. unfold plus; cbn -[INR sum_n lgam_term]. assert (T := Step (S N)). replace (x + INR (S N)) with (x + 1 + INR N) in T by (rewrite S_INR; ring). lra.
Qed.
Lemma lgam_next x : 0 < x -> lgam true_special (x + 1) = lgam true_special x + ln x.
Proof.
  intro H. cbn [lgam true_special]. assert (A : Series (lgam_term (x + 1)) - Series (lgam_term x) = euler + ln x); [|lra].
  assert (L1 : is_lim_seq (fun N => sum_n (lgam_term (x + 1)) N - sum_n (lgam_term x) N) (Series (lgam_term (x + 1)) - Series (lgam_term x))) by (apply is_lim_seq_minus'; apply Series_correct; apply ex_lgam; lra).
  assert (L2 : is_lim_seq (fun N => sum_n euler_term N - ln (1 + (x - 1) / INR (S (S N))) + ln x) (euler - 0 + ln x)).
  { apply is_lim_seq_plus'; [|apply is_lim_seq_const]. apply is_lim_seq_minus'.
    - apply Series_correct. apply (ex_series_ext (lgam_term 2)); [intro n; symmetry; apply euler_eq|apply ex_lgam; lra].
    - rewrite <- ln_1. apply (is_lim_seq_continuous ln (fun N => 1 + (x - 1) / INR (S (S N))) 1).
      + apply derivable_continuous_pt. exists (/ 1). apply derivable_pt_lim_ln. lra.
      + replace (Finite 1) with (Finite (1 + 0)) by (f_equal; ring). apply is_lim_seq_plus'; [apply is_lim_seq_const|]. replace 0 with ((x - 1) * 0) by ring. apply is_lim_seq_mult'; [apply is_lim_seq_const|].
        apply (is_lim_seq_inv (fun n => INR (S (S n))) p_infty); [|discriminate]. apply (is_lim_seq_ext (fun n => INR (n + 2))); [intro n; f_equal; lia|]. apply -> (is_lim_seq_incr_n INR 2). apply is_lim_seq_INR. }
  rewrite Rminus_0_r in L2. assert (U := is_lim_seq_unique _ _ L1). assert (V := is_lim_seq_unique _ _ L2). rewrite (Lim_seq_ext _ (fun N => sum_n euler_term N - ln (1 + (x - 1) / INR (S (S N))) + ln x)) in U; [rewrite U in V; injection V as V; exact V|].
  intro N. rewrite lgam_partial, euler_partial by exact H. assert (P := S_pos (S N)). assert (Q := shift_pos (x + 1) N ltac:(lra)). replace (1 + (x - 1) / INR (S (S N))) with ((x + 1 + INR N) / INR (S (S N))) by (rewrite !S_INR in *; field; lra). rewrite ln_div by lra. ring.
Qed.
Lemma lgam_fact n : lgam true_special (INR n + 1) = ln (INR (fact n)).
Proof.
  induction n as [|n IH]; [cbn [INR fact]; rewrite Rplus_0_l, ln_1; exact lgam_1|]. rewrite lgam_next by apply S_pos. rewrite S_INR, IH. rewrite <- S_INR. change (fact (S n)) with (S n * fact n)%nat. rewrite mult_INR, ln_mult; [ring|apply S_pos|apply lt_0_INR, lt_O_fact].
Qed.
Lemma psi_next x : 0 < x -> psi true_special (x + 1) = psi true_special x + / x.
Proof.
  intro H. assert (D1 : is_derive (fun y => lgam true_special (y + 1)) x (psi true_special (x + 1))).
  { replace (psi true_special (x + 1)) with (1 * psi true_special (x + 1)) by ring. apply (is_derive_comp (lgam true_special) (fun y => y + 1) x (psi true_special (x + 1)) 1); [apply lgam_derive; lra|auto_derive; [trivial|ring]]. }
  assert (D2 : is_derive (fun y => lgam true_special y + ln y) x (psi true_special x + / x)) by (apply (is_derive_plus (lgam true_special) ln); [now apply lgam_derive|now apply is_derive_ln]).
  rewrite <- (is_derive_unique _ _ _ D1), <- (is_derive_unique _ _ _ D2). apply Derive_ext_loc. exists (mkposreal x H). intros y Hy. apply lgam_next. change (Rabs (y - x) < x) in Hy. apply Rabs_lt_between in Hy. lra.
Qed.

(** ---- convexity and uniqueness ---- *)
Lemma psi_mono x y : 0 < x -> x < y -> psi true_special x < psi true_special y.
Proof.
  intros H L. destruct (MVT_gen (psi true_special) x y (psi1 true_special)) as [c [Hc E]].
  - intros z Hz. rewrite Rmin_left, Rmax_right in Hz by lra. apply psi_derive. lra.
  - intros z Hz. rewrite Rmin_left, Rmax_right in Hz by lra. apply continuity_pt_filterlim, (ex_derive_continuous (psi true_special) z). exists (psi1 true_special z). apply psi_derive. lra.
  - rewrite Rmin_left, Rmax_right in Hc by lra. assert (P := psi1_positive c ltac:(lra)). nra.
Qed.
Lemma lgam_slope x y : 0 < x -> x < y -> exists c, x < c < y /\ lgam true_special y - lgam true_special x = psi true_special c * (y - x).
Proof.
  intros H L. destruct (MVT_cor2 (lgam true_special) (psi true_special) x y L) as [c [E Hc]]; [intros z Hz; apply is_derive_Reals, lgam_derive; lra|]. exists c. split; [exact Hc|exact E].
Qed.
Lemma lgam_convex : convex_pos (lgam true_special).
Proof.
  assert (A : forall x y t, 0 < x -> x < y -> 0 <= t <= 1 -> lgam true_special (t * x + (1 - t) * y) <= t * lgam true_special x + (1 - t) * lgam true_special y).
  { intros x y t H L Ht. destruct (Req_dec t 0) as [-> |T0]; [right; f_equal; try f_equal; ring_simplify; f_equal; ring|]. destruct (Req_dec t 1) as [-> |T1]; [right; replace (1 * x + (1 - 1) * y) with x by ring; ring|].
    set (z := t * x + (1 - t) * y). assert (Zx : x < z) by (unfold z; nra). assert (Zy : z < y) by (unfold z; nra). destruct (lgam_slope x z H Zx) as [c [Hc Ec]]. destruct (lgam_slope z y ltac:(lra) Zy) as [d [Hd Ed]].
    assert (M := psi_mono c d ltac:(lra) ltac:(lra)). replace (z - x) with ((1 - t) * (y - x)) in Ec by (unfold z; ring). replace (y - z) with (t * (y - x)) in Ed by (unfold z; ring).
    assert (t * ((1 - t) * (y - x)) * psi true_special c <= t * ((1 - t) * (y - x)) * psi true_special d) by (apply Rmult_le_compat_l; [apply Rmult_le_pos; [lra|apply Rmult_le_pos; lra]|lra]). nra. }
  intros x y t Hx Hy Ht. destruct (Rtotal_order x y) as [L|[-> |L]]; [now apply A| |].
  - right. replace (t * y + (1 - t) * y) with y by ring. ring.
  - replace (t * x + (1 - t) * y) with ((1 - t) * y + (1 - (1 - t)) * x) by ring. assert (T := A y x (1 - t) Hy L ltac:(lra)). lra.
Qed.
Lemma convex_upper g n x : convex_pos g -> (forall y, 0 < y -> g (y + 1) = g y + ln y) -> 0 < x <= 1 -> g (INR (S n) + x) - g (INR (S n)) <= x * ln (INR (S n)).
Proof.
  intros C N H. assert (P := S_pos n). assert (T := C (INR (S n)) (INR (S n) + 1) (1 - x) P ltac:(lra) ltac:(lra)). rewrite N in T by exact P. replace ((1 - x) * INR (S n) + (1 - (1 - x)) * (INR (S n) + 1)) with (INR (S n) + x) in T by ring. lra.
Qed.
Lemma convex_lower g n x : convex_pos g -> (forall y, 0 < y -> g (y + 1) = g y + ln y) -> 0 < x <= 1 -> x * ln (INR (S n)) <= g (INR (S (S n)) + x) - g (INR (S (S n))).
Proof.
  intros C N H. assert (P := S_pos n). set (m := INR (S n)) in *. replace (INR (S (S n))) with (m + 1) by (unfold m; rewrite (S_INR (S n)); reflexivity).
  assert (I : 0 < / (1 + x) < 1). { split; [apply Rinv_0_lt_compat; lra|]. rewrite <- Rinv_1. apply Rinv_lt_contravar; lra. }
  assert (T := C (m + 1 + x) m (/ (1 + x)) ltac:(lra) P ltac:(lra)). replace (/ (1 + x) * (m + 1 + x) + (1 - / (1 + x)) * m) with (m + 1) in T by (field; lra). rewrite !(N m) in * by exact P.
  apply (Rmult_le_compat_l (1 + x)) in T; [|lra]. replace ((1 + x) * (/ (1 + x) * g (m + 1 + x) + (1 - / (1 + x)) * g m)) with (g (m + 1 + x) + x * g m) in T by (field; lra). lra.
Qed.
Lemma shift_eq g n x : (forall y, 0 < y -> g (y + 1) = g y + ln y) -> 0 < x -> g (INR n + x) - lgam true_special (INR n + x) = g x - lgam true_special x.
Proof.
  intros N H. induction n as [|n IH]; [cbn [INR]; now rewrite Rplus_0_l|]. rewrite S_INR. replace (INR n + 1 + x) with (INR n + x + 1) by ring. assert (P := pos_INR n). rewrite N, lgam_next by lra. lra.
Qed.
Lemma gamma_unique g : g 1 = 0 -> (forall y, 0 < y -> g (y + 1) = g y + ln y) -> convex_pos g -> forall x, 0 < x -> g x = lgam true_special x.
Proof.
  intros G1 N C. assert (Unit : forall x, 0 < x <= 1 -> g x = lgam true_special x).
  { intros x H. set (D := g x - lgam true_special x). assert (Z : forall n, Rabs D <= / INR (S n)).
    { intro n. assert (S1 := shift_eq g (S (S n)) x N ltac:(lra)). fold D in S1. assert (S2 := shift_eq g (S n) 1 N ltac:(lra)). rewrite G1, lgam_1 in S2. replace (INR (S n) + 1) with (INR (S (S n))) in S2 by (now rewrite (S_INR (S n))).
      assert (U1 := convex_upper g (S n) x C N H). assert (L1 := convex_lower g n x C N H). assert (U2 := convex_upper (lgam true_special) (S n) x lgam_convex lgam_next H). assert (L2 := convex_lower (lgam true_special) n x lgam_convex lgam_next H).
      assert (P := S_pos n). assert (E : ln (INR (S (S n))) - ln (INR (S n)) <= / INR (S n)). { rewrite <- ln_div by (apply S_pos). replace (INR (S (S n)) / INR (S n)) with (1 + / INR (S n)) by (rewrite (S_INR (S n)); field; lra). apply ln_above. assert (0 < / INR (S n)) by now apply Rinv_0_lt_compat. lra. }
      assert (M : x * (ln (INR (S (S n))) - ln (INR (S n))) <= / INR (S n)). { assert (0 < / INR (S n)) by now apply Rinv_0_lt_compat. destruct (Rle_dec 0 (ln (INR (S (S n))) - ln (INR (S n)))); nra. } apply Rabs_le. lra. }
    assert (D0 : D = 0); [|unfold D in D0; lra]. destruct (Req_dec D 0) as [E|E]; [exact E|]. exfalso. apply Rabs_pos_lt in E. destruct (archimed_cor1 (Rabs D) E) as [m [A B]]. destruct m as [|m]; [lia|]. specialize (Z m). lra. }
  intros x H. assert (F : forall n x, 0 < x -> x <= INR (S n) -> g x = lgam true_special x); [|destruct (nfloor_ex x ltac:(lra)) as [n Hn]; apply (F n); [exact H|]; rewrite S_INR; lra].
  clear x H. induction n as [|n IH]; intros x H B; [apply Unit; cbn in B; lra|]. destruct (Rle_dec x 1) as [X|X]; [now apply Unit|]. rewrite S_INR in B. replace x with (x - 1 + 1) by ring. rewrite N, lgam_next by lra. rewrite (IH (x - 1)) by lra. reflexivity.
Qed.
