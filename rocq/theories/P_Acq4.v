(** The value of a query as a weighted variance, and a loss under the log-likelihood alignment. *)
From Coq Require Import Lra.
From Verif Require Import M_RBase P_RBase S_Psd P_Psd M_Fake M_OrdProbit M_Select M_Info P_Info P_Info2 P_Info3 P_User S_User M_Acq S_Acq P_Acq P_Acq2 M_Normal M_PrefProbit P_Normal.
From Coq Require Import Reals Lra Lia List.
From Verif Require Import S_Psd P_Psd.
Import ListNotations.
Local Open Scope R_scope.

Lemma qform_zscale n F c t : qform n F (fun i => t * c i) = t * t * qform n F c.
Proof. unfold qform. rewrite <- sumn_scale. apply sumn_ext. intros i _. rewrite <- sumn_scale. apply sumn_ext. intros; ring. Qed.
Lemma ratio_split_eq n F x y : (0 < n)%nat -> sumn n x <> 0 -> sumn n y <> 0 -> sumn n x + sumn n y <> 0 ->
  ratio n F x + ratio n F y = ratio n F (fun i => x i + y i)
    + qform n F (fun i => sumn n y * x i - sumn n x * y i) / (INR n * (sumn n x * sumn n y * (sumn n x + sumn n y))).
Proof.
  intros Hn Hx Hy Hxy. assert (P := P_Acq.INR_pos n Hn). rewrite qform_comb. unfold ratio. rewrite qform_sum, sumn_plus.
  set (a := sumn n x) in *. set (b := sumn n y) in *. field. repeat split; auto; lra.
Qed.
Lemma pair_align_variance M n f p a b : (0 < M)%nat -> answer_probabilities M p a b ->
  let pbar := sumn M (fun k => p k a b) / INR M in
  pair_align M n f p a b = mean_entry M f + qform M f (fun k => p k a b - pbar) / (INR M * INR M * (pbar * (1 - pbar))).
Proof.
  intros HM Hp pbar. assert (P := P_Acq.INR_pos M HM). rewrite pair_align_ratio, <- ratio_one by auto.
  assert (S1 : 0 < sumn M (fun k => p k a b)) by (apply sumn_pos; auto; intros k Hk; apply Hp; auto).
  assert (S2 : 0 < sumn M (fun k => p k b a)) by (apply sumn_pos; auto; intros k Hk; apply Hp; auto).
  assert (S3 : sumn M (fun k => p k a b) + sumn M (fun k => p k b a) = INR M).
  { rewrite <- sumn_plus. rewrite (sumn_ext M _ (fun _ => 1)) by (intros k Hk; apply Hp; auto). rewrite sumn_const. ring. }
  rewrite ratio_split_eq by (auto; lra). rewrite (ratio_ext M f (fun k => p k a b + p k b a) (fun _ => 1)) by (intros k Hk; apply Hp; auto).
  f_equal. set (u := sumn M (fun k => p k a b)) in *. set (v := sumn M (fun k => p k b a)) in *.
  rewrite (qform_ext M f f (fun i => v * p i a b - u * p i b a) (fun i => INR M * (p i a b - pbar))).
  - rewrite qform_zscale. unfold pbar. replace v with (INR M - u) by lra. field. repeat split; lra.
  - reflexivity.
  - intros k Hk. unfold pbar. replace v with (INR M - u) by lra. replace (p k b a) with (1 - p k a b) by (specialize (Hp k Hk); lra). field. lra.
Qed.

Lemma isq1 : 0 < isqrt2sig 1 < 1.
Proof.
  assert (S2 : 1 < sqrt 2) by (rewrite <- sqrt_1; apply sqrt_lt_1; lra).
  unfold isqrt2sig. rewrite Rmult_1_l. split; [apply Rdiv_lt_0_compat; lra|]. apply (Rmult_lt_reg_r (sqrt 2)); [lra|]. unfold Rdiv. rewrite Rmult_assoc, Rinv_l by lra. lra.
Qed.
Definition lr_rep : list (list R) := [[3; 0]; [0; 0]; [0; 1]].
Definition lr_cand : list (list R) := [[0; 0]; [1; 0]; [0; 0]].
Definition lr_f (i j : nat) : R := align_entry ALogLik 1 [[0; 1]%nat] (nth i lr_rep []) (nth j lr_rep []).
Definition lr_p (k : nat) : nat -> nat -> R := probit_of 1 (nth k lr_cand []).
Lemma Rabs_def2_le x a : Rabs x <= a -> - a <= x <= a.
Proof. unfold Rabs. destruct (Rcase_abs x); lra. Qed.
Lemma probit_val x y : Rabs (x - y) <= 5 -> probit_of 1 [x; y] 0 1 = ndtr ((x - y) * isqrt2sig 1) /\ probit_of 1 [x; y] 1 0 = 1 - ndtr ((x - y) * isqrt2sig 1).
Proof.
  intro H. assert (I := isq1). apply Rabs_def2_le in H. unfold probit_of, likelihood_all_pairs. cbn [nth].
  assert (B : -30 <= (x - y) * isqrt2sig 1 <= 30) by nra. rewrite !std_norm_cdf_id by (try lra; nra). split; auto.
  rewrite <- ndtr_sym. f_equal. ring.
Qed.
Lemma lr_answers : answer_probabilities 3 lr_p 0 1.
Proof.
  assert (I := isq1). apply (probit_answers 1 3 lr_cand 0 1); [lra|]. intros k Hk. apply Rabs_le. destruct k as [|[|[|k]]]; cbn; lra || lia.
Qed.
Lemma loglik_loss n : pair_align 3 n lr_f lr_p 0 1 < mean_entry 3 lr_f.
Proof.
  assert (I := isq1). rewrite pair_align_variance by (try lia; apply lr_answers).
  destruct (probit_val 0 0) as [V0 V0']; [rewrite Rminus_0_r, Rabs_R0; lra|].
  destruct (probit_val 1 0) as [V1 V1']; [rewrite Rminus_0_r, Rabs_R1; lra|].
  destruct (probit_val 3 0) as [V3 V3']; [apply Rabs_le; lra|].
  destruct (probit_val 0 1) as [W1 W1']; [apply Rabs_le; lra|].
  set (N1 := ndtr ((1 - 0) * isqrt2sig 1)) in *. set (N3 := ndtr ((3 - 0) * isqrt2sig 1)) in *.
  assert (E0 : ndtr ((0 - 0) * isqrt2sig 1) = 1/2) by (replace ((0 - 0) * isqrt2sig 1) with 0 by ring; apply ndtr_0).
  assert (EW : ndtr ((0 - 1) * isqrt2sig 1) = 1 - N1) by (unfold N1; rewrite <- ndtr_sym; f_equal; ring).
  rewrite E0 in *. rewrite EW in *.
  assert (L1 : 1/2 < N1) by (rewrite <- E0; apply ndtr_increasing; lra).
  assert (L3 : N1 < N3) by (apply ndtr_increasing; lra).
  assert (U3 : N3 < 1) by apply ndtr_range.
  set (pbar := sumn 3 (fun k => lr_p k 0%nat 1%nat) / INR 3).
  assert (P0 : lr_p 0 0%nat 1%nat = 1/2) by exact V0. assert (P1 : lr_p 1 0%nat 1%nat = N1) by exact V1. assert (P2 : lr_p 2 0%nat 1%nat = 1/2) by exact V0.
  assert (PB : pbar = (1 + N1) / 3) by (unfold pbar; cbn [sumn]; rewrite P0, P1, P2; cbn; field).
  assert (B1 : best_alt [3; 0] [0; 1]%nat = 0%nat).
  { unfold best_alt, argmax. cbn. replace (Rltb 3 0) with false by (symmetry; apply Rltb_false; lra). reflexivity. }
  assert (B2 : best_alt [0; 0] [0; 1]%nat = 0%nat).
  { unfold best_alt, argmax. cbn. replace (Rltb 0 0) with false by (symmetry; apply Rltb_false; lra). reflexivity. }
  assert (B3 : best_alt [0; 1] [0; 1]%nat = 1%nat).
  { unfold best_alt, argmax. cbn. replace (Rltb 0 1) with true by (symmetry; apply Rltb_true; lra). reflexivity. }
  assert (Q1 : query_p (probit_of 1 [3; 0]) [0; 1]%nat = [N3; 1 - N3]).
  { rewrite query_p_two by apply probit_pos. rewrite V3, V3'. f_equal; [|f_equal]; field; lra. }
  assert (Q2 : query_p (probit_of 1 [0; 0]) [0; 1]%nat = [1/2; 1/2]).
  { rewrite query_p_two by apply probit_pos. rewrite V0, V0'. f_equal; [|f_equal]; field; lra. }
  assert (Q3 : query_p (probit_of 1 [0; 1]) [0; 1]%nat = [1 - N1; N1]).
  { rewrite query_p_two by apply probit_pos. rewrite W1, W1'. f_equal; [|f_equal]; field; lra. }
  assert (LN1 : ln (1 - N3) < ln (1 - N1)) by (apply ln_increasing; lra). assert (LN2 : ln N1 < ln N3) by (apply ln_increasing; lra).
  set (t := N1 - 1/2). assert (T : 0 < t) by (unfold t; lra).
  assert (QF : qform 3 lr_f (fun k => lr_p k 0%nat 1%nat - pbar) < 0).
  { rewrite (qform_ext 3 lr_f lr_f _ (fun k => (t / 3) * nth k [-1; 2; -1] 0)); [|reflexivity|].
    - rewrite qform_zscale. unfold qform. cbn [sumn]. unfold lr_f, align_entry, loglik_entry, loglik_g, lr_rep. cbn [nth map rsum].
      rewrite !B1, !B2, !B3, !Q1, !Q2, !Q3. cbn [nth].
      assert (TT : 0 < t / 3 * (t / 3)) by (apply Rmult_lt_0_compat; lra).
      match goal with |- _ * ?e < 0 => replace e with (2 * ((ln (1 - N3) - ln N3) + (ln N1 - ln (1 - N1)))) by ring end. nra.
    - intros k Hk. destruct k as [|[|[|k]]]; [| | |lia]; cbn [nth]; rewrite ?P0, ?P1, ?P2, PB; unfold t; field. }
  assert (D : 0 < INR 3 * INR 3 * (pbar * (1 - pbar))). { rewrite PB. apply Rmult_lt_0_compat; [cbn; lra|]. apply Rmult_lt_0_compat; lra. }
  match goal with |- _ + ?u / ?v < _ => assert (Z : 0 < - u / v) by (apply Rdiv_lt_0_compat; [lra|exact D]); unfold Rdiv in *; lra end.
Qed.
