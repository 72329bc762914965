(** Properties C28, C29 and C77: hyper-parameter vectors. *)
From Verif Require Import M_RBase M_Util M_Kernel M_Hyper S_Kernel S_Hyper P_Hyper P_HyperPrior.
From Coq Require Import Lra Lia.
From Coquelicot Require Import Coquelicot.
From Verif Require Import M_RBase M_Kernel M_Hyper S_Kernel S_Hyper.
Local Open Scope R_scope.

(** pairs, ordinal labels and ratings, and a nested kernel *)
Definition ex_hyper : hmodel := mkH true true true (mkPref 1 true) (mkOrd 5 1 (linspace0 2 4)) (mkAbs 1 80 true true) false
  (Some (KAdd (RBF 1 2 0) (KMul (Lin 1 1 1) (Per 1 2 3)))).
Definition ex_vec : list R := 2 :: 3 :: 4 :: 90 :: 5 :: 6 :: 7 :: 8 :: 9 :: 10 :: 11 :: 12 :: nil.

(** C28 *)
Theorem C28_round_trip : forall m x, length x = length (get_hyper m) ->
  (h_ord m = true -> (3 <= o_n (h_o m))%nat /\ forall b, nth_error x (bias_pos m) = Some b -> 0 <= b) ->
  exists m', set_hyper m x = Ok m' /\ get_hyper m' = x /\ same_setup m m'.
Proof. exact hyper_rt. Qed.
Print Assumptions C28_round_trip.
Theorem C28_read_back : forall m, (h_ord m = true -> (3 <= o_n (h_o m))%nat /\ 0 <= last (o_b (h_o m)) 0) ->
  exists m', set_hyper m (get_hyper m) = Ok m' /\ get_hyper m' = get_hyper m /\ same_setup m m'.
Proof. exact hyper_id. Qed.
Print Assumptions C28_read_back.
(** a vector shorter than get_hyper is never accepted *)
Theorem C28_too_short : forall m x m', set_hyper m x = Ok m' -> (length (get_hyper m) <= length x)%nat.
Proof. exact set_hyper_short. Qed.
Print Assumptions C28_too_short.
(** with ordinal labels: the sign of the bias is lost, and with two ordinals the bias itself *)
Theorem C28_negative_bias_refuted : forall m x m' b, set_hyper m x = Ok m' -> h_ord m = true -> nth_error x (bias_pos m) = Some b -> b < 0 -> get_hyper m' <> x.
Proof. exact negative_bias. Qed.
Print Assumptions C28_negative_bias_refuted.
Theorem C28_two_ordinals_refuted : forall m x m' b, set_hyper m x = Ok m' -> h_ord m = true -> (o_n (h_o m) <= 2)%nat -> nth_error x (bias_pos m) = Some b -> b <> 0 -> get_hyper m' <> x.
Proof. exact two_ordinals. Qed.
Print Assumptions C28_two_ordinals_refuted.
(** writing back what was read changes the breakpoints of the ordinal probit *)
Theorem C28_breakpoints_refuted : exists m m', h_ord m = true /\ (3 <= o_n (h_o m))%nat /\ 0 <= last (o_b (h_o m)) 0 /\ set_hyper m (get_hyper m) = Ok m' /\ o_b (h_o m') <> o_b (h_o m).
Proof. exact breakpoints_example. Qed.
Print Assumptions C28_breakpoints_refuted.
Example C28_ex : exists m', set_hyper ex_hyper ex_vec = Ok m' /\
  h_kern m' = Some (KAdd (RBF 5 6 0) (KMul (Lin 7 8 9) (Per 10 11 12))) /\ p_sigma (h_p m') = 2 /\ o_sigma (h_o m') = 3 /\ a_v (h_a m') = 90 /\
  get_hyper m' = ex_vec.
Proof.
  destruct (C28_round_trip ex_hyper ex_vec) as [m' [E [F _]]]; [reflexivity| |].
  - intros _. split; [cbn; lia|]. intros b H. injection H as <-. lra.
  - exists m'. rewrite F. cbn in E. injection E as <-. repeat split.
Qed.
Example C28_negative_ex : exists m', set_hyper (mkH false true false (mkPref 1 true) (mkOrd 3 1 (linspace0 1 2)) (mkAbs 1 1 true true) false None) (cons 1 (cons (-2) nil)) = Ok m' /\ get_hyper m' <> cons 1 (cons (-2) nil).
Proof. eexists. split; [reflexivity|]. apply (C28_negative_bias_refuted (mkH false true false (mkPref 1 true) (mkOrd 3 1 (linspace0 1 2)) (mkAbs 1 1 true true) false None) _ _ (-2)); try reflexivity. lra. Qed.
Example C28_two_ordinals_ex : exists m', set_hyper (mkH false true false (mkPref 1 true) (mkOrd 2 1 (linspace0 1 1)) (mkAbs 1 1 true true) false None) (cons 1 (cons 2 nil)) = Ok m' /\ get_hyper m' <> cons 1 (cons 2 nil).
Proof. eexists. split; [reflexivity|]. apply (C28_two_ordinals_refuted (mkH false true false (mkPref 1 true) (mkOrd 2 1 (linspace0 1 1)) (mkAbs 1 1 true true) false None) _ _ 2); try reflexivity. apply Rgt_not_eq. lra. Qed.
Example C28_read_back_ex : exists m', set_hyper ex_hyper (get_hyper ex_hyper) = Ok m' /\ get_hyper m' = get_hyper ex_hyper.
Proof. destruct (C28_read_back ex_hyper) as [m' [E [F _]]]; [|eauto]. intros _. split; [cbn; lia|]. cbn. lra. Qed.

(** C29 *)
Theorem C29_aligned_partial : forall m d k, aligned m -> h_kern m = Some k -> (length (kparam k) <= length (d_k d))%nat ->
  exists m', randomize_hyper m d = Ok m' /\ own_draws d m m'.
Proof. exact randomize_aligned. Qed.
Print Assumptions C29_aligned_partial.
(** only pairs: sigma of the kernel gets the draw made for the precision of the rating probit, the length scale that of sigma *)
Theorem C29_pairs_only_refuted : forall m d s l e x1 xs, h_rel m = true -> p_opt (h_p m) = true -> h_ord m = false -> h_abs m = false -> a_v_only (h_a m) = true ->
  h_only_probit m = false -> h_kern m = Some (RBF s l e) -> d_k d = x1 :: xs -> xs <> nil ->
  exists m', randomize_hyper m d = Ok m' /\ h_kern m' = Some (RBF (d_av d) x1 e).
Proof. exact randomize_pairs_only. Qed.
Print Assumptions C29_pairs_only_refuted.
Theorem C29_ratings_only_refuted : forall m d k, h_rel m = false -> p_opt (h_p m) = true -> h_ord m = false -> h_abs m = true -> a_opt (h_a m) = true -> a_v_only (h_a m) = true ->
  h_kern m = Some k -> h_only_probit m = true -> exists m', randomize_hyper m d = Ok m' /\ a_v (h_a m') = d_p d.
Proof. exact randomize_ratings_only. Qed.
Print Assumptions C29_ratings_only_refuted.
Theorem C29_ordinal_refuted : forall m d s l e x1 x2, h_rel m = true -> p_opt (h_p m) = true -> h_ord m = true -> h_abs m = false -> a_v_only (h_a m) = true ->
  h_only_probit m = false -> h_kern m = Some (RBF s l e) -> d_k d = x1 :: x2 :: nil -> randomize_hyper m d = Raise IndexError.
Proof. exact randomize_ordinal. Qed.
Print Assumptions C29_ordinal_refuted.
Theorem C29_combination_refuted : forall m d a b, h_rel m = true -> p_opt (h_p m) = true -> h_ord m = false -> h_abs m = true -> a_opt (h_a m) = true ->
  h_only_probit m = false -> h_kern m = Some (KAdd a b) \/ h_kern m = Some (KMul a b) -> exists e, randomize_hyper m d = Raise e.
Proof. exact randomize_combination. Qed.
Print Assumptions C29_combination_refuted.
Example C29_ex : exists m', randomize_hyper (mkH true false true (mkPref 1 true) (mkOrd 5 1 (linspace0 1 4)) (mkAbs 1 80 true true) false (Some (RBF 1 1 0))) (mkDraws 2 3 4 (cons 5 (cons 6 nil))) = Ok m' /\
  get_hyper m' = cons 2 (cons 4 (cons 5 (cons 6 nil))).
Proof.
  destruct (C29_aligned_partial (mkH true false true (mkPref 1 true) (mkOrd 5 1 (linspace0 1 4)) (mkAbs 1 80 true true) false (Some (RBF 1 1 0))) (mkDraws 2 3 4 (cons 5 (cons 6 nil))) (RBF 1 1 0)) as [m' [E [_ [_ H]]]].
  - split; [reflexivity|]. split; [auto|]. right. split; [reflexivity|]. split; [reflexivity|]. intros k Hk. injection Hk as <-. exact I.
  - reflexivity.
  - reflexivity.
  - exists m'. split; auto. injection E as <-. reflexivity.
Qed.
Example C29_pairs_only_ex : exists m', randomize_hyper (mkH true false false (mkPref 1 true) (mkOrd 5 1 (linspace0 1 4)) (mkAbs 1 80 true true) false (Some (RBF 1 1 0))) (mkDraws 2 3 80 (cons 5 (cons 6 nil))) = Ok m' /\
  ~ own_draws (mkDraws 2 3 80 (cons 5 (cons 6 nil))) (mkH true false false (mkPref 1 true) (mkOrd 5 1 (linspace0 1 4)) (mkAbs 1 80 true true) false (Some (RBF 1 1 0))) m'.
Proof.
  destruct (C29_pairs_only_refuted (mkH true false false (mkPref 1 true) (mkOrd 5 1 (linspace0 1 4)) (mkAbs 1 80 true true) false (Some (RBF 1 1 0))) (mkDraws 2 3 80 (cons 5 (cons 6 nil))) 1 1 0 5 (cons 6 nil)) as [m' [E H]]; try reflexivity; [discriminate|].
  exists m'. split; auto. intros [_ [_ K]]. destruct (K _ eq_refl eq_refl) as [k' [K1 K2]]. rewrite H in K1. injection K1 as <-. injection K2 as K2 _. cbn in K2. lra.
Qed.
Example C29_combination_ex : exists e, randomize_hyper (mkH true false true (mkPref 1 true) (mkOrd 5 1 (linspace0 1 4)) (mkAbs 1 80 true true) false (Some (KAdd (RBF 1 1 0) (Lin 1 1 0)))) (mkDraws 2 3 4 (cons 5 (cons 6 nil))) = Raise e.
Proof. apply (C29_combination_refuted _ _ (RBF 1 1 0) (Lin 1 1 0)); auto. Qed.

(** C77 *)
Theorem C77_prior_gradient : forall g m i, h_ord m = false -> (h_abs m = true -> a_opt (h_a m) = true -> a_v_only (h_a m) = true) -> (forall x, In x (get_hyper m) -> 1 / 1000000 < x) ->
  (i < length (get_hyper m))%nat -> is_derive (likelihood_at g m i) (nth i (get_hyper m) 0) (nth i (grad_hyper_likelihood m) 0).
Proof. exact prior_derive. Qed.
Print Assumptions C77_prior_gradient.
Theorem C77_length : forall m, h_ord m = false -> length (grad_hyper_likelihood m) = length (get_hyper m).
Proof. exact grad_len. Qed.
Print Assumptions C77_length.
(** with ordinal labels the gradient is two entries too short *)
Theorem C77_ordinal_refuted : forall m, h_ord m = true -> length (get_hyper m) = (length (grad_hyper_likelihood m) + 2)%nat.
Proof. exact grad_len_ordinal. Qed.
Print Assumptions C77_ordinal_refuted.
(** the prior of the precision of the rating probit is constant, its gradient is not zero *)
Theorem C77_precision_refuted : forall g p o s v op, 0 <= s -> 1 / 1000000 < v -> v <> 25 ->
  let m := mkH false false true p o (mkAbs s v true false) op None in
  is_derive (likelihood_at g m 1) v 0 /\ nth 1 (get_hyper m) 0 = v /\ nth 1 (grad_hyper_likelihood m) 0 <> 0.
Proof. exact prior_v_wrong. Qed.
Print Assumptions C77_precision_refuted.
(** its sigma has the right gradient *)
Theorem C77_sigma : forall g p o s v op, 1 / 1000000 < s -> 0 <= v ->
  let m := mkH false false true p o (mkAbs s v true false) op None in
  is_derive (likelihood_at g m 0) s (nth 0 (grad_hyper_likelihood m) 0) /\ nth 0 (get_hyper m) 0 = s.
Proof. exact prior_sigma_right. Qed.
Print Assumptions C77_sigma.
Example C77_sigma_ex : nth 0 (grad_hyper_likelihood (mkH false false true (mkPref 1 true) (mkOrd 5 1 (linspace0 1 4)) (mkAbs 3 80 true false) false None)) 0 = -1 /\ 1 / 1000000 < 3.
Proof. split; [|lra]. cbn [grad_hyper_likelihood h_kern h_rel h_ord h_abs h_a app abs_prior_grad a_opt a_v_only nth a_sigma]. unfold d_log_pdf_gamma. rewrite P_Util.gamma_clip_id by lra. field. Qed.
Example C77_ex : is_derive (likelihood_at (fun _ => 1) (mkH true false true (mkPref 1 true) (mkOrd 5 1 (linspace0 1 4)) (mkAbs 1 80 true true) false (Some (RBF 1 2 0))) 3) 2
  (d_log_pdf_gamma 2 3 (4/10)).
Proof.
  apply (C77_prior_gradient (fun _ => 1) (mkH true false true (mkPref 1 true) (mkOrd 5 1 (linspace0 1 4)) (mkAbs 1 80 true true) false (Some (RBF 1 2 0))) 3); auto.
  cbn. intros x H. intuition lra.
Qed.
Example C77_precision_ex : nth 1 (grad_hyper_likelihood (mkH false false true (mkPref 1 true) (mkOrd 5 1 (linspace0 1 4)) (mkAbs 1 80 true false) false None)) 0 <> 0.
Proof. apply (C77_precision_refuted (fun _ => 1) (mkPref 1 true) (mkOrd 5 1 (linspace0 1 4)) 1 80 false); try lra. Qed.
Example C77_ordinal_ex : length (grad_hyper_likelihood ex_hyper) = 10%nat /\ length (get_hyper ex_hyper) = 12%nat.
Proof. split; reflexivity. Qed.
