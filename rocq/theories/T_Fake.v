(** Properties C70, C71, C83: the synthetic utilities *)
From Verif Require Import M_Base M_RBase M_Fake S_Fake P_RBase P_Fake P_Fake2.
From Coq Require Import Reals Lra Lia.
Local Open Scope R_scope.

(** C70: for the weights produced by [randomize] from any draws, on arrays of every supported shape *)
Theorem C70_linear : forall u, Forall (fun x => 0 <= x) u -> 0 < rsum u -> monotone_on (fun _ => True) (linear_calc (sum_weights u)).
Proof. exact (fun u H Hs => linear_monotone _ (sum_weights_nonneg u H Hs)). Qed.
Print Assumptions C70_linear.
Theorem C70_linear_average : forall u x lo hi, (2 <= length u)%nat -> Forall (fun x => 0 <= x) u -> 0 < rsum u -> length x = length u ->
  (forall a, In a x -> lo <= a <= hi) ->
  exists v, linear_calc (sum_weights u) (Vec x) = Ok (Scal v) /\ v * rsum u = rsum (zipw Rmult x u) /\ lo <= v <= hi.
Proof. exact linear_average. Qed.
Print Assumptions C70_linear_average.
Theorem C70_squared : forall u, Forall (fun x => 0 <= x) u -> 0 < rsum u -> monotone_on (fun x => 0 <= x) (squared_calc (sum_weights u)).
Proof. exact (fun u H Hs => squared_monotone _ (sum_weights_nonneg u H Hs)). Qed.
Print Assumptions C70_squared.
Theorem C70_logistic : forall u q m v, Forall (fun x => 0 <= x) u -> -2 < v -> monotone_on (fun _ => True) (logistic_calc (logistic_random u q m v)).
Proof.
  exact (fun u q m v H Hv => logistic_monotone (logistic_random u q m v) (logistic_random_w u q m v H) (logistic_random_Q u q m v)
    (eq_ind_r (fun z => z < v + 2) (Rplus_lt_compat_r 2 _ _ Hv) (eq_sym (Rplus_opp_l 2)))).
Qed.
Print Assumptions C70_logistic.
Theorem C70_logistic_range : forall u q m v wx, 0 < logistic_val (logistic_random u q m v) wx < 1.
Proof. exact (fun u q m v wx => logistic_val_bounds _ wx (logistic_random_Q u q m v)). Qed.
Print Assumptions C70_logistic_range.
Theorem C70_weighted_max : forall u x, Forall (fun x => 0 <= x) u -> In x u -> 0 < x -> monotone_on (fun _ => True) (wmax_calc (inf_weights u)).
Proof. exact (fun u x H Hi Hx => wmax_monotone _ (inf_weights_nonneg u x H Hi Hx)). Qed.
Print Assumptions C70_weighted_max.
Theorem C70_weighted_min : forall u x, Forall (fun x => 0 <= x) u -> In x u -> 0 < x -> monotone_on (fun _ => True) (wmin_calc (inf_weights u)).
Proof. exact (fun u x H Hi Hx => wmin_monotone _ (inf_weights_nonneg u x H Hi Hx)). Qed.
Print Assumptions C70_weighted_min.
Theorem C70_min_log : forall alpha u x u' q m v, 0 <= alpha <= 1 -> Forall (fun x => 0 <= x) u -> In x u -> 0 < x ->
  Forall (fun x => 0 <= x) u' -> -2 < v -> monotone_on (fun _ => True) (minlog_calc alpha (inf_weights u) (logistic_random u' q m v)).
Proof.
  exact (fun alpha u x u' q m v Ha H Hi Hx H' Hv => minlog_monotone alpha (inf_weights u) (logistic_random u' q m v) Ha (inf_weights_nonneg u x H Hi Hx)
    (logistic_random_w u' q m v H') (logistic_random_Q u' q m v) (eq_ind_r (fun z => z < v + 2) (Rplus_lt_compat_r 2 _ _ Hv) (eq_sym (Rplus_opp_l 2)))).
Qed.
Print Assumptions C70_min_log.
Theorem C70_squared_min_max : forall u, Forall (fun x => 0 <= x) u -> 0 < rsum u -> monotone_on (fun x => 0 <= x) (sqminmax_calc (l1_weights u)).
Proof. exact (fun u H Hs => sqminmax_monotone _ (l1_weights_nonneg u H Hs)). Qed.
Print Assumptions C70_squared_min_max.
(** draws 1/4 and 3/4 meet the hypotheses; an improvement from (2, 1) to (2, 5) *)
Example C70_ex : Forall (fun x => 0 <= x) [1/4; 3/4] /\ 0 < rsum [1/4; 3/4] /\ In (3/4) [1/4; 3/4] /\
  arr_le (Vec [2; 1]) (Vec [2; 5]) /\
  linear_calc (sum_weights [1/4; 3/4]) (Vec [2; 1]) = Ok (Scal (5/4)) /\ linear_calc (sum_weights [1/4; 3/4]) (Vec [2; 5]) = Ok (Scal (17/4)).
Proof.
  split; [repeat constructor; lra|]. split; [cbn; lra|]. split; [right; now left|]. split; [cbn; repeat constructor; lra|].
  unfold linear_calc, sum_weights. cbn. split; do 2 f_equal; lra.
Qed.
(** the restriction to non-negative rewards is needed for the squared utility *)
Example C70_squared_negative : squared_calc [1/2; 1/2] (Vec [-2; 0]) = Ok (Scal 2) /\ squared_calc [1/2; 1/2] (Vec [0; 0]) = Ok (Scal 0).
Proof. cbn. split; do 2 f_equal; lra. Qed.

(** C71 *)
Theorem C71_linear : forall w, (length w <> 1)%nat -> batch_agrees (length w) (linear_calc w) (fun x => rsum (zipw Rmult x w)).
Proof. exact (fun w H => proj1 (linear_batch w H)). Qed.
Print Assumptions C71_linear.
Theorem C71_squared : forall w, (length w <> 1)%nat ->
  batch_agrees (length w) (squared_calc w) (fun x => rsum (zipw Rmult (map (fun a => a * a) x) w)).
Proof. exact (fun w H => proj1 (squared_batch w H)). Qed.
Print Assumptions C71_squared.
Theorem C71_logistic : forall L, (length (lg_w L) <> 1)%nat ->
  batch_agrees (length (lg_w L)) (logistic_calc L) (fun x => logistic_val L (rsum (zipw Rmult x (lg_w L)) - lg_M L)).
Proof. exact (fun L H => proj1 (logistic_batch L H)). Qed.
Print Assumptions C71_logistic.
Theorem C71_weighted_max : forall w, (2 <= length w)%nat -> exists u, batch_agrees (length w) (wmax_calc w) u /\ forall x, length x = length w ->
  (exists i a b, nth_error x i = Some a /\ nth_error w i = Some b /\ u x = a * b) /\
  (forall i a b, nth_error x i = Some a -> nth_error w i = Some b -> a * b <= u x).
Proof. exact wmax_full. Qed.
Print Assumptions C71_weighted_max.
Theorem C71_weighted_min : forall w, (2 <= length w)%nat -> exists u, batch_agrees (length w) (wmin_calc w) u /\ forall x, length x = length w ->
  (exists i a b, nth_error x i = Some a /\ nth_error w i = Some b /\ u x = a * b) /\
  (forall i a b, nth_error x i = Some a -> nth_error w i = Some b -> u x <= a * b).
Proof. exact wmin_full. Qed.
Print Assumptions C71_weighted_min.
Theorem C71_min_log : forall alpha w L, (2 <= length w)%nat -> length (lg_w L) = length w ->
  exists u, batch_agrees (length w) (minlog_calc alpha w L) u.
Proof. exact (fun alpha w L H H' => ex_intro _ _ (minlog_batch alpha w L H H')). Qed.
Print Assumptions C71_min_log.
Theorem C71_one_dimension : forall w0 L, lg_w L = [w0] ->
  entrywise (linear_calc [w0]) (fun x => x * w0) /\ entrywise (squared_calc [w0]) (fun x => x * x * w0) /\
  entrywise (logistic_calc L) (fun x => logistic_val L (x * w0)).
Proof. exact (fun w0 L E => conj (linear_one w0) (conj (squared_one w0) (logistic_one L w0 E))). Qed.
Print Assumptions C71_one_dimension.
Example C71_ex : batch_agrees 2 (linear_calc [1/4; 3/4]) (fun x => rsum (zipw Rmult x [1/4; 3/4])) /\
  linear_calc [1/4; 3/4] (Mat [[2; 1]; [2; 5]]) = Ok (Vec [5/4; 17/4]) /\ linear_calc [1/4; 3/4] (Vec [2; 5]) = Ok (Scal (17/4)).
Proof.
  split; [apply (C71_linear [1/4; 3/4]); discriminate|]. cbn. split; do 2 f_equal; [|lra]. f_equal; [lra|]. f_equal; lra.
Qed.
(** FakeSquaredMinMax evaluates a single option by another formula than a batch *)
Theorem C71_squared_min_max_refuted : exists w, Forall (fun x => 0 < x) w /\ rsum w = 1 /\ forall u, ~ batch_agrees 2 (sqminmax_calc w) u.
Proof. exact sqminmax_single_batch. Qed.
Print Assumptions C71_squared_min_max_refuted.
(** a one-dimensional weighted maximum collapses a python list of options to one number, but not an array *)
Theorem C71_list_refuted : wmax_calc [1] (PList [1; 2]) = Ok (Scal 2) /\ wmax_calc [1] (Vec [1; 2]) = Ok (Vec [1; 2]).
Proof.
  split; [|reflexivity]. cbn. unfold rmax1. cbn. do 2 f_equal. unfold Rmax. destruct (Rle_dec _ _); lra.
Qed.
Print Assumptions C71_list_refuted.
(** FakeMixtureGaussian answers one reward vector with as many numbers as there are rewards *)
Theorem C71_mixture_refuted : forall dens u, ~ batch_agrees 2 (mixture_calc dens) u.
Proof. exact mixture_wrong. Qed.
Print Assumptions C71_mixture_refuted.

(** C83 *)
Theorem C83_linear : forall w, (length w <> 1)%nat -> query_agrees (length w) (linear_calc w) (fun x => rsum (zipw Rmult x w)).
Proof. exact (fun w H => proj2 (linear_batch w H)). Qed.
Print Assumptions C83_linear.
Theorem C83_squared : forall w, (length w <> 1)%nat ->
  query_agrees (length w) (squared_calc w) (fun x => rsum (zipw Rmult (map (fun a => a * a) x) w)).
Proof. exact (fun w H => proj2 (squared_batch w H)). Qed.
Print Assumptions C83_squared.
Theorem C83_logistic : forall L, (length (lg_w L) <> 1)%nat ->
  query_agrees (length (lg_w L)) (logistic_calc L) (fun x => logistic_val L (rsum (zipw Rmult x (lg_w L)) - lg_M L)).
Proof. exact (fun L H => proj2 (logistic_batch L H)). Qed.
Print Assumptions C83_logistic.
Example C83_ex : linear_calc [1/2; 1/2] (Tens [[[2; 4]; [1; 5]]; [[0; 2]; [6; 0]]]) = Ok (Mat [[3; 3]; [1; 3]]).
Proof. cbn. repeat f_equal; lra. Qed.
(** the weighted maximum and minimum reduce over the options instead of over the rewards *)
Theorem C83_weighted_refuted : exists w t, Forall (fun x => 0 < x) w /\ norm_inf w = 1 /\ Forall (Forall (fun x : list R => length x = 2%nat)) t /\
  (forall u, batch_agrees 2 (wmax_calc w) u -> wmax_calc w (Tens t) <> Ok (Mat (map (map u) t))) /\
  (forall u, batch_agrees 2 (wmin_calc w) u -> wmin_calc w (Tens t) <> Ok (Mat (map (map u) t))).
Proof. exact weighted_query_wrong. Qed.
Print Assumptions C83_weighted_refuted.
