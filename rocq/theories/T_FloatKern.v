(** Property C171: the RBF kernel in double precision, and the factorisation of its matrix for two training points. *)
From Coq Require Import Reals ZArith Lra Lia List Bool Permutation.
From Flocq Require Import Core.
From Verif Require Import M_Base M_RBase M_Kernel M_GP M_Float M_FloatProbit M_FloatKern S_Float S_Kernel P_RBase P_Float P_FloatProbit P_FloatNorm P_FloatKern P_FloatKern2 P_FloatKern3 P_FloatKern4 P_FloatKern6 T_Float.
Import ListNotations.
Local Open Scope R_scope.

(** the matrix of any points is symmetric, whatever the parameters are *)
Theorem C171_symmetric : forall sm s l n X K i j, rbf_cov_fl b64 sm s l n X X = Ok K -> (i < length X)%nat -> (j < length X)%nat -> entry_fl K i j = entry_fl K j i.
Proof. exact cov_sym. Qed.
Print Assumptions C171_symmetric.
(** all entries are numbers: sigma squared and the noise on the diagonal, between 0 and sigma squared elsewhere; the points are any numbers *)
Theorem C171_matrix : forall sm s l n X d, sums b64 sm -> (0 < d)%nat -> (forall x, In x X -> length x = d) -> Rabs s <= bpow radix2 511 ->
  bpow radix2 (-537) <= Rabs l <= bpow radix2 511 -> 0 <= n <= bpow radix2 1022 -> rd b64 n = n -> X <> [] ->
  exists K, rbf_cov_fl b64 sm s l n X X = Ok K /\ length K = length X /\
  forall i j, (i < length X)%nat -> (j < length X)%nat ->
    entry_fl K i i = rnd b64 (rd b64 (s * s) + n) /\
    (i <> j -> exists x, entry_fl K i j = Fin x /\ rbf_fl b64 sm s l (pt X i) (pt X j) = Fin x /\ 0 <= x <= rd b64 (s * s)).
Proof. exact cov_ok. Qed.
Print Assumptions C171_matrix.
(** for parameters and distances of ordinary size every covariance is close to its exact value, in whatever order the squares are added *)
Theorem C171_accurate : forall sm s l (u v : point), sums b64 sm -> u <> [] -> length u = length v -> (Z.of_nat (length u) <= 2 ^ 20)%Z -> bpow radix2 (-100) <= Rabs s <= bpow radix2 100 ->
  bpow radix2 (-100) <= Rabs l <= bpow radix2 100 -> (forall a b, In (a, b) (combine u v) -> Rabs (a - b) <= bpow radix2 100) ->
  exists x, rbf_fl b64 sm s l u v = Fin x /\ Rabs (x - s * s * exp (- sqdist u v / (2 * l * l))) <= (4 * INR (length u) + 40) * bpow radix2 (-53) * (s * s).
Proof. exact rbf_err. Qed.
Print Assumptions C171_accurate.
(** different points are not told apart: this close to each other, their covariance is that of a point with itself *)
Theorem C171_near_refuted : forall sm s l u v, sums b64 sm -> u <> [] -> length u = length v -> (Z.of_nat (length u) <= 2 ^ 20)%Z -> Rabs s <= bpow radix2 511 ->
  bpow radix2 (-400) <= Rabs l <= bpow radix2 400 -> (forall a b, In (a, b) (combine u v) -> Rabs (a - b) <= bpow radix2 (-41) * Rabs l) ->
  rbf_fl b64 sm s l u v = Fin (rd b64 (s * s)).
Proof. exact rbf_near. Qed.
Print Assumptions C171_near_refuted.
(** covariances are not positive: points far from each other have none *)
Theorem C171_far_refuted : forall sm s l u v a b, sums b64 sm -> u <> [] -> length u = length v -> Rabs s <= bpow radix2 511 -> bpow radix2 (-400) <= Rabs l <= bpow radix2 400 ->
  In (a, b) (combine u v) -> 512 * Rabs l <= Rabs (a - b) -> rbf_fl b64 sm s l u v = Fin 0.
Proof. exact rbf_far. Qed.
Print Assumptions C171_far_refuted.
(** a positive length scale whose square vanishes leaves NaN on the diagonal *)
Theorem C171_length_refuted : forall sm s l u, sums b64 sm -> u <> [] -> bpow radix2 (-1074) <= Rabs l <= bpow radix2 (-540) -> rbf_fl b64 sm s l u u = NaN.
Proof. exact rbf_tiny_length. Qed.
Print Assumptions C171_length_refuted.
(** a positive sigma whose square vanishes leaves no covariance at all *)
Theorem C171_sigma_refuted : forall sm s l u v, sums b64 sm -> u <> [] -> length u = length v -> Rabs s <= bpow radix2 (-540) -> bpow radix2 (-537) <= Rabs l <= bpow radix2 511 ->
  rbf_fl b64 sm s l u v = Fin 0.
Proof. exact rbf_tiny_sigma. Qed.
Print Assumptions C171_sigma_refuted.
(** two training points: enough noise and uncertainty compared with sigma squared, and the factorisation exists wherever they are *)
Theorem C171_factor : forall sm inv fused s l n (x y : point) sx, sums b64 sm -> x <> [] -> length x = length y -> bpow radix2 (-200) <= Rabs s <= bpow radix2 200 ->
  bpow radix2 (-537) <= Rabs l <= bpow radix2 511 -> rd b64 n = n -> 0 <= n <= bpow radix2 400 -> 0 <= sx <= bpow radix2 400 -> bpow radix2 (-40) * (s * s) <= n + sx ->
  exists r, gp_factor2_fl b64 sm inv fused s l n x y sx sx = Ok r.
Proof. exact factor_ok. Qed.
Print Assumptions C171_factor.
(** too little, and a repeated point raises, although over the real numbers the factorisation exists *)
Theorem C171_factor_refuted : forall sm inv fused k l n (x y : point) sx sy, sums b64 sm -> (-200 <= k <= 200)%Z -> x <> [] -> length x = length y -> (Z.of_nat (length x) <= 2 ^ 20)%Z ->
  bpow radix2 (-400) <= Rabs l <= bpow radix2 400 -> (forall a b, In (a, b) (combine x y) -> Rabs (a - b) <= bpow radix2 (-41) * Rabs l) ->
  rd b64 n = n -> 0 <= n <= bpow radix2 (2 * k - 53) -> 0 <= sx <= bpow radix2 (2 * k - 53) -> 0 <= sy <= bpow radix2 (2 * k - 53) ->
  gp_factor2_fl b64 sm inv fused (bpow radix2 k) l n x y sx sy = Raise LinAlgError.
Proof. exact near_factor. Qed.
Print Assumptions C171_factor_refuted.
Theorem C171_real : forall s l n (x y : point) sx sy, l <> 0 -> 0 < n -> 0 <= sx -> 0 <= sy ->
  exists M L, kcov (RBF s l n) [x; y] [x; y] = Ok M /\ chol 2 (gp_cov M [sx; sy]) = Some L.
Proof. exact real_factor. Qed.
Print Assumptions C171_real.

(** ---- Examples ---- *)
Lemma one_in : bpow radix2 (-400) <= Rabs 1 <= bpow radix2 400 /\ bpow radix2 (-537) <= Rabs 1 <= bpow radix2 511 /\ Rabs 1 <= bpow radix2 511 /\ bpow radix2 (-200) <= Rabs 1 <= bpow radix2 200.
Proof. rewrite Rabs_R1. change 1 with (bpow radix2 0). repeat split; apply bpow_le; lia. Qed.
Example C171_matrix_ex : exists K, rbf_cov_fl b64 right_sum 1 1 1 [[0; 0]; [3; 1]] [[0; 0]; [3; 1]] = Ok K /\ entry_fl K 0 0 = Fin 2 /\ entry_fl K 0 1 = entry_fl K 1 0.
Proof.
  destruct one_in as [_ [A [B _]]]. assert (P : 1 <= bpow radix2 1022) by (change 1 with (bpow radix2 0); apply bpow_le; lia).
  destruct (C171_matrix right_sum 1 1 1 [[0; 0]; [3; 1]] 2 C152_sums_example ltac:(lia) ltac:(intros x [<-|[<-|[]]]; reflexivity) B A ltac:(lra) (rd_1 b64 b64_rounding) ltac:(discriminate)) as [K [E [_ H]]].
  exists K. split; [exact E|]. split; [|apply (C171_symmetric _ _ _ _ _ K 0 1 E); cbn; lia].
  destruct (H 0%nat 0%nat ltac:(cbn; lia) ltac:(cbn; lia)) as [-> _]. rewrite Rmult_1_l, (rd_1 b64 b64_rounding). exact (P_FloatOrd.rnd_int 2 ltac:(lia)).
Qed.
Example C171_accurate_ex : exists x, rbf_fl b64 right_sum 1 1 [0; 0] [1; 1] = Fin x /\ Rabs (x - exp (-1)) <= 48 * bpow radix2 (-53).
Proof.
  assert (B : bpow radix2 (-100) <= Rabs 1 <= bpow radix2 100) by (rewrite Rabs_R1; change 1 with (bpow radix2 0); split; apply bpow_le; lia).
  destruct (C171_accurate right_sum 1 1 [0; 0] [1; 1] C152_sums_example ltac:(discriminate) eq_refl ltac:(cbn; lia) B B) as [x [E K]].
  - intros a b [Q|[Q|[]]]; assert (a = 0) by congruence; assert (b = 1) by congruence; subst; rewrite Rabs_minus_sym, Rminus_0_r; apply B.
  - exists x. split; [exact E|]. eapply Rle_trans; [|eapply Rle_trans; [exact K|]].
    + right. f_equal. unfold sqdist. cbn [combine map fst snd length]. change (rsum [(0 - 1) * (0 - 1); (0 - 1) * (0 - 1)]) with ((0 - 1) * (0 - 1) + ((0 - 1) * (0 - 1) + 0)).
      replace (- ((0 - 1) * (0 - 1) + ((0 - 1) * (0 - 1) + 0)) / (2 * 1 * 1)) with (-1) by field. lra.
    + right. change (length [0; 0]) with 2%nat. change (INR 2) with (1 + 1). ring.
Qed.
Example C171_near_ex : bpow radix2 (-50) <> 0 /\ rbf_fl b64 right_sum 1 1 [0] [bpow radix2 (-50)] = Fin 1 /\ rbf_fl b64 right_sum 1 1 [0] [600] = Fin 0.
Proof.
  destruct one_in as [A [_ [B _]]]. split; [apply Rgt_not_eq, bpow_gt_0|]. split.
  - rewrite (C171_near_refuted right_sum 1 1 [0] [bpow radix2 (-50)] C152_sums_example); [now rewrite Rmult_1_l, (rd_1 b64 b64_rounding)|discriminate|reflexivity|cbn; lia|exact B|exact A|].
    intros a b [E|[]]. assert (Ea : a = 0) by congruence. assert (Eb : b = bpow radix2 (-50)) by congruence. rewrite Ea, Eb, Rabs_R1, Rmult_1_r, Rabs_minus_sym, Rminus_0_r, Rabs_right by (apply Rle_ge, bpow_ge_0). apply bpow_le. lia.
  - apply (C171_far_refuted right_sum 1 1 [0] [600] 0 600 C152_sums_example); [discriminate|reflexivity|exact B|exact A|now left|]. rewrite Rabs_R1, Rabs_left; lra.
Qed.
Example C171_length_ex : 0 < bpow radix2 (-540) /\ rbf_fl b64 right_sum 1 (bpow radix2 (-540)) [5] [5] = NaN /\ rbf_fl b64 right_sum (bpow radix2 (-540)) 1 [5] [5] = Fin 0.
Proof.
  destruct one_in as [_ [A _]]. assert (R : Rabs (bpow radix2 (-540)) = bpow radix2 (-540)) by (apply Rabs_right, Rle_ge, bpow_ge_0). split; [apply bpow_gt_0|]. split.
  - apply (C171_length_refuted right_sum 1 _ [5] C152_sums_example); [discriminate|]. rewrite R. split; [apply bpow_le; lia|lra].
  - apply (C171_sigma_refuted right_sum _ 1 [5] [5] C152_sums_example); [discriminate|reflexivity|lra|exact A].
Qed.
(** the noise and the uncertainty of the defaults are below 1; sigma is 2^30 *)
Example C171_factor_ex : (forall inv fused, gp_factor2_fl b64 right_sum inv fused (bpow radix2 30) 1 1 [5] [5] (5 / 10000) (5 / 10000) = Raise LinAlgError) /\
  (exists M L, kcov (RBF (bpow radix2 30) 1 1) [[5]; [5]] [[5]; [5]] = Ok M /\ chol 2 (gp_cov M [5 / 10000; 5 / 10000]) = Some L) /\
  (forall inv fused, exists r, gp_factor2_fl b64 right_sum inv fused 1 1 0 [5] [5] (5 / 10000) (5 / 10000) = Ok r).
Proof.
  destruct one_in as [A [A' [_ A2]]]. assert (P1 : 1 <= bpow radix2 (2 * 30 - 53)) by (change 1 with (bpow radix2 0); apply bpow_le; lia). split; [|split].
  - intros inv fused. apply (C171_factor_refuted right_sum inv fused 30 1 1 [5] [5] _ _ C152_sums_example); [lia|discriminate|reflexivity|cbn; lia|exact A| |apply (rd_1 b64 b64_rounding)|lra|lra|lra].
    intros a b [E|[]]. injection E as <- <-. rewrite Rminus_diag_eq, Rabs_R0, Rabs_R1, Rmult_1_r by reflexivity. apply bpow_ge_0.
  - apply C171_real; lra.
  - intros inv fused. assert (P4 : 1 <= bpow radix2 400) by (change 1 with (bpow radix2 0); apply bpow_le; lia).
    apply (C171_factor right_sum inv fused 1 1 0 [5] [5] _ C152_sums_example); [discriminate|reflexivity|exact A2|exact A'|apply (rd_0 b64 b64_rounding)|lra|lra|].
    change (bpow radix2 (-40)) with (/ 1099511627776). lra.
Qed.
