(** Property C184: the periodic and the linear kernel in double precision. *)
From Coq Require Import Reals ZArith Lra Lia List Bool Permutation.
From Flocq Require Import Core.
From Verif Require Import M_Base M_RBase M_Kernel M_Float M_FloatProbit M_FloatPer S_Float P_RBase P_Float P_FloatProbit P_FloatNorm P_FloatPer T_Float.
Import ListNotations.
Local Open Scope R_scope.

(** both covariances are symmetric, whatever the parameters are and however the sums are added *)
Theorem C184_symmetric : forall sm (u v : point), (forall s l p, per_fl b64 sm s l p u v = per_fl b64 sm s l p v u) /\ (forall s sb c, lin_fl b64 sm s sb c u v = lin_fl b64 sm s sb c v u).
Proof. exact (fun sm u v => conj (fun s l p => per_sym sm s l p u v) (fun s sb c => lin_sym sm s sb c u v)). Qed.
Print Assumptions C184_symmetric.

(** the periodic covariance is a number between 0 and the rounded variance *)
Theorem C184_periodic : forall sm s l p (u v : point), sums b64 sm -> u <> [] -> length u = length v -> (Z.of_nat (length u) <= 2 ^ 20)%Z -> Rabs s <= bpow radix2 511 ->
  bpow radix2 (-537) <= Rabs l <= bpow radix2 511 -> bpow radix2 (-400) <= Rabs p -> (forall a b, In (a, b) (combine u v) -> Rabs (a - b) <= bpow radix2 400) ->
  exists x, per_fl b64 sm s l p u v = Fin x /\ 0 <= x <= rd b64 (s * s).
Proof. exact per_range. Qed.
Print Assumptions C184_periodic.

(** a point with itself has the rounded variance, for every period *)
Theorem C184_periodic_self : forall sm s l p (u : point), sums b64 sm -> u <> [] -> Rabs s <= bpow radix2 511 -> bpow radix2 (-537) <= Rabs l <= bpow radix2 511 -> p <> 0 ->
  per_fl b64 sm s l p u u = Fin (rd b64 (s * s)).
Proof. exact per_self. Qed.
Print Assumptions C184_periodic_self.

(** a length scale whose square vanishes makes the diagonal NaN *)
Theorem C184_length_refuted : forall sm s l p (u : point), sums b64 sm -> u <> [] -> Rabs l <= bpow radix2 (-540) -> p <> 0 -> per_fl b64 sm s l p u u = NaN.
Proof. exact per_tiny_length. Qed.
Print Assumptions C184_length_refuted.

(** a phase that overflows makes the covariance NaN, whatever sigma and the length scale are *)
Theorem C184_overflow_refuted : forall sm s l p (u v : point) a b, sums b64 sm -> u <> [] -> length u = length v -> 0 < p <= bpow radix2 (-530) -> In (a, b) (combine u v) ->
  bpow radix2 500 <= Rabs (a - b) -> per_fl b64 sm s l p u v = NaN.
Proof. exact per_far. Qed.
Print Assumptions C184_overflow_refuted.

(** points a whole number of periods apart: the exact kernel gives the variance, the computed one loses more than 5/16 of it *)
Theorem C184_period_refuted : forall sm, sums b64 sm -> (exists x, per_fl b64 sm 1 1 1 [0] [IZR (2 ^ 52)] = Fin x /\ x <= 11 / 16) /\ per_call 1 1 1 [0] [IZR (2 ^ 52)] = 1.
Proof. exact per_turns. Qed.
Print Assumptions C184_period_refuted.

(** the linear covariance is a number *)
Theorem C184_linear : forall sm s sb c (u v : point), sums b64 sm -> u <> [] -> length u = length v -> (Z.of_nat (length u) <= 2 ^ 20)%Z -> Rabs s <= bpow radix2 200 -> Rabs sb <= bpow radix2 200 ->
  Rabs c <= bpow radix2 200 -> (forall a, In a (u ++ v) -> Rabs a <= bpow radix2 200) -> exists x, lin_fl b64 sm s sb c u v = Fin x.
Proof. exact lin_range. Qed.
Print Assumptions C184_linear.

(** a point with itself has at least the rounded offset *)
Theorem C184_linear_self : forall sm s sb c (u : point) x, sums b64 sm -> u <> [] -> lin_fl b64 sm s sb c u u = Fin x -> rd b64 (sb * sb) <= x.
Proof. exact lin_self. Qed.
Print Assumptions C184_linear_self.

(** a centre that absorbs the coordinates: all pairs of points get one covariance *)
Theorem C184_centre_refuted : forall sm s sb k (u v u' v' : point), (-400 <= k <= 400)%Z -> length u = length v -> length u' = length u -> length v' = length u ->
  (forall a, In a (u ++ v ++ u' ++ v') -> - bpow radix2 (k - 53) <= a <= 0) -> lin_fl b64 sm s sb (bpow radix2 k) u v = lin_fl b64 sm s sb (bpow radix2 k) u' v'.
Proof. exact lin_offset. Qed.
Print Assumptions C184_centre_refuted.

(** ---- Examples ---- *)
Lemma pow_in (x : R) (j k : Z) : (j <= 0 <= k)%Z -> 1 <= x -> x <= bpow radix2 k -> bpow radix2 j <= Rabs x <= bpow radix2 k.
Proof. intros H L U. rewrite Rabs_right by lra. split; [|exact U]. apply Rle_trans with 1; [change 1 with (bpow radix2 0); apply bpow_le; lia|exact L]. Qed.
Lemma up_to (x : R) (k : Z) : (4 <= k)%Z -> Rabs x <= 16 -> Rabs x <= bpow radix2 k.
Proof. intros H L. apply Rle_trans with (bpow radix2 4); [exact L|apply bpow_le; lia]. Qed.
Ltac num := match goal with |- Rabs ?x <= _ => unfold Rabs; destruct (Rcase_abs x); lra end.
Example C184_symmetric_ex : [0; 1] <> [2; 5] /\ per_fl b64 right_sum 1 2 3 [0; 1] [2; 5] = per_fl b64 right_sum 1 2 3 [2; 5] [0; 1].
Proof. split; [intro E; injection E; lra|]. apply (C184_symmetric right_sum [0; 1] [2; 5]). Qed.
Example C184_periodic_ex : (exists x, per_fl b64 right_sum 2 1 3 [0; 1] [2; 5] = Fin x /\ 0 <= x <= 4) /\ per_fl b64 right_sum 2 1 3 [2; 5] [2; 5] = Fin 4.
Proof.
  assert (R4 : rd b64 (2 * 2) = 4) by (replace (2 * 2) with (IZR 4) by lra; apply b64_rounding; lia).
  assert (A : Rabs 2 <= bpow radix2 511) by (apply up_to; [lia|num]). assert (B : bpow radix2 (-537) <= Rabs 1 <= bpow radix2 511) by (apply pow_in; [lia|lra|change 1 with (bpow radix2 0); apply bpow_le; lia]).
  split.
  - destruct (C184_periodic right_sum 2 1 3 [0; 1] [2; 5] C152_sums_example) as [x H]; [discriminate|reflexivity|cbn; lia|exact A|exact B| | |rewrite R4 in H; now exists x].
    + rewrite Rabs_right by lra. apply Rle_trans with (bpow radix2 0); [apply bpow_le; lia|cbn; lra].
    + intros a b [E|[E|[]]]; injection E as <- <-; (apply up_to; [lia|num]).
  - rewrite (C184_periodic_self right_sum 2 1 3 [2; 5] C152_sums_example); [now rewrite R4|discriminate|exact A|exact B|lra].
Qed.
Example C184_nan_ex : per_fl b64 right_sum 1 (bpow radix2 (-540)) 1 [5] [5] = NaN /\ per_fl b64 right_sum 1 1 (bpow radix2 (-530)) [0] [bpow radix2 500] = NaN.
Proof.
  split.
  - apply (C184_length_refuted right_sum 1 _ 1 [5] C152_sums_example); [discriminate| |lra]. rewrite Rabs_right by (apply Rle_ge, bpow_ge_0). lra.
  - apply (C184_overflow_refuted right_sum 1 1 _ [0] [bpow radix2 500] 0 (bpow radix2 500) C152_sums_example); [discriminate|reflexivity| |now left|].
    + split; [apply bpow_gt_0|lra].
    + rewrite Rminus_0_l, Rabs_Ropp, Rabs_right by (apply Rle_ge, bpow_ge_0). lra.
Qed.
Example C184_period_ex : exists x, per_fl b64 right_sum 1 1 1 [0] [IZR (2 ^ 52)] = Fin x /\ x < per_call 1 1 1 [0] [IZR (2 ^ 52)].
Proof. destruct (C184_period_refuted right_sum C152_sums_example) as [[x [E L]] P]. exists x. split; [exact E|]. rewrite P. lra. Qed.
Example C184_linear_ex : exists x, lin_fl b64 right_sum 2 3 1 [0; 5] [0; 5] = Fin x /\ 9 <= x.
Proof.
  destruct (C184_linear right_sum 2 3 1 [0; 5] [0; 5] C152_sums_example) as [x E]; [discriminate|reflexivity|cbn; lia|apply up_to; [lia|num]|apply up_to; [lia|num]|apply up_to; [lia|num]| |].
  - intros a [<- |[<- |[<- |[<- |[]]]]]; (apply up_to; [lia|num]).
  - exists x. split; [exact E|]. assert (H := C184_linear_self right_sum 2 3 1 [0; 5] x C152_sums_example ltac:(discriminate) E). replace (3 * 3) with (IZR 9) in H by lra.
    assert (R9 : rd b64 (IZR 9) = 9) by (apply b64_rounding; lia). rewrite R9 in H. exact H.
Qed.
(** centre 1: the points 0 and -2^-53 cannot be told apart, the exact kernel tells them apart *)
Example C184_centre_ex : lin_fl b64 right_sum 1 1 1 [0] [0] = lin_fl b64 right_sum 1 1 1 [- bpow radix2 (-53)] [- bpow radix2 (-53)] /\
  lin_call 1 1 1 [0] [0] < lin_call 1 1 1 [- bpow radix2 (-53)] [- bpow radix2 (-53)].
Proof.
  assert (P := bpow_gt_0 radix2 (-53)). split.
  - change 1 with (bpow radix2 0) at 3 6. apply (C184_centre_refuted right_sum 1 1 0); [lia|reflexivity|reflexivity|reflexivity|].
    change (0 - 53)%Z with (-53)%Z. intros a [<- |[<- |[<- |[<- |[]]]]]; lra.
  - unfold lin_call. cbn [combine map fst snd rsum]. nra.
Qed.
