(** Property C187: the tuning objectives of HumanChoiceUser2 in double precision. *)
From Coq Require Import Reals ZArith Lra Lia List Bool Permutation.
From Flocq Require Import Core.
From Verif Require Import M_Base M_RBase M_User M_Float M_FloatProbit M_FloatPer M_FloatTune S_User S_Float P_RBase P_Float P_FloatTune P_FloatTune2 P_FloatTune3 P_FloatTune4 P_FloatTune5 T_Float.
Import ListNotations.
Local Open Scope R_scope.

(** the chance of one pair is between 1/2 and 1, also where the exponential overflows; ties are left out, clear choices are exactly one *)
Theorem C187_chance : forall b d, 0 <= b -> (kept_fl b64 b d = NaN \/ exists x, kept_fl b64 b d = Fin x /\ 1 / 2 < x <= 1) /\
  (Rabs d * b = 0 -> kept_fl b64 b d = NaN) /\ (54 <= Rabs d * b -> kept_fl b64 b d = Fin 1).
Proof. exact kept_ok. Qed.
Print Assumptions C187_chance.
(** before the threshold it is the exact choice probability up to 2^-47, whatever the magnitudes *)
Theorem C187_accurate : forall b d, 0 <= b -> exists x, chance_fl b64 b d = Fin x /\ Rabs (x - pair_probability b d) <= bpow radix2 (-47).
Proof. exact chance_near. Qed.
Print Assumptions C187_accurate.
Example C187_accurate_ex : exists x, chance_fl b64 1 (ln 3) = Fin x /\ Rabs (x - 3 / 4) <= bpow radix2 (-47).
Proof.
  destruct (C187_accurate 1 (ln 3)) as [x [E B]]; [lra|]. exists x. split; [exact E|].
  assert (0 < ln 3) by (rewrite <- ln_1; apply ln_increasing; lra).
  unfold pair_probability in B. rewrite (Rabs_pos_eq (ln 3)), Rmult_1_r, exp_ln in B by lra. replace (3 / (1 + 3)) with (3 / 4) in B by field. exact B.
Qed.
(** the pairwise objective is a number between 0 and 1 unless every pair is left out *)
Theorem C187_pair : forall sm b ds p, sums b64 sm -> 0 <= b -> 0 <= p <= 1 -> ds <> [] -> (Z.of_nat (length ds) <= 2 ^ 53)%Z ->
  (obj_fl b64 sm b ds p = NaN <-> forall d, In d ds -> kept_fl b64 b d = NaN) /\
  (obj_fl b64 sm b ds p = NaN \/ exists v, obj_fl b64 sm b ds p = Fin v /\ 0 <= v <= 1).
Proof. exact pair_objective. Qed.
Print Assumptions C187_pair.
(** away from ties the search sees the exact objective up to 2^-29, for up to 2^20 pairs added in any order *)
Theorem C187_objective : forall sm b ds p, sums b64 sm -> 0 <= b -> 0 <= p <= 1 -> ds <> [] -> (Z.of_nat (length ds) <= 2 ^ 20)%Z ->
  Forall (fun d => 5000001 / 10000000 <= pair_probability b d) ds ->
  exists v w, obj_fl b64 sm b ds p = Fin v /\ obj b ds p = Some w /\ Rabs (v - w) <= bpow radix2 (-29).
Proof. exact obj_near. Qed.
Print Assumptions C187_objective.
Example C187_objective_ex : exists v w, obj_fl b64 right_sum 1 [ln 3] (1 / 2) = Fin v /\ obj 1 [ln 3] (1 / 2) = Some w /\ Rabs (v - w) <= bpow radix2 (-29).
Proof.
  apply C187_objective; [exact C152_sums_example|lra|lra|discriminate|cbn; lia|]. constructor; [|constructor].
  assert (0 < ln 3) by (rewrite <- ln_1; apply ln_increasing; lra). unfold pair_probability. rewrite (Rabs_pos_eq (ln 3)), Rmult_1_r, exp_ln by lra. lra.
Qed.
(** the rating objective is a number between 0 and 1 unless all differences are zero *)
Theorem C187_rating : forall sm s ds p, sums b64 sm -> 0 < s -> 0 <= p <= 1 -> ds <> [] -> (Z.of_nat (length ds) <= 2 ^ 53)%Z ->
  (rate_obj_fl b64 sm s ds p = NaN <-> forall d, In d ds -> d = 0) /\
  (rate_obj_fl b64 sm s ds p = NaN \/ exists v, rate_obj_fl b64 sm s ds p = Fin v /\ 0 <= v <= 1).
Proof. exact rate_objective. Qed.
Print Assumptions C187_rating.
(** it is the exact rating objective up to 2^-28, for up to 2^20 differences of which not all are zero *)
Theorem C187_rating_objective : forall sm s ds p, sums b64 sm -> bpow radix2 (-100) <= s <= bpow radix2 100 -> 0 <= p <= 1 -> (exists d, In d ds /\ d <> 0) ->
  (Z.of_nat (length ds) <= 2 ^ 20)%Z -> Forall (fun d => Rabs d <= bpow radix2 800) ds ->
  exists v w, rate_obj_fl b64 sm s ds p = Fin v /\ rate_obj s ds p = Some w /\ Rabs (v - w) <= bpow radix2 (-28).
Proof. exact rate_obj_near. Qed.
Print Assumptions C187_rating_objective.
Example C187_rating_objective_ex : exists v w, rate_obj_fl b64 right_sum 1 [1; 0; -1] (1 / 2) = Fin v /\ rate_obj 1 [1; 0; -1] (1 / 2) = Some w /\ Rabs (v - w) <= bpow radix2 (-28).
Proof.
  assert (L : 1 <= bpow radix2 100) by (change 1 with (bpow radix2 0); apply bpow_le; lia). assert (M : bpow radix2 (-100) <= 1) by (change 1 with (bpow radix2 0); apply bpow_le; lia).
  assert (K : 1 <= bpow radix2 800) by (change 1 with (bpow radix2 0); apply bpow_le; lia).
  apply C187_rating_objective; [exact C152_sums_example|lra|lra|exists 1; split; [now left|lra]|cbn; lia|].
  constructor; [rewrite Rabs_R1; lra|]. constructor; [rewrite Rabs_R0; lra|]. constructor; [rewrite Rabs_left by lra; lra|constructor].
Qed.
(** when all pairs are clear the objective no longer depends on the rationality *)
Theorem C187_flat : forall sm b c ds p, sums b64 sm -> 0 <= b -> 0 <= c -> ds <> [] -> (Z.of_nat (length ds) <= 2 ^ 53)%Z ->
  (forall d, In d ds -> 54 <= Rabs d * b /\ 54 <= Rabs d * c) -> obj_fl b64 sm b ds p = miss_fl b64 (Fin 1) p /\ obj_fl b64 sm c ds p = miss_fl b64 (Fin 1) p.
Proof. exact pair_flat. Qed.
Print Assumptions C187_flat.
(** the target 1, which no rationality meets, is met by several *)
Theorem C187_target_refuted : forall sm, sums b64 sm -> obj_fl b64 sm 54 [1] 1 = Fin 0 /\ obj_fl b64 sm 60 [1] 1 = Fin 0 /\
  exists x y, obj 54 [1] 1 = Some x /\ obj 60 [1] 1 = Some y /\ 0 < y < x.
Proof. exact target_one. Qed.
Print Assumptions C187_target_refuted.

(** ---- Examples ---- *)
Example C187_overflow_ex : kept_fl b64 200 1000 = Fin 1 /\ kept_fl b64 200 0 = NaN.
Proof.
  split.
  - apply (C187_chance 200 1000); [lra|]. rewrite Rabs_right by lra. lra.
  - apply (C187_chance 200 0); [lra|]. rewrite Rabs_R0. lra.
Qed.
Example C187_pair_ex : (exists v, obj_fl b64 right_sum 200 [1000; 0] (9 / 10) = Fin v /\ 0 <= v <= 1) /\ obj_fl b64 right_sum 200 [0; 0] (9 / 10) = NaN.
Proof.
  destruct C187_overflow_ex as [K1 K0]. split.
  - destruct (C187_pair right_sum 200 [1000; 0] (9 / 10) C152_sums_example) as [A [B|B]]; [lra|lra|discriminate|cbn; lia| |exact B].
    exfalso. assert (X := proj1 A B 1000 (or_introl eq_refl)). rewrite K1 in X. discriminate.
  - apply (C187_pair right_sum 200 [0; 0] (9 / 10) C152_sums_example); [lra|lra|discriminate|cbn; lia|]. intros d [<- |[<- |[]]]; exact K0.
Qed.
Example C187_rating_ex : exists v, rate_obj_fl b64 right_sum (1 / 1000) [1000; 0] (9 / 10) = Fin v /\ 0 <= v <= 1.
Proof.
  destruct (C187_rating right_sum (1 / 1000) [1000; 0] (9 / 10) C152_sums_example) as [A [B|B]]; [lra|lra|discriminate|cbn; lia| |exact B].
  exfalso. assert (X := proj1 A B 1000 (or_introl eq_refl)). lra.
Qed.
Example C187_flat_ex : obj_fl b64 right_sum 100 [1; -2] (9 / 10) = obj_fl b64 right_sum 200 [1; -2] (9 / 10).
Proof.
  destruct (C187_flat right_sum 100 200 [1; -2] (9 / 10) C152_sums_example) as [-> ->]; [lra|lra|discriminate|cbn; lia| |reflexivity].
  intros d [<- |[<- |[]]]; [rewrite Rabs_R1; lra|rewrite Rabs_left by lra; lra].
Qed.
