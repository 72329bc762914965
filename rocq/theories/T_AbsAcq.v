(** Properties C137 to C139: asking for ratings *)
From Coquelicot Require Import Coquelicot.
From Coq Require Import Reals Lra Lia List Arith.
From Verif Require Import M_RBase M_Hyper M_AbsProbit M_Acq M_AbsAcq M_Beta S_AbsProbit S_Gamma S_Acq S_AbsAcq P_AbsAcq P_AbsAcq2 S_Psd.
Import ListNotations.
Local Open Scope R_scope.

(** C137: select_greedy returns a candidate with the largest expected alignment over ratings within its limits, up to the error of the
    integration; the limits cost at most the chance of a rating outside of them *)
Theorem C137_select : forall a eps M quad err m all_Q indicies d, 0 < a_v a -> 0 < eps < 1 / 2 -> (0 < M)%nat -> indicies <> [] -> integrates q_lo q_hi err quad ->
  let score c := RInt (heard a eps M (mentry m) (fun k => all_Q k c)) (1 / 10000) (9999 / 10000) in
  exists c v, (c < length indicies)%nat /\ abs_greedy true_special a eps M quad true (Some m) all_Q indicies d = Ok (nth c indicies O, v) /\ Rabs (v - score c) <= err /\
    forall c', (c' < length indicies)%nat -> score c' <= score c + 2 * err.
Proof. exact select_rating. Qed.
Print Assumptions C137_select.
Theorem C137_untrained : forall sp a eps M quad al all_Q indicies d, indicies <> [] -> exists i, In i indicies /\ abs_greedy sp a eps M quad false al all_Q indicies d = Ok (i, 0).
Proof. exact greedy_rating_random. Qed.
Print Assumptions C137_untrained.
Theorem C137_nothing : forall sp a eps M quad err rep m all_Q d, integrates q_lo q_hi err quad -> abs_greedy sp a eps M quad rep (Some m) all_Q [] d = Raise ValueError.
Proof. exact greedy_rating_empty. Qed.
Print Assumptions C137_nothing.
Theorem C137_expected : forall a eps M f s, 0 < a_v a -> 0 < eps < 1 / 2 -> (0 < M)%nat -> exists l, expected_after a eps M f s l /\ (forall l', expected_after a eps M f s l' -> l' = l) /\
  forall B, (forall i j, (i < M)%nat -> (j < M)%nat -> Rabs (f i j) <= B) -> Rabs (l - RInt (heard a eps M f s) (1 / 10000) (9999 / 10000)) <= B * (1 - chance_between a eps M s (1 / 10000) (9999 / 10000)).
Proof. exact after_all. Qed.
Print Assumptions C137_expected.
Example C137_ex : integrates q_lo q_hi 0 (exact_integrals q_lo q_hi) /\ exists i v, abs_greedy true_special (mkAbs 1 80 true true) (1 / 10 ^ 10) 2 (exact_integrals q_lo q_hi) true (Some [[0; -1]; [-1; 0]]) (fun k c => INR (k * c)) [7; 9]%nat 0 = Ok (i, v) /\ In i [7; 9]%nat.
Proof.
  split; [exact exact_quad|]. destruct (C137_select (mkAbs 1 80 true true) (1 / 10 ^ 10) 2 _ 0 [[0; -1]; [-1; 0]] (fun k c => INR (k * c)) [7; 9]%nat 0 ltac:(cbn; lra) ltac:(lra) ltac:(lia) ltac:(discriminate) exact_quad) as (c & v & Hc & E & _). exists (nth c [7; 9]%nat O), v. split; [exact E|now apply nth_In].
Qed.

(** C138: hearing a rating never lowers the expected alignment *)
Theorem C138_gain_partial : forall a eps k s Qs nrep rows m v l, 0 < a_v a -> 0 < eps < 1 / 2 -> k <> ALogLik -> (2 <= nrep)%nat -> rows <> [] -> proper_rows nrep rows -> alignment k s Qs nrep rows = Some m ->
  expected_after a eps (length rows) (mentry m) v l -> mean_entry (length rows) (mentry m) <= l.
Proof. exact asking_rating. Qed.
Print Assumptions C138_gain_partial.
Theorem C138_code_partial : forall a eps k s Qs nrep rows m v B, 0 < a_v a -> 0 < eps < 1 / 2 -> k <> ALogLik -> (2 <= nrep)%nat -> rows <> [] -> proper_rows nrep rows -> alignment k s Qs nrep rows = Some m ->
  (forall i j, (i < length rows)%nat -> (j < length rows)%nat -> Rabs (mentry m i j) <= B) ->
  mean_entry (length rows) (mentry m) - B * (1 - chance_between a eps (length rows) v (1 / 10000) (9999 / 10000)) <= RInt (heard a eps (length rows) (mentry m) v) (1 / 10000) (9999 / 10000).
Proof. exact asking_rating_code. Qed.
Print Assumptions C138_code_partial.
Theorem C138_exact : forall a eps M f s l, 0 < a_v a -> 0 < eps < 1 / 2 -> (0 < M)%nat -> let avg q := answer_chance M (rating_density a eps s q) in
  expected_after a eps M f s l <-> total (fun q => qform M f (fun k => rating_density a eps s q k - avg q) / (INR M * INR M * avg q)) (l - mean_entry M f).
Proof. exact (fun a eps M f s l Hv He HM => after_exact a eps Hv He M f s l HM). Qed.
Print Assumptions C138_exact.
Theorem C138_same : forall a eps M f s l, 0 < a_v a -> 0 < eps < 1 / 2 -> (0 < M)%nat -> (forall k, (k < M)%nat -> s k = s O) -> expected_after a eps M f s l -> l = mean_entry M f.
Proof. exact (fun a eps M f s l Hv He HM => after_same a eps Hv He M f s l HM). Qed.
Print Assumptions C138_same.
Theorem C138_loglikelihood_refuted : exists a eps Qs rows m s, 0 < a_v a /\ 0 < a_sigma a /\ 0 < eps < 1 / 2 /\ (forall r, In r rows -> length r = 2%nat) /\ alignment ALogLik 1 Qs 2 rows = Some m /\
  forall l, expected_after a eps (length rows) (mentry m) s l -> l < mean_entry (length rows) (mentry m).
Proof. exact rating_loss_ex. Qed.
Print Assumptions C138_loglikelihood_refuted.
Example C138_ex : let rows := [[0; 1; 2]; [2; 1; 1]] in proper_rows 3 rows /\ exists m l, alignment ARho 1 [] 3 rows = Some m /\ expected_after (mkAbs 1 80 true true) (1 / 10 ^ 10) 2 (mentry m) (fun k => INR k) l /\ mean_entry 2 (mentry m) <= l.
Proof.
  intro rows. assert (R : proper_rows 3 rows) by (intros r [<- | [<- | []]]; (split; [reflexivity|]); [exists 0, 1|exists 2, 1]; (split; [now left|split; [right; now left|lra]])). split; [exact R|].
  destruct (alignment ARho 1 [] 3 rows) as [m|] eqn:E; [|discriminate]. destruct (C137_expected (mkAbs 1 80 true true) (1 / 10 ^ 10) 2 (mentry m) (fun k => INR k) ltac:(cbn; lra) ltac:(lra) ltac:(lia)) as [l [A _]]. exists m, l. split; [reflexivity|]. split; [exact A|].
  apply (C138_gain_partial (mkAbs 1 80 true true) (1 / 10 ^ 10) ARho 1 [] 3 rows m (fun k => INR k) l); auto; try discriminate; try lia; try lra. cbn. lra.
Qed.

(** C139: the score of a candidate lies between the smallest and the largest alignment *)
Theorem C139_limits_refuted : exists a eps Qs rows m all_Q v, 0 < a_v a /\ 0 < eps < 1 / 2 /\ proper_rows 2 rows /\ alignment AOne 1 Qs 2 rows = Some m /\ (forall i j, (i < length rows)%nat -> (j < length rows)%nat -> mentry m i j = 1) /\
  abs_greedy true_special a eps (length rows) (exact_integrals q_lo q_hi) true (Some m) all_Q [0%nat] 0 = Ok (0%nat, v) /\ v < 1.
Proof. exact one_below. Qed.
Print Assumptions C139_limits_refuted.
Theorem C139_signs_partial : forall a eps M f s lo hi y z, 0 < a_v a -> 0 < eps < 1 / 2 -> (0 < M)%nat -> (forall i j, (i < M)%nat -> (j < M)%nat -> lo <= f i j <= hi) -> lo <= 0 <= hi -> 0 < y -> y < z -> z < 1 -> lo <= RInt (heard a eps M f s) y z <= hi.
Proof. exact score_range. Qed.
Print Assumptions C139_signs_partial.
Theorem C139_expected : forall a eps M f s l lo hi, 0 < a_v a -> 0 < eps < 1 / 2 -> (0 < M)%nat -> (forall i j, (i < M)%nat -> (j < M)%nat -> lo <= f i j <= hi) -> expected_after a eps M f s l -> lo <= l <= hi.
Proof. exact (fun a eps M f s l lo hi Hv He HM => after_range a eps Hv He M f s l lo hi HM). Qed.
Print Assumptions C139_expected.
Example C139_ex : -1 <= RInt (heard (mkAbs 1 80 true true) (1 / 10 ^ 10) 2 (mentry [[0; -1]; [-1; 0]]) (fun k => INR k)) (1 / 10000) (9999 / 10000) <= 0.
Proof. apply C139_signs_partial; try (cbn; lra); try lia; try lra. intros [|[|i]] [|[|j]] Hi Hj; try lia; cbn; lra. Qed.
