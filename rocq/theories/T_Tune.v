(** C148-C151: what the tuning of synthetic users measures. *)
From Coquelicot Require Import Coquelicot.
From Coq Require Import Reals Lra Lia List Bool.
From Verif Require Import M_Base M_RBase M_Normal M_Util M_Select M_PrefProbit M_User M_Tune S_Util S_User S_Tune P_RBase P_Normal P_Util P_User P_Tune P_Tune2 P_Tune3 P_Tune4 P_Tune5 P_Tune6 P_Tune7.
Import ListNotations.
Local Open Scope R_scope.

(** the objective of beta: its mean over the uniform draws is the squared error of the accuracy, plus a spread that vanishes with the
    number of queries *)
Theorem C148_mean q b p y : queries q y -> 0 <= b -> exists Phi, (forall pf, sampled_objective b p y pf = Ok (Phi pf)) /\
  unit_mean (length y) Phi ((accuracy b y - p) ^ 2 + spread (map (best_chance b) y)) /\ 0 <= spread (map (best_chance b) y) <= / (4 * INR (length y)).
Proof. exact (sampled_mean q b p y). Qed.
Print Assumptions C148_mean.
(** a beta whose accuracy misses by [r + t] gets below the threshold [r^2] with a small chance only *)
Theorem C148_accept q b p y r t : queries q y -> 0 <= b -> 0 < r -> 0 < t -> r + t <= Rabs (accuracy b y - p) ->
  exists Phi c, (forall pf, sampled_objective b p y pf = Ok (Phi pf)) /\ unit_mean (length y) (fun pf => if Rltb (Phi pf) (r ^ 2) then 1 else 0) c /\ c <= / (4 * INR (length y) * t ^ 2).
Proof. exact (sampled_accept q b p y r t). Qed.
Print Assumptions C148_accept.
(** more rational users are more accurate *)
Theorem C148_mono q b c y : queries q y -> 0 <= b <= c -> accuracy b y <= accuracy c y.
Proof. exact (accuracy_mono q b c y). Qed.
Print Assumptions C148_mono.
Theorem C148_strict q b c y row v w : queries q y -> 0 <= b < c -> In row y -> In v row -> In w row -> v <> w -> accuracy b y < accuracy c y.
Proof. exact (accuracy_strict q b c y row v w). Qed.
Print Assumptions C148_strict.
Theorem C148_range q b y : queries q y -> 0 <= b -> / INR q <= accuracy b y <= 1.
Proof. exact (accuracy_range q b y). Qed.
Print Assumptions C148_range.
Theorem C148_gap q b d y : queries q y -> 0 <= b -> 0 <= d -> (forall row, In row y -> gap d row) -> / (1 + (INR q - 1) * exp (- (b * d))) <= accuracy b y.
Proof. exact (accuracy_gap q b d y). Qed.
Print Assumptions C148_gap.
(** a beta can be stored although it is far off *)
Theorem C148_stored_refuted : exists y p b pf v, queries 2 y /\ 1 / 100 <= b <= 150 /\ Forall (fun u => 0 <= u < 1) pf /\ length pf = length y /\
  sampled_objective b p y pf = Ok v /\ tune (fun _ => (b, v)) = Ok b /\ 2 / 100 < (accuracy b y - p) ^ 2.
Proof. exact stored_far. Qed.
Print Assumptions C148_stored_refuted.
(** one query, as for two alternatives, makes every aim between 0.15 and 0.85 fail *)
Theorem C148_single_refuted q p row (pf : nat -> list R) (res : nat -> R * R) : (0 < q)%nat -> length row = q -> 15 / 100 <= p <= 85 / 100 ->
  (forall i, 0 <= fst (res i) /\ sampled_objective (fst (res i)) p [row] (pf i) = Ok (snd (res i))) -> tune res = Raise GenericException.
Proof. exact (single_tune q p row pf res). Qed.
Print Assumptions C148_single_refuted.

(** the objective of sigma: chance of the best option under noisy ratings *)
Theorem C149_any q s p y cs : queries q y -> Forall2 (fun row c => normal_chance q (picks_best s row) c) y cs ->
  exists Phi, (forall z, length z = length y -> Forall (fun r => length r = q) z -> rate_sampled_objective s p y z = Ok (Phi z)) /\
    rows_mean (length y) q Phi ((average cs - p) ^ 2 + spread cs) /\ 0 <= spread cs <= / (4 * INR (length y)).
Proof. exact (rate_mean_value q s p y cs). Qed.
Print Assumptions C149_any.
Theorem C149_accept q s p y cs r t : queries q y -> Forall2 (fun row c => normal_chance q (picks_best s row) c) y cs -> 0 < r -> 0 < t -> r + t <= Rabs (average cs - p) ->
  exists Phi c, (forall z, length z = length y -> Forall (fun r => length r = q) z -> rate_sampled_objective s p y z = Ok (Phi z)) /\
    rows_mean (length y) q (fun z => if Rltb (Phi z) (r ^ 2) then 1 else 0) c /\ c <= / (4 * INR (length y) * t ^ 2).
Proof. exact (rate_accept q s p y cs r t). Qed.
Print Assumptions C149_accept.
(** queries of two options *)
Theorem C149_chance s a b I : 0 < s -> indicates 2 (picks_best s [a; b]) I -> normal_mean 2 I (ndtr (Rabs (a - b) / (s * sqrt 2))).
Proof. exact (pair_chance s a b I). Qed.
Print Assumptions C149_chance.
Theorem C149_pairs s p y : 0 < s -> queries 2 y ->
  exists Phi sp, (forall z, length z = length y -> Forall (fun r => length r = 2%nat) z -> rate_sampled_objective s p y z = Ok (Phi z)) /\
    rows_mean (length y) 2 Phi ((pair_accuracy s y - p) ^ 2 + sp) /\ 0 <= sp <= / (4 * INR (length y)).
Proof. exact (rate_pairs s p y). Qed.
Print Assumptions C149_pairs.
Theorem C149_range s y : 0 < s -> queries 2 y -> 1 / 2 <= pair_accuracy s y < 1.
Proof. exact (pair_range s y). Qed.
Print Assumptions C149_range.
Theorem C149_mono s t y : 0 < s <= t -> queries 2 y -> pair_accuracy t y <= pair_accuracy s y.
Proof. exact (pair_mono s t y). Qed.
Print Assumptions C149_mono.
Theorem C149_strict s t y row : 0 < s < t -> queries 2 y -> In row y -> nth 0 row 0 <> nth 1 row 0 -> pair_accuracy t y < pair_accuracy s y.
Proof. exact (pair_strict s t y row). Qed.
Print Assumptions C149_strict.

(** queries of any number of options: the chance is an integral over the noise of the best option *)
Theorem C149_integral s pre m post l : 0 < s -> Forall (fun x => x < m) pre -> Forall (fun x => x <= m) post ->
  is_RInt_gen (fun z => npdf z * fold_right Rmult 1 (map (fun v => ndtr (z + (m - v) / s)) (pre ++ post))) (Rbar_locally m_infty) (Rbar_locally p_infty) l ->
  normal_chance (length (pre ++ m :: post)) (picks_best s (pre ++ m :: post)) l.
Proof. exact (best_integral s pre m post l). Qed.
Print Assumptions C149_integral.
Theorem C149_exists q s y : 0 < s -> queries q y -> exists a, rate_accuracy q s y a /\ forall b, rate_accuracy q s y b -> b = a.
Proof. exact (accuracy_exists q s y). Qed.
Print Assumptions C149_exists.
Theorem C149_objective q s p y a : 0 < s -> queries q y -> rate_accuracy q s y a ->
  exists Phi sp, (forall z, length z = length y -> Forall (fun r => length r = q) z -> rate_sampled_objective s p y z = Ok (Phi z)) /\
    rows_mean (length y) q Phi ((a - p) ^ 2 + sp) /\ 0 <= sp <= / (4 * INR (length y)).
Proof. exact (accuracy_objective q s p y a). Qed.
Print Assumptions C149_objective.
Theorem C149_threshold q s p y a r t : 0 < s -> queries q y -> rate_accuracy q s y a -> 0 < r -> 0 < t -> r + t <= Rabs (a - p) ->
  exists Phi c, (forall z, length z = length y -> Forall (fun r => length r = q) z -> rate_sampled_objective s p y z = Ok (Phi z)) /\
    rows_mean (length y) q (fun z => if Rltb (Phi z) (r ^ 2) then 1 else 0) c /\ c <= / (4 * INR (length y) * t ^ 2).
Proof. exact (accuracy_accept q s p y a r t). Qed.
Print Assumptions C149_threshold.
Theorem C149_least q s y a : 0 < s -> queries q y -> rate_accuracy q s y a -> / INR q <= a <= 1 /\ ((2 <= q)%nat -> a < 1).
Proof. exact (accuracy_least q s y a). Qed.
Print Assumptions C149_least.
Theorem C149_falls q s t y a b : 0 < s <= t -> queries q y -> rate_accuracy q s y a -> rate_accuracy q t y b -> b <= a.
Proof. exact (accuracy_falls q s t y a b). Qed.
Print Assumptions C149_falls.
Theorem C149_falls_strict q s t y a b row v w : 0 < s < t -> queries q y -> In row y -> In v row -> In w row -> v <> w -> rate_accuracy q s y a -> rate_accuracy q t y b -> b < a.
Proof. exact (accuracy_falls_strict q s t y a b row v w). Qed.
Print Assumptions C149_falls_strict.
Theorem C149_lead q s d y a : 0 < s -> 0 < d -> queries q y -> (forall row, In row y -> gap d row) -> rate_accuracy q s y a -> 1 - (INR q - 1) * (1 - ndtr (d / (s * sqrt 2))) <= a.
Proof. exact (accuracy_lead q s d y a). Qed.
Print Assumptions C149_lead.

(** the preference probit: the chance that two values with independent normal noise are in the order of the label *)
Theorem C150_probit s F (d : Z) u v : 0 < s -> d = 1%Z \/ d = (-1)%Z ->
  exists c c', likelihood s [(d, u, v)] F = [c'] /\ normal_chance 2 (fun z => 0 < IZR d * (F v + s * nth 0 z 0 - (F u + s * nth 1 z 0))) c /\ Rabs (c' - c) < exp (-450) /\
    (-30 <= isqrt2sig s * (IZR d * (F v - F u)) <= 100 -> c' = c).
Proof. exact (probit_chance s F d u v). Qed.
Print Assumptions C150_probit.
(** means and chances are unique, so that the statements above determine them *)
Theorem C150_unique q P c c' : normal_chance q P c -> normal_chance q P c' -> c = c'.
Proof. exact (chance_unique q P c c'). Qed.
Print Assumptions C150_unique.

(** the divergence objective *)
Theorem C151_value q b p y : queries q y -> 0 <= b -> 0 < p < 1 -> kl_objective b p y = Ok (average (map (fun row => divergence (where_clip (best_chance b row)) p) y)).
Proof. exact (kl_code q b p y). Qed.
Print Assumptions C151_value.
Theorem C151_zero q b p y v : queries q y -> 0 <= b -> 0 < p < 1 -> kl_objective b p y = Ok v -> 0 <= v /\ (v = 0 <-> forall row, In row y -> where_clip (best_chance b row) = p).
Proof. exact (kl_zero q b p y v). Qed.
Print Assumptions C151_zero.

(** ---- examples ---- *)
Example C148_ex : queries 2 [[0; 1]; [3; 2]] /\ 0 <= 1 /\ gap 1 [0; 1] /\ sampled_objective 1 1 [[0; 1]; [3; 2]] [0; 0] = Ok 0 /\
  exists v, sampled_objective 1 (1 / 2) [[0; 1]] [1 / 2] = Ok v /\ 2 / 100 < v.
Proof.
  split; [split; [discriminate|split; [lia|intros r [<- |[<- |[]]]; reflexivity]]|]. split; [lra|]. split; [exists [0], 1, []; split; [reflexivity|intros v [<- |[]]; lra]|]. split.
  - rewrite (sampled_code 2); [|split; [discriminate|split; [lia|intros r [<- |[<- |[]]]; reflexivity]]|lra]. assert (A := best_range 1 [0; 1] ltac:(discriminate) ltac:(lra)). assert (B := best_range 1 [3; 2] ltac:(discriminate) ltac:(lra)). cbn [length INR] in A, B. cbn [combine map fst snd]. rewrite !(proj2 (Rleb_true _ _)) by lra. unfold num_true. cbn. f_equal. field.
  - eexists. split; [apply (sampled_code 2); [split; [discriminate|split; [lia|intros r [<- |[]]; reflexivity]]|lra]|]. assert (A := best_range 1 [0; 1] ltac:(discriminate) ltac:(lra)). cbn [length INR] in A. cbn [combine map fst snd]. rewrite (proj2 (Rleb_true _ _)) by lra. unfold num_true. cbn. lra.
Qed.
Example C149_ex : queries 2 [[0; 1]] /\ rate_sampled_objective 1 1 [[0; 1]] [[0; 0]] = Ok 0 /\ rate_sampled_objective 1 1 [[0; 1]] [[2; 0]] = Ok 1 /\
  pair_accuracy 1 [[0; 0]] = 1 / 2 /\ normal_chance 2 (picks_best 1 [0; 0]) (1 / 2).
Proof.
  assert (Q1 : queries 2 [[0; 1]]) by (split; [discriminate|split; [lia|intros r [<- |[]]; reflexivity]]). assert (Q0 : queries 2 [[0; 0]]) by (split; [discriminate|split; [lia|intros r [<- |[]]; reflexivity]]).
  assert (Z : ndtr (Rabs (0 - 0) / (1 * sqrt 2)) = 1 / 2) by (rewrite Rminus_0_r, Rabs_R0; unfold Rdiv; rewrite Rmult_0_l; apply ndtr_0).
  split; [exact Q1|]. split; [|split; [|split]].
  - rewrite (rate_code 2) by (auto; repeat constructor). cbn [map combine fst snd]. rewrite pair_correct, !(proj2 (Rltb_true _ _)) by lra. unfold num_true. cbn. f_equal. field.
  - rewrite (rate_code 2) by (auto; repeat constructor). cbn [map combine fst snd]. rewrite pair_correct, (proj2 (Rltb_false _ _)), (proj2 (Rltb_true _ _)) by lra. unfold num_true. cbn. f_equal. field.
  - unfold pair_accuracy, average. cbn [map nth length]. rewrite Z. cbn. lra.
  - assert (K := pair_chances 1 [[0; 0]] ltac:(lra) Q0). cbn [map nth] in K. rewrite Z in K. now inversion K.
Qed.
Example C149_integral_ex : normal_chance 3 (picks_best 2 [5; 5; 5]) (/ 3) /\ (exists l, normal_chance 3 (picks_best 1 [0; 2; 1]) l /\ / 3 <= l < 1) /\ queries 3 [[0; 2; 1]] /\ gap 1 [0; 2; 1].
Proof.
  assert (Q : queries 3 [[0; 2; 1]]) by (split; [discriminate|split; [lia|intros r [<- |[]]; reflexivity]]). split; [|split; [|split; [exact Q|]]].
  - apply (C149_integral 2 [] 5 [5; 5]); [lra|constructor|repeat constructor; lra|]. assert (T := pow_tail 2). cbn [INR] in T. replace (/ (1 + 1 + 1)) with (/ 3) in T by lra.
    apply (is_RInt_gen_ext (fun z => npdf z * ndtr z ^ 2)).
    + apply (Filter_prod _ _ _ (fun _ => True) (fun _ => True)); [now exists 0|now exists 0|]. intros x y _ _ t _. cbn. replace (t + (5 - 5) / 2) with t by field. ring.
    + eapply tail_total; [|exact T]. split; [intro x; apply (continuous_ext (below (repeat 0 2))); [intro; apply below_zero|apply below_unit]|]. intro x. assert (K := ndtr_range x). nra.
  - destruct (C149_exists 3 1 [[0; 2; 1]] ltac:(lra) Q) as [a [A U]]. destruct (C149_least 3 1 _ a ltac:(lra) Q A) as [[B _] B2]. specialize (B2 ltac:(lia)). destruct A as [cs [F E]]. inversion F as [|r c y' cs' Hc F']; subst. inversion F'; subst. exists c. split; [exact Hc|]. unfold average in *. cbn in *. lra.
  - exists [0], 2, [1]. split; [reflexivity|]. intros v [<- |[<- |[]]]; lra.
Qed.
Example C149_falls_ex : exists a b, rate_accuracy 3 1 [[0; 2; 1]] a /\ rate_accuracy 3 2 [[0; 2; 1]] b /\ b < a /\ 2 * ndtr (1 / (1 * sqrt 2)) - 1 <= a.
Proof.
  assert (Q : queries 3 [[0; 2; 1]]) by (split; [discriminate|split; [lia|intros r [<- |[]]; reflexivity]]). destruct (C149_exists 3 1 [[0; 2; 1]] ltac:(lra) Q) as [a [A _]]. destruct (C149_exists 3 2 [[0; 2; 1]] ltac:(lra) Q) as [b [B _]]. exists a, b. split; [exact A|]. split; [exact B|]. split.
  - apply (C149_falls_strict 3 1 2 [[0; 2; 1]] a b [0; 2; 1] 0 2); auto; cbn; auto; lra.
  - assert (G : forall row, In row [[0; 2; 1]] -> gap 1 row) by (intros row [<- |[]]; exists [0], 2, [1]; split; [reflexivity|]; intros v [<- |[<- |[]]]; lra). assert (K := C149_lead 3 1 1 _ a ltac:(lra) ltac:(lra) Q G A). cbn [INR] in K. lra.
Qed.
Example C150_ex : -30 <= isqrt2sig 1 * (1 * (1 - 0)) <= 100 /\ likelihood 1 [(1%Z, 0%nat, 1%nat)] (fun i => INR i) = [ndtr (1 / sqrt 2)].
Proof.
  assert (S2 := sqrt2_pos). assert (V : isqrt2sig 1 = / sqrt 2) by (unfold isqrt2sig; field; lra). assert (B : 0 < / sqrt 2 < 1) by (split; [apply Rinv_0_lt_compat; lra|rewrite <- Rinv_1; apply Rinv_lt_contravar; lra]).
  rewrite V. split; [lra|]. unfold likelihood, z_k, z_of, dk_of, v_of, u_of. cbn. rewrite V. rewrite std_norm_cdf_id by lra. do 2 f_equal. field. lra.
Qed.
Example C151_ex : queries 2 [[0; 0]] /\ 0 < 1 / 2 < 1 /\ kl_objective 1 (1 / 2) [[0; 0]] = Ok 0 /\ exists v, kl_objective 1 (1 / 4) [[0; 0]] = Ok v /\ 0 < v.
Proof.
  assert (Q0 : queries 2 [[0; 0]]) by (split; [discriminate|split; [lia|intros r [<- |[]]; reflexivity]]). assert (B : best_chance 1 [0; 0] = 1 / 2).
  { unfold best_chance. cbn. rewrite Rmax_left by (rewrite Rmax_left; lra). rewrite Rmult_0_r, exp_0. field. }
  split; [exact Q0|]. split; [lra|]. split.
  - rewrite (kl_code 2) by (auto; lra). cbn [map]. rewrite B, where_clip_id, divergence_self by lra. unfold average. cbn. f_equal. field.
  - eexists. split; [apply (kl_code 2); auto; lra|]. cbn [map]. rewrite B, where_clip_id by lra. unfold average. cbn. assert (D := divergence_pos (1 / 2) (1 / 4) ltac:(lra) ltac:(lra) ltac:(lra)). lra.
Qed.
