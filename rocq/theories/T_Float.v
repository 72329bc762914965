(** C152, C153: choice probabilities and information gain in binary64 arithmetic. *)
From Coq Require Import Reals ZArith Lra Lia List Permutation.
From Flocq Require Import Core.
From Verif Require Import M_Base M_RBase M_Util M_Select M_Info M_Tune M_Float S_Util S_Info S_Tune S_Float P_RBase P_Info2 P_Float P_Float2.
Import ListNotations.
Local Open Scope R_scope.

(** one reward vector: proper numbers, in the order of the rewards *)
Theorem C152_vector sm r p : sums b64 sm -> r <> [] -> (Z.of_nat (length r) <= 2 ^ 53)%Z -> 0 < p ->
  exists f, choice_fl b64 sm r p = Ok (map (fun v => Fin (f v)) r) /\ (forall v, In v r -> 0 <= f v <= 1) /\
    (forall v w, In v r -> In w r -> v <= w -> f v <= f w) /\ (forall v, In v r -> (forall w, In w r -> w <= v) -> rd b64 (/ INR (length r)) <= f v).
Proof. exact (choice_vector b64 sm r p b64_rounding). Qed.
Print Assumptions C152_vector.
(** a matrix: proper numbers if every row gets near the largest entry *)
Theorem C152_rows sm r p : sums b64 sm -> sized r -> 0 < p ->
  (forall row, In row r -> exists v z, In v row /\ (0 <= z <= 2 ^ 53)%Z /\ IZR z * p <= 537 /\ forall w, In w (concat r) -> w - IZR z <= v) ->
  exists ps, choice_rows_fl b64 sm r p = Ok ps /\ Forall2 (fun row out => length out = length row /\ Forall unit_fin out) r ps.
Proof. exact (rows_ok sm r p). Qed.
Print Assumptions C152_rows.
(** a row far below the largest entry of the matrix gets no probabilities *)
Theorem C152_rows_refuted sm r p i row : sums b64 sm -> sized r -> 0 < p -> nth_error r i = Some row ->
  (forall v, In v row -> exists w z, In w (concat r) /\ (0 <= z <= 2 ^ 53)%Z /\ v <= w - IZR z /\ 1076 <= IZR z * p) ->
  exists ps out, choice_rows_fl b64 sm r p = Ok ps /\ nth_error ps i = Some out /\ length out = length row /\ Forall (fun x => x = NaN) out.
Proof. exact (rows_nan sm r p i row). Qed.
Print Assumptions C152_rows_refuted.
(** a nearly perfect user is counted as wrong every second time *)
Theorem C152_count_refuted : exists y b, queries 2 y /\ 1 / 100 <= b <= 150 /\ length y = 2%nat /\ 999 / 1000 < accuracy b y /\
  forall sm pf, sums b64 sm -> exists c, sampled_count_fl b64 sm b y pf = Ok c /\ c <= 1.
Proof. exact count_wrong. Qed.
Print Assumptions C152_count_refuted.

(** rewards of a query that are too far apart: the gain is not a number *)
Theorem C153_nan sm M pk Q all_w r r' q q' z : sums b64 sm -> 0 < pk -> has_cols all_w Q -> In r all_w -> In r' all_w -> In q Q -> In q' Q ->
  (0 <= z <= 2 ^ 53)%Z -> nth q r 0 <= nth q' r' 0 - IZR z -> 1076 <= IZR z * pk -> info_gain_fl b64 sm M pk Q all_w = Ok NaN.
Proof. exact (gain_b64 sm M pk Q all_w r r' q q' z). Qed.
Print Assumptions C153_nan.
(** and a candidate of that kind is selected, whatever the others *)
Theorem C153_selected F sm M pk all_w indicies prev j : all_w <> [] -> has_cols all_w (prev ++ indicies) -> In j indicies -> info_gain_fl F sm M pk (prev ++ [j]) all_w = Ok NaN ->
  exists i, mutual_greedy_fl F sm M pk all_w indicies prev = Ok (i, NaN) /\ In i indicies /\ info_gain_fl F sm M pk (prev ++ [i]) all_w = Ok NaN.
Proof. exact (nan_selected F sm M pk all_w indicies prev j). Qed.
Print Assumptions C153_selected.
Theorem C153_best_refuted : exists all_w prev informative known, has_cols all_w (prev ++ [known; informative]) /\
  calc_info_gain (length all_w) 10 (prev ++ [known]) all_w = Ok 0 /\ (exists g, 0 < g /\ mutual_greedy (length all_w) 10 all_w [known; informative] prev = Ok (informative, g)) /\
  forall sm, sums b64 sm -> mutual_greedy_fl b64 sm (length all_w) 10 all_w [known; informative] prev = Ok (known, NaN).
Proof. exact known_selected. Qed.
Print Assumptions C153_best_refuted.

(** ---- examples ---- *)
(** summing from the right *)
Definition right_sum (l : list fval) : fval := match rev l with [] => Fin 0 | x :: l' => fold_left (fadd b64) l' x end.
Lemma fold_adds l : forall l0 a, adds b64 l0 a -> adds b64 (l0 ++ l) (fold_left (fadd b64) l a).
Proof.
  induction l as [|x l IH]; intros l0 a H; cbn; [now rewrite app_nil_r|]. replace (l0 ++ x :: l) with ((l0 ++ [x]) ++ l) by now rewrite <- app_assoc. apply IH. eapply adds_two; [exact H|apply adds_one|reflexivity].
Qed.
Lemma adds_perm l l' a : Permutation l l' -> adds b64 l a -> l <> [] -> (exists x, l = [x]) \/ adds b64 l' a.
Proof. intros P H _. destruct H as [x|l1 l2 l a b A1 A2 Q]; [left; eauto|right]. eapply adds_two; [exact A1|exact A2|]. now rewrite <- P. Qed.
Example C152_sums_example : sums b64 right_sum.
Proof.
  intros l N. unfold right_sum. assert (P : Permutation (rev l) l) by apply Permutation_sym, Permutation_rev. destruct (rev l) as [|x l'] eqn:E; [apply Permutation_nil in P; congruence|].
  assert (A := fold_adds l' [x] x (adds_one b64 x)). cbn [app] in A. destruct (adds_perm _ _ _ P A ltac:(discriminate)) as [[y Ey]|A']; [|exact A']. injection Ey as -> ->. apply Permutation_length_1_inv in P. subst l. apply adds_one.
Qed.
Example C152_rows_example : exists r, sized r /\ length r = 2%nat /\
  (forall row, In row r -> exists v z, In v row /\ (0 <= z <= 2 ^ 53)%Z /\ IZR z * 5 <= 537 /\ forall w, In w (concat r) -> w - IZR z <= v) /\ In 1 (concat r) /\ In (-100) (concat r).
Proof.
  exists [[1; 0]; [-3; -100]]. split; [split; [discriminate|intros row [<- |[<- |[]]]; split; try discriminate; cbn; lia]|]. split; [reflexivity|]. split; [|split; cbn; tauto].
  intros row [<- |[<- |[]]]; [exists 1, 0%Z|exists (-3), 4%Z]; (split; [now left|split; [lia|split; [lra|]]]); intros w Hw; cbn in Hw; decompose [or] Hw; subst; try contradiction; lra.
Qed.
Example C152_nan_example : sized [[4; 0]; [-5; -4]] /\ forall v, In v [-5; -4] -> exists w z, In w (concat [[4; 0]; [-5; -4]]) /\ (0 <= z <= 2 ^ 53)%Z /\ v <= w - IZR z /\ 1076 <= IZR z * 150.
Proof.
  split; [split; [discriminate|intros row [<- |[<- |[]]]; split; try discriminate; cbn; lia]|]. intros v [<- |[<- |[]]]; exists 4, 8%Z; (split; [now left|split; [lia|split; lra]]).
Qed.
Example C153_nan_example : has_cols [[0; 1; 200]; [0; -1; 200]] [0%nat; 2%nat] /\ nth 0 [0; 1; 200] 0 <= nth 2 [0; -1; 200] 0 - IZR 200 /\ 1076 <= IZR 200 * 10.
Proof. split; [intros r i [<- |[<- |[]]] [<- |[<- |[]]]; cbn; lia|]. cbn. lra. Qed.
Example C153_selected_example : info_gain_fl b64 right_sum 2 10 ([0%nat] ++ [2%nat]) [[0; 1; 200]; [0; -1; 200]] = Ok NaN.
Proof.
  destruct C153_nan_example as [HC [L K]]. apply (C153_nan right_sum 2 10 [0%nat; 2%nat] _ [0; 1; 200] [0; -1; 200] 0 2 200 C152_sums_example); auto; try lra; try lia; cbn; auto.
Qed.
