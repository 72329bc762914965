(** Properties C140 to C142: the information gained by a rating *)
From Coquelicot Require Import Coquelicot.
From Coq Require Import Reals Lra Lia List Arith.
From Verif Require Import M_RBase M_Hyper M_Normal M_AbsProbit M_Beta M_AbsInfo M_PBest S_AbsProbit S_Gamma S_AbsInfo S_PBest P_Normal P_AbsInfo S_Psd.
Import ListNotations.
Local Open Scope R_scope.

(** C140: the score of a candidate is the surprise of being rated above the best candidate's mean rating, averaged over samples and best candidates *)
Theorem C140_score : forall a eps integ M p_b all_f c, 0 < a_v a -> 0 < eps < 1 / 2 -> exact_total integ -> (0 < M)%nat -> (forall p, In p p_b -> 0 < p) ->
  abs_info_gain integ true_special a eps M (length p_b) p_b all_f c = Some (mean_surprise a eps M (length p_b) (fun B => nth B p_b 0) all_f c).
Proof. exact (fun a eps integ M p_b all_f c Hv He HI => gain_surprise a eps integ Hv He HI M p_b all_f c). Qed.
Print Assumptions C140_score.
Theorem C140_positive : forall a eps M N p all_f c, 0 < a_v a -> 0 < eps < 1 / 2 -> (0 < M)%nat -> (0 < N)%nat -> (forall B, (B < N)%nat -> 0 < p B) -> 0 < mean_surprise a eps M N p all_f c.
Proof. exact (fun a eps M N p all_f c Hv He => surprise_pos a eps Hv He M N p all_f c). Qed.
Print Assumptions C140_positive.
Theorem C140_select : forall a eps integ M p_b all_f indicies d, 0 < a_v a -> 0 < eps < 1 / 2 -> exact_total integ -> (0 < M)%nat -> indicies <> [] -> length p_b = length indicies -> (forall p, In p p_b -> 0 < p) ->
  let score := mean_surprise a eps M (length p_b) (fun B => nth B p_b 0) all_f in
  exists c, (c < length indicies)%nat /\ abs_info_select true integ true_special a eps M (length p_b) true p_b all_f indicies d = Ok (nth c indicies O, Some (score c)) /\
    (forall c', (c' < length indicies)%nat -> score c' <= score c) /\ forall c', (c' < c)%nat -> score c' < score c.
Proof. exact (fun a eps integ M p_b all_f indicies d Hv He HI => select_surprise a eps integ Hv He HI M p_b all_f indicies d). Qed.
Print Assumptions C140_select.
Theorem C140_untrained : forall continues a eps integ sp M N p_b all_f indicies d, indicies <> [] -> exists i, In i indicies /\ abs_info_select continues integ sp a eps M N false p_b all_f indicies d = Ok (i, None).
Proof. exact select_info_random. Qed.
Print Assumptions C140_untrained.
Example C140_ex : exact_total improper /\ exists i v, abs_info_select true improper true_special (mkAbs 1 80 true true) (1 / 10 ^ 10) 3 2 true [1 / 3; 2 / 3] (fun k c => INR (k * c)) [4; 6]%nat 0 = Ok (i, Some v) /\ 0 < v /\ In i [4; 6]%nat.
Proof.
  split; [exact improper_exact|]. set (a := mkAbs 1 80 true true). assert (P : forall p, In p [1 / 3; 2 / 3] -> 0 < p) by (intros p [<- | [<- | []]]; lra).
  destruct (C140_select a (1 / 10 ^ 10) improper 3 [1 / 3; 2 / 3] (fun k c => INR (k * c)) [4; 6]%nat 0 ltac:(cbn; lra) ltac:(lra) improper_exact ltac:(lia) ltac:(discriminate) eq_refl P) as [c [Hc [E _]]].
  eexists _, _. split; [exact E|]. split; [|now apply nth_In]. apply C140_positive; cbn [a_v a length]; try lra; try lia. intros B HB. apply P, nth_In, HB.
Qed.

(** C141: candidates which every sample values less are not preferred; the opposite holds *)
Theorem C141_worst_refuted : forall a eps integ M p_b all_f indicies d w, 0 < a_v a -> 0 < a_sigma a -> 0 < eps < 1 / 2 -> exact_total integ -> (0 < M)%nat -> length p_b = length indicies -> (forall p, In p p_b -> 0 < p) ->
  (w < length indicies)%nat -> (forall k c, (k < M)%nat -> (c < length indicies)%nat -> free eps (a_sigma a) (all_f k c) /\ (c <> w -> all_f k w < all_f k c)) ->
  exists v, abs_info_select true integ true_special a eps M (length p_b) true p_b all_f indicies d = Ok (nth w indicies O, Some v).
Proof. exact select_worst. Qed.
Print Assumptions C141_worst_refuted.
Theorem C141_order : forall a eps M N p all_f c c', 0 < a_v a -> 0 < eps < 1 / 2 -> 0 < a_sigma a -> (0 < M)%nat -> (forall B, (B < N)%nat -> 0 <= p B) -> (forall k, (k < M)%nat -> all_f k c <= all_f k c') ->
  mean_surprise a eps M N p all_f c' <= mean_surprise a eps M N p all_f c.
Proof. exact (fun a eps M N p all_f c c' Hv He => surprise_mono a eps Hv He M N p all_f c c'). Qed.
Print Assumptions C141_order.
(** two candidates, the first one better under the only sample: the second one is selected *)
Example C141_ex : (exists x, 0 < x /\ free (1 / 10 ^ 10) 1 x) /\ exists v : R -> R, forall x, 0 < x -> free (1 / 10 ^ 10) 1 x ->
  abs_info_select true improper true_special (mkAbs 1 80 true true) (1 / 10 ^ 10) 1 2 true [9 / 10; 1 / 10] (fun _ c => if Nat.eqb c 0 then x else 0) [0; 1]%nat 0 = Ok (1%nat, Some (v x)).
Proof.
  destruct (free_above (1 / 10 ^ 10) ltac:(lra)) as [F G]. split; [exact G|].
  exists (fun x => mean_surprise (mkAbs 1 80 true true) (1 / 10 ^ 10) 1 2 (fun B => nth B [9 / 10; 1 / 10] 0) (fun _ c => if Nat.eqb c 0 then x else 0) 1). intros x Hx Fx.
  assert (P : forall p, In p [9 / 10; 1 / 10] -> 0 < p) by (intros p [<- | [<- | []]]; lra).
  destruct (C141_worst_refuted (mkAbs 1 80 true true) (1 / 10 ^ 10) improper 1 [9 / 10; 1 / 10] (fun _ c => if Nat.eqb c 0 then x else 0) [0; 1]%nat 0 1 ltac:(cbn; lra) ltac:(cbn; lra) ltac:(lra) improper_exact ltac:(lia) eq_refl P ltac:(cbn; lia)) as [v E].
  - intros k [|[|c]] Hk Hc; cbn in *; try lia; (split; [assumption|]); intro; [exact Hx|congruence].
  - destruct (C140_select (mkAbs 1 80 true true) (1 / 10 ^ 10) improper 1 [9 / 10; 1 / 10] (fun _ c => if Nat.eqb c 0 then x else 0) [0; 1]%nat 0 ltac:(cbn; lra) ltac:(lra) improper_exact ltac:(lia) ltac:(discriminate) eq_refl P) as [c [Hc [E' _]]].
    cbn [length nth] in *. rewrite E in E'. injection E' as E1 E2. destruct c as [|[|c]]; [discriminate| |cbn in Hc; lia]. rewrite E, E2. reflexivity.
Qed.

(** C142: a trained learner returns one of the given candidates *)
Theorem C142_debugger_refuted : forall a eps integ sp M N p_b all_f indicies d, abs_info_select false integ sp a eps M N true p_b all_f indicies d = Raise GenericException.
Proof. exact (fun _ _ _ _ _ _ _ _ _ _ => eq_refl). Qed.
Print Assumptions C142_debugger_refuted.
Theorem C142_some_points_refuted : forall continues a eps integ sp M N pB p_b all_f indicies d, pB (length indicies) = Ok p_b -> length p_b = length indicies -> (2 <= length indicies < N)%nat ->
  exists e, abs_info_gp continues integ sp a eps M N pB all_f indicies d = Raise e.
Proof. exact select_subset. Qed.
Print Assumptions C142_some_points_refuted.
(** a single candidate out of several: the scores are those of all candidates, the worst of them has no place in the list of the given ones *)
Theorem C142_one_point_refuted : forall a eps integ M N pB p all_f i d w, 0 < a_v a -> 0 < a_sigma a -> 0 < eps < 1 / 2 -> exact_total integ -> (0 < M)%nat -> pB 1%nat = Ok [p] -> 0 < p -> (0 < w < N)%nat ->
  (forall k c, (k < M)%nat -> (c < N)%nat -> free eps (a_sigma a) (all_f k c) /\ (c <> w -> all_f k w < all_f k c)) ->
  abs_info_gp true integ true_special a eps M N pB all_f [i] d = Raise IndexError.
Proof. exact select_one_point. Qed.
Print Assumptions C142_one_point_refuted.
Theorem C142_one_point_score : forall a eps integ M N p all_f c, 0 < a_v a -> 0 < eps < 1 / 2 -> exact_total integ -> (0 < M)%nat -> 0 < p ->
  abs_info_gain integ true_special a eps M N [p] all_f c = Some ((INR N - 1) * (p * ln p) + mean_surprise a eps M N (fun _ => p) all_f c).
Proof. exact (fun a eps integ M N p all_f c Hv He HI => gain_single a eps integ Hv He HI M N p all_f c). Qed.
Print Assumptions C142_one_point_score.
Example C142_one_point_ex : forall x, 0 < x -> free (1 / 10 ^ 10) 1 x -> abs_info_gp true improper true_special (mkAbs 1 80 true true) (1 / 10 ^ 10) 1 2 (fun _ => Ok [1]) (fun _ c => if Nat.eqb c 0 then x else 0) [0%nat] 0 = Raise IndexError.
Proof.
  intros x Hx Fx. destruct (free_above (1 / 10 ^ 10) ltac:(lra)) as [F _]. apply (C142_one_point_refuted _ _ _ _ _ _ 1 _ _ _ 1); cbn [a_v a_sigma]; try lra; try lia; [exact improper_exact|reflexivity|].
  intros k [|[|c]] Hk Hc; cbn; try lia; (split; [assumption|]); intro; [exact Hx|congruence].
Qed.
(** linear models: a candidate which is never the best makes all scores nan, the first candidate is returned *)
Theorem C142_linear_refuted : forall a eps integ sp M dim pts ws i j p all_f indicies d, (forall x, In x pts -> length x = dim) -> (forall w, In w ws -> length w = dim) -> ws <> [] -> (i < length pts)%nat -> (j < length pts)%nat ->
  (forall w, In w ws -> reward dim (nth i pts []) w < reward dim (nth j pts []) w) -> p_B_pref_linear pts ws = Ok p -> indicies <> [] ->
  abs_info_select true integ sp a eps M (length pts) true p all_f indicies d = Ok (nth 0 indicies O, None).
Proof. exact select_linear_nan. Qed.
Print Assumptions C142_linear_refuted.
Example C142_ex : exists p, p_B_pref_linear [[0]; [1]] [[1]; [2]] = Ok p /\ forall w, In w [[1]; [2]] -> reward 1 (nth 0 [[0]; [1]] []) w < reward 1 (nth 1 [[0]; [1]] []) w.
Proof.
  assert (L : forall w, In w [[1]; [2]] -> reward 1 (nth 0 [[0]; [1]] []) w < reward 1 (nth 1 [[0]; [1]] []) w) by (intros w [<- | [<- | []]]; cbn; lra).
  destruct (P_PBest.linear_chances 1 [[0]; [1]] [[1]; [2]]) as [p [E _]]; try discriminate.
  - intros x [<- | [<- | []]]; reflexivity.
  - intros x [<- | [<- | []]]; reflexivity.
  - exists p. split; [exact E|exact L].
Qed.
