(** Property C186: the tuning objectives of HumanChoiceUser2 have one valley *)
From Verif Require Import M_Base M_RBase M_Fake M_Normal M_User S_User P_RBase P_User P_User2 P_User4.
From Coq Require Import Reals Lra Lia List.
Import ListNotations.
Local Open Scope R_scope.

(** between two noise levels the rating objective is smaller than at the worse of the two *)
Theorem C186_rating_valley : forall s t u ds p, 0 < s -> s < t -> t < u -> (exists d, In d ds /\ d <> 0) ->
  exists a b c, rate_obj s ds p = Some a /\ rate_obj t ds p = Some b /\ rate_obj u ds p = Some c /\ b < Rmax a c.
Proof. exact rating_valley. Qed.
Print Assumptions C186_rating_valley.
Example C186_rating_valley_ex : exists a b c, rate_obj 1 [1; 0; -2] (3 / 4) = Some a /\ rate_obj 2 [1; 0; -2] (3 / 4) = Some b /\
  rate_obj 5 [1; 0; -2] (3 / 4) = Some c /\ b < Rmax a c.
Proof. apply C186_rating_valley; [lra|lra|lra|]. exists 1. split; [now left|lra]. Qed.

(** every target between 1/2 and 1 is met by exactly one noise level *)
Theorem C186_rating_root : forall ds p, (exists d, In d ds /\ d <> 0) -> 1 / 2 < p < 1 -> exists s, 0 < s /\ rate_obj s ds p = Some 0 /\
  forall t, 0 < t -> rate_obj t ds p = Some 0 -> t = s.
Proof. exact rating_root. Qed.
Print Assumptions C186_rating_root.
Example C186_rating_root_ex : exists s, 0 < s /\ rate_obj s [1; 0; -2] (9 / 10) = Some 0.
Proof. destruct (C186_rating_root [1; 0; -2] (9 / 10)) as [s [H1 [H2 _]]]; [exists 1; split; [now left|lra]|lra|]. exists s. auto. Qed.

(** a target of at most 1/2 or at least 1 is met by none: the objective falls, or grows, all the way *)
Theorem C186_rating_edge : forall s t ds p, 0 < s -> s < t -> (exists d, In d ds /\ d <> 0) -> exists a b, rate_obj s ds p = Some a /\
  rate_obj t ds p = Some b /\ (p <= 1 / 2 -> 0 < b /\ b < a) /\ (1 <= p -> 0 < a /\ a < b).
Proof. exact rating_edge. Qed.
Print Assumptions C186_rating_edge.
Example C186_rating_edge_ex : exists a b, rate_obj 1 [1] 1 = Some a /\ rate_obj 2 [1] 1 = Some b /\ 0 < a /\ a < b.
Proof.
  destruct (C186_rating_edge 1 2 [1] 1) as [a [b [H1 [H2 [_ H3]]]]]; [lra|lra|exists 1; split; [now left|lra]|]. exists a, b.
  destruct (H3 (Rle_refl 1)). auto.
Qed.

(** the pairwise objective, when every pair counts, is the squared distance of the mean choice probability from the target *)
Theorem C186_pair_value : forall b ds p, ds <> [] -> Forall (informative b) ds ->
  obj b ds p = Some ((rsum (map (pair_probability b) ds) / INR (length ds) - p) * (rsum (map (pair_probability b) ds) / INR (length ds) - p)).
Proof. exact pair_value. Qed.
Print Assumptions C186_pair_value.
Theorem C186_pair_valley_partial : forall b c e ds p, b < c -> c < e -> ds <> [] -> Forall (informative b) ds ->
  exists x y z, obj b ds p = Some x /\ obj c ds p = Some y /\ obj e ds p = Some z /\ y < Rmax x z.
Proof. exact pair_valley. Qed.
Print Assumptions C186_pair_valley_partial.
Theorem C186_pair_root_partial : forall b ds p, ds <> [] -> Forall (informative b) ds ->
  rsum (map (pair_probability b) ds) / INR (length ds) <= p -> p < 1 ->
  exists c, b <= c /\ obj c ds p = Some 0 /\ forall e, b <= e -> obj e ds p = Some 0 -> e = c.
Proof. exact pair_root. Qed.
Print Assumptions C186_pair_root_partial.
Example C186_pair_ex : Forall (informative 1) [ln 2; - ln 3] /\ rsum (map (pair_probability 1) [ln 2; - ln 3]) / INR 2 = 17 / 24 /\
  obj 1 [ln 2; - ln 3] (17 / 24) = Some 0.
Proof.
  assert (0 < ln 2) by (rewrite <- ln_1; apply ln_increasing; lra). assert (0 < ln 3) by (rewrite <- ln_1; apply ln_increasing; lra).
  assert (A : pair_probability 1 (ln 2) = 2 / 3) by (unfold pair_probability; rewrite Rabs_pos_eq, Rmult_1_r, exp_ln by lra; lra).
  assert (B : pair_probability 1 (- ln 3) = 3 / 4) by (unfold pair_probability; rewrite Rabs_Ropp, Rabs_pos_eq, Rmult_1_r, exp_ln by lra; lra).
  assert (F : Forall (informative 1) [ln 2; - ln 3]) by (repeat constructor; unfold informative; rewrite ?A, ?B; lra).
  assert (M : rsum (map (pair_probability 1) [ln 2; - ln 3]) / INR 2 = 17 / 24) by (cbn [map rsum INR]; rewrite A, B; lra).
  split; [exact F|]. split; [exact M|]. rewrite C186_pair_value; [|discriminate|exact F]. cbn [length]. rewrite M. f_equal. lra.
Qed.

(** nearly tied pairs enter the mean only from some rationality on, so there can be a hill between two better values *)
Theorem C186_pair_refuted : exists b c e ds p x y z, 0 < b /\ b < c /\ c < e /\ (forall d, In d ds -> d <> 0) /\ 1 / 2 < p < 1 /\
  obj b ds p = Some x /\ obj c ds p = Some y /\ obj e ds p = Some z /\ x = 0 /\ z < y.
Proof. exact pair_hill. Qed.
Print Assumptions C186_pair_refuted.
