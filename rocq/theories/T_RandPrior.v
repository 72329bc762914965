(** C155: random prior points. *)
From Coq Require Import Lqa.
From Verif Require Import M_Base M_Pareto M_Store M_RandPrior S_Store S_RandPrior P_Store P_RandPrior.

Theorem C155_box b draws : proper_box b -> unit_draws (length b) draws -> Forall (in_box b) (random_pts b draws).
Proof. exact (random_in_box b draws). Qed.
Print Assumptions C155_box.
(** with more than two points none is removed, and each is said to be worse than the upper corner, which is the second point *)
Theorem C155_kept s b draws : sPareto s = true -> rel_in_range s -> (forall i, i < length (points s) -> referenced s i) -> proper_box b ->
  unit_draws (length b) draws -> 2 < length draws -> same_width (length b) (points s) ->
  exists s', random_prior s b draws = (s', Done) /\ points s' = points s ++ random_pts b draws /\ get_prior_pts s' = Ok (Some (random_pts b draws)) /\
    forall i, i < length draws -> i <> 1 ->
      In ((-1)%Z, nth_error (points s') (length (points s) + 1), nth_error (points s') (length (points s) + i)) (map (says (points s')) (rel s')).
Proof. exact (random_prior_kept s b draws). Qed.
Print Assumptions C155_kept.
Theorem C155_corners b draws : proper_box b -> unit_draws (length b) draws -> 2 < length draws -> nth_error (random_pts b draws) 1 = Some (map snd b) /\
  forall i a, i <> 1 -> nth_error (random_pts b draws) i = Some a -> dominates (map snd b) a.
Proof. exact (upper_above b draws). Qed.
Print Assumptions C155_corners.
(** one point: always an exception in a new model *)
Theorem C155_single_refuted b u : exists s', random_prior (init true) b [u] = (s', Raised TypeError) /\ points s' = [scale_draw u b].
Proof. exact (single_prior b u). Qed.
Print Assumptions C155_single_refuted.
(** two points: an exception if none is above the other *)
Theorem C155_two_refuted : exists b draws s', proper_box b /\ unit_draws (length b) draws /\ length draws = 2 /\
  random_prior (init true) b draws = (s', Raised TypeError) /\ length (points s') = 2.
Proof. exact two_priors. Qed.
Print Assumptions C155_two_refuted.

(** ---- examples ---- *)
Example C155_ex : let s := run (init true) [OAdd [[1#1; 2#1]; [2#1; 1#1]] (LRel [((-1)%Z, 0, 1)])] in
  let b := [(0#1, 1#1); (-1#1, 3#1)] in let draws := [[1#2; 1#2]; [0#1; 0#1]; [1#4; 3#4]; [0#1; 9#10]] in
  sPareto s = true /\ rel_in_range s /\ (forall i, i < length (points s) -> referenced s i) /\ proper_box b /\ unit_draws (length b) draws /\ 2 < length draws /\
  same_width (length b) (points s) /\ length (points (fst (random_prior s b draws))) = 6 /\ firstn 2 (random_pts b draws) = [[0#1; -1#1]; [1#1; 3#1]].
Proof.
  cbv zeta. repeat split; try discriminate; try reflexivity; try (repeat constructor; cbn; lra); try (cbn; lia).
  - cbn in H. destruct H as [H|[]]. injection H as <- <- <-. cbn. lia.
  - cbn in H. destruct H as [H|[]]. injection H as <- <- <-. cbn. lia.
  - intros i Hi. exists (-1)%Z, 0, 1. split; [left; reflexivity|]. change (i < 2) in Hi. lia.
Qed.
