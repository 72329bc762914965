(** Lemmas about random prior points. *)
From Coq Require Import Sorted Lqa.
From Verif Require Import M_Base M_Pareto M_Store M_RandPrior S_Store S_RandPrior P_Store.

Lemma scale_length u : forall b, length u = length b -> length (scale_draw u b) = length b.
Proof. induction u as [|x u IH]; intros [|[lo hi] b] H; try discriminate; [reflexivity|]. cbn. f_equal. apply IH. now injection H. Qed.
Local Open Scope Q_scope.
Lemma scale_box u : forall b, length u = length b -> Forall (fun p => fst p < snd p) b -> Forall (fun x => 0 <= x < 1) u -> in_box b (scale_draw u b) /\ dominates (map snd b) (scale_draw u b).
Proof.
  induction u as [|x u IH]; intros [|[lo hi] b] H B U; try discriminate; [split; constructor|]. inversion B; inversion U; subst. destruct (IH b ltac:(now injection H) ltac:(assumption) ltac:(assumption)) as [I D]. cbn in *. split; constructor; auto; cbn; nra.
Qed.
Lemma corners_box b : Forall (fun p => fst p < snd p) b -> in_box b (map fst b) /\ in_box b (map snd b) /\ dominates (map snd b) (map fst b).
Proof. induction 1 as [|[lo hi] b H F [A [B C]]]; [repeat split; constructor|]. cbn in *. repeat split; constructor; auto; cbn; lra. Qed.
Local Close Scope Q_scope.

Lemma random_pts_shape b draws : 2 < length draws -> exists p pts, random_pts b draws = map fst b :: map snd b :: p :: pts /\
  length (random_pts b draws) = length draws /\ (forall x, In x (p :: pts) -> exists u, In u draws /\ x = scale_draw u b).
Proof.
  intro H. destruct draws as [|u0 [|u1 [|u2 draws]]]; cbn in H; try lia. exists (scale_draw u2 b), (map (fun u => scale_draw u b) draws). split; [reflexivity|]. split; [unfold random_pts; cbn; now rewrite map_length|].
  intros x [<- |Hx]; [exists u2; cbn; auto|]. apply in_map_iff in Hx. destruct Hx as [u [<- Hu]]. exists u. cbn. auto.
Qed.
Lemma random_in_box b draws : proper_box b -> unit_draws (length b) draws -> Forall (in_box b) (random_pts b draws).
Proof.
  intros [N B] U. assert (S : Forall (in_box b) (map (fun u => scale_draw u b) draws)).
  { apply Forall_forall. intros x Hx. apply in_map_iff in Hx. destruct Hx as [u [<- Hu]]. unfold unit_draws in U. rewrite Forall_forall in U. destruct (U u Hu) as [L F]. now apply scale_box. }
  destruct (corners_box b B) as [C1 [C2 _]]. unfold random_pts. destruct (map _ draws) as [|a [|c [|p pts]]]; auto. inversion S as [|? ? ? S1]; subst. inversion S1; subst. constructor; [exact C1|constructor; [exact C2|assumption]].
Qed.
Lemma random_width b draws : unit_draws (length b) draws -> same_width (length b) (random_pts b draws).
Proof.
  intro U. assert (S : same_width (length b) (map (fun u => scale_draw u b) draws)).
  { apply Forall_forall. intros x Hx. apply in_map_iff in Hx. destruct Hx as [u [<- Hu]]. unfold unit_draws in U. rewrite Forall_forall in U. apply scale_length, U, Hu. }
  unfold random_pts. destruct (map _ draws) as [|a [|c [|p pts]]]; auto. inversion S as [|? ? ? S1]; subst. inversion S1; subst. constructor; [apply map_length|constructor; [apply map_length|assumption]].
Qed.
(** the upper corner, second in the list, is above every other point *)
Lemma upper_above b draws : proper_box b -> unit_draws (length b) draws -> 2 < length draws -> nth_error (random_pts b draws) 1 = Some (map snd b) /\
  forall i a, i <> 1 -> nth_error (random_pts b draws) i = Some a -> dominates (map snd b) a.
Proof.
  intros [N B] U L. destruct (random_pts_shape b draws L) as [p [pts [E [_ H]]]]. rewrite E. split; [reflexivity|]. intros [|[|i]] a Ni Ha; [|congruence|].
  - injection Ha as <-. apply corners_box, B.
  - destruct (H a) as [u [Hu ->]]; [exact (nth_error_In (p :: pts) i Ha)|]. unfold unit_draws in U. rewrite Forall_forall in U. destruct (U u Hu). now apply scale_box.
Qed.
Lemma picked_all X keep l : picked X keep l -> (forall i, i < length X -> In i keep) -> l = X.
Proof.
  intros P A. assert (Lk : length keep = length l) by (destruct P as [_ F]; clear -F; induction F; cbn; congruence).
  assert (ND : NoDup keep). { destruct P as [S _]. clear -S. induction S as [|a k S IH F]; constructor; auto. intro I. rewrite Forall_forall in F. specialize (F a I). lia. }
  assert (R : forall i, In i keep -> i < length X). { destruct P as [_ F]. clear -F. induction F as [|i x k l E F IH]; intros j Hj; [destruct Hj|]. destruct Hj as [<- |Hj]; [apply nth_error_Some; congruence|now apply IH]. }
  assert (Len : length l = length X).
  { rewrite <- Lk. apply Nat.le_antisymm.
    - rewrite <- (seq_length (length X) 0). apply NoDup_incl_length; auto. intros i Hi. apply in_seq. split; [lia|]. now apply R.
    - rewrite <- (seq_length (length X) 0). apply NoDup_incl_length; [apply seq_NoDup|]. intros i Hi. apply in_seq in Hi. apply A. lia. }
  assert (EXT : forall (a b : list row), (forall i, nth_error a i = nth_error b i) -> a = b) by (induction a as [|x a IH]; intros [|y b] H; auto; try (specialize (H 0); discriminate); f_equal; [specialize (H 0); now injection H|apply IH; intro i; exact (H (S i))]). apply EXT. intro i. destruct (Nat.lt_ge_cases i (length X)) as [Hi|Hi].
  - apply (picked_prefix X keep l P i). intros j Hj. apply A. lia.
  - rewrite !(proj2 (nth_error_None _ _)) by lia. reflexivity.
Qed.
Lemma random_prior_kept s b draws : sPareto s = true -> rel_in_range s -> (forall i, i < length (points s) -> referenced s i) -> proper_box b -> unit_draws (length b) draws -> 2 < length draws ->
  same_width (length b) (points s) -> exists s', random_prior s b draws = (s', Done) /\ points s' = points s ++ random_pts b draws /\ get_prior_pts s' = Ok (Some (random_pts b draws)) /\
    forall i, i < length draws -> i <> 1 -> In ((-1)%Z, nth_error (points s') (length (points s) + 1), nth_error (points s') (length (points s) + i)) (map (says (points s')) (rel s')).
Proof.
  intros Hp Hr Href PB U L Hw. set (pts := random_pts b draws). assert (K : exists k, length b = S k) by (destruct PB as [N _]; destruct b; [congruence|eexists; reflexivity]). destruct K as [k Ek].
  assert (W : same_width (S k) (points s ++ pts)) by (rewrite <- Ek; apply Forall_app; split; [exact Hw|now apply random_width]). destruct (upper_above b draws PB U L) as [U1 U2]. fold pts in U1, U2.
  destruct (random_pts_shape b draws L) as [_ [_ [_ [Lp _]]]]. fold pts in Lp.
  unfold random_prior. fold pts. destruct (add_prior_cases s pts Hp) as [s2 [E E2]]. set (s1 := set_prior s _) in E.
  assert (Hr2 : rel_in_range s2). { change s2 with (fst (s2, Done)). rewrite <- E. apply add_rel_in_range; [intros d u v []|exact Hr]. }
  destruct (add_spec _ _ _ _ E) as (Ep & EX & Er & _ & _ & _ & _ & Epr & _ & EP). change (points s1) with (points s) in *. change (rel s1) with (rel s) in *. cbn [user_rel shifted map app] in Er. change (gen_rel s1 pts) with (gen_rel s pts) in Er.
  assert (G : forall i, i < length draws -> i <> 1 -> In ((-1)%Z, length (points s) + 1, length (points s) + i) (rel s2)).
  { intros i Hi Ni. rewrite Er. apply in_or_app. right. assert (Hn : exists a, nth_error pts i = Some a) by (destruct (nth_error pts i) eqn:Q; [eauto|apply nth_error_None in Q; lia]). destruct Hn as [a Ha].
    apply (gen_rel_complete k s pts 1 (length (points s) + i) (map snd b) a W Hp U1); [rewrite nth_error_app2 by lia; replace (length (points s) + i - length (points s)) with i by lia; exact Ha|]. now apply (U2 i). }
  assert (ER : sRel s2 <> None). { intro Q. assert (I := G 0 ltac:(lia) ltac:(lia)). unfold rel in I. rewrite Q in I. destruct I. }
  destruct (remove_without_reference s2 true) as [s' st] eqn:Erm. destruct (remove_main s2 true s' st Erm Hr2 EX ER) as [-> [Says _]]; [intros _ Q; rewrite Epr in Q; discriminate|].
  rewrite E2. exists s'. split; [reflexivity|]. destruct (add_prior_main k s pts s' Hp Hr W Href E2) as [keep [l [Eg [Epl [Pk Kp]]]]].
  assert (El : l = pts).
  { apply (picked_all pts keep l Pk). intros i Hi. apply Kp. destruct (nth_error pts i) as [a|] eqn:Q; [|apply nth_error_None in Q; lia]. exists a. split; [reflexivity|]. destruct (Nat.eq_dec i 1) as [-> |Ni].
    - left. destruct (nth_error pts 0) as [c|] eqn:Q0; [|apply nth_error_None in Q0; lia]. exists c. split; [apply in_or_app; right; eapply nth_error_In; eauto|]. replace a with (map snd b) by congruence. now apply (U2 0).
    - right. exists (map snd b). split; [eapply nth_error_In; exact U1|]. now apply (U2 i). }
  subst l. split; [exact Epl|]. split; [exact Eg|]. intros i Hi Ni. rewrite Says, Epl, <- Ep. apply in_map_iff. exists ((-1)%Z, length (points s) + 1, length (points s) + i). split; [reflexivity|now apply G].
Qed.
(** too few points: an exception, after the points were stored *)
Lemma single_prior b u : exists s', random_prior (init true) b [u] = (s', Raised TypeError) /\ points s' = [scale_draw u b].
Proof. eexists. split; [reflexivity|]. reflexivity. Qed.
Local Open Scope Q_scope.
Lemma two_priors : exists b draws s', proper_box b /\ unit_draws (length b) draws /\ length draws = 2%nat /\ random_prior (init true) b draws = (s', Raised TypeError) /\ length (points s') = 2%nat.
Proof.
  exists [(0, 1); (0, 1)], [[0; 1 # 2]; [1 # 2; 0]]. eexists. split; [split; [discriminate|repeat constructor]|]. split; [repeat constructor; cbn; lra|]. split; [reflexivity|]. split; vm_compute; reflexivity.
Qed.
