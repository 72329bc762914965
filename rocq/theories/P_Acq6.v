(** Acquisition scores as expected posterior alignment. *)
From Coq Require Import Lra.
From Verif Require Import M_RBase P_RBase S_Psd P_Psd M_Fake M_OrdProbit M_Select M_Info P_Info P_Info2 P_Info3 M_Acq S_Acq P_Acq P_Acq2 M_Normal M_PrefProbit P_Normal.
From Coq Require Import Reals Lra Lia List.
From Verif Require Import S_Psd P_Psd.
Import ListNotations.
Local Open Scope R_scope.

Lemma ratio_posterior M f x : (0 < M)%nat -> sumn M x <> 0 -> ratio M f x = answer_chance M x * posterior_alignment M f x.
Proof.
  intros HM Hx. assert (P := P_Acq.INR_pos M HM). unfold ratio, answer_chance, posterior_alignment, posterior.
  rewrite (sumn_ext M (fun i => sumn M (fun j => x i / sumn M x * (x j / sumn M x) * f i j)) (fun i => / (sumn M x * sumn M x) * sumn M (fun j => x i * x j * f i j))).
  - rewrite sumn_scale. unfold qform. field. split; lra.
  - intros i _. rewrite <- sumn_scale. apply sumn_ext. intros j _. field. exact Hx.
Qed.
Lemma pair_posterior M n f p a b : (0 < M)%nat -> (forall k, (k < M)%nat -> 0 < p k a b /\ 0 < p k b a) ->
  pair_align M n f p a b = answer_chance M (fun k => p k a b) * posterior_alignment M f (fun k => p k a b)
    + answer_chance M (fun k => p k b a) * posterior_alignment M f (fun k => p k b a).
Proof.
  intros HM Hp. rewrite pair_align_ratio. assert (A : 0 < sumn M (fun k => p k a b)) by (apply sumn_pos; auto; intros k Hk; now apply Hp).
  assert (B : 0 < sumn M (fun k => p k b a)) by (apply sumn_pos; auto; intros k Hk; now apply Hp). rewrite !ratio_posterior by (auto; lra). reflexivity.
Qed.

Lemma rprod_filter (g : nat -> R) (T : nat -> bool) l : rprod (map (fun j => if T j then 1 else g j) l) = rprod (map g (filter (fun j => negb (T j)) l)).
Proof. unfold rprod. induction l as [|j l IH]; [reflexivity|]. cbn. rewrite IH. destruct (T j); cbn; [ring|reflexivity]. Qed.
Lemma rprod_app a b : rprod (a ++ b) = rprod a * rprod b.
Proof. unfold rprod. induction a as [|x a IH]; cbn; [ring|]. rewrite IH. ring. Qed.
Lemma del_nth_cons {A} i (x : A) l : del_nth (S i) (x :: l) = x :: del_nth i l.
Proof. reflexivity. Qed.
Lemma map_nth_seq {A} (l : list A) d : map (fun j => nth j l d) (seq 0 (length l)) = l.
Proof. induction l as [|x l IH]; [reflexivity|]. cbn [length seq map nth]. rewrite <- seq_shift, map_map. now rewrite IH at 1. Qed.
Lemma rprod_del (g : nat -> R) l : forall i d, (i < length l)%nat ->
  rprod (map (fun j => if Nat.eqb j i then 1 else g (nth j l d)) (seq 0 (length l))) = rprod (map g (del_nth i l)).
Proof.
  induction l as [|x l IH]; intros i d Hi; [cbn in Hi; lia|]. cbn [length seq map]. rewrite <- seq_shift, map_map. destruct i as [|i].
  - cbn [Nat.eqb]. cbn. rewrite Rmult_1_l.
    rewrite <- (map_map (fun j => nth j l d) g). rewrite (map_nth_seq l d). reflexivity.
  - rewrite del_nth_cons. cbn [map]. unfold rprod in *. cbn [fold_right]. cbn [Nat.eqb nth]. f_equal. apply IH. cbn in Hi. lia.
Qed.
Lemma rprod_none (g : nat -> R) n l : (forall j, In j l -> j <> n) -> rprod (map (fun j => if Nat.eqb j n then 1 else g j) l) = rprod (map g l).
Proof.
  intro H. unfold rprod. induction l as [|j l IH]; [reflexivity|]. cbn. rewrite IH by (intros; apply H; now right).
  destruct (Nat.eqb_spec j n); [subst; exfalso; apply (H n); [now left|reflexivity]|reflexivity].
Qed.
Lemma wins_if L Q q : wins_all L Q q = rprod (map (fun j => if Nat.eqb j q then 1 else L (nth q Q 0%nat) (nth j Q 0%nat)) (seq 0 (length Q))).
Proof. unfold wins_all. rewrite (rprod_filter (fun j => L (nth q Q 0%nat) (nth j Q 0%nat)) (fun j => Nat.eqb j q)). reflexivity. Qed.
Lemma rsum_seq n g : rsum (map g (seq 0 n)) = sumn n g.
Proof. exact (sum_to_sumn n g). Qed.
Lemma query_choice L Q : query_p L Q = map (choice_chance L Q) (seq 0 (length Q)).
Proof.
  unfold query_p. set (p0 := map _ (seq 0 (length Q))). assert (E : p0 = map (wins_all L Q) (seq 0 (length Q))).
  { apply map_ext. intro i. rewrite wins_if. f_equal. apply map_ext. intro j. now rewrite Nat.eqb_sym. }
  rewrite E, map_map, rsum_seq. reflexivity.
Qed.
Lemma greedy_weights P prev c : map (fun i => (if Nat.ltb 1 (length prev) then rprod (map (P (nth i prev 0%nat)) (del_nth i prev)) else 1)
                          * P (nth i prev 0%nat) c) (seq 0 (length prev))
            ++ [rprod (map (P c) prev)] = map (wins_all P (prev ++ [c])) (seq 0 (length (prev ++ [c]))).
Proof.
  rewrite app_length, Nat.add_1_r, seq_S, map_app. cbn [Nat.add map].
  f_equal.
  - apply map_ext_in. intros i Hi. apply in_seq in Hi. rewrite wins_if, app_length, Nat.add_1_r, seq_S, map_app, rprod_app. cbn [Nat.add map].
    rewrite (app_nth1 prev [c] 0%nat (n := i)) by lia.
    rewrite (map_ext_in (fun j => if Nat.eqb j i then 1 else P (nth i prev 0%nat) (nth j (prev ++ [c]) 0%nat)) (fun j => if Nat.eqb j i then 1 else P (nth i prev 0%nat) (nth j prev 0%nat)))
      by (intros j Hj; apply in_seq in Hj; now rewrite (app_nth1 prev [c] 0%nat (n := j)) by lia).
    rewrite (rprod_del (P (nth i prev 0%nat)) prev i 0%nat) by lia.
    replace (Nat.eqb (length prev) i) with false by (symmetry; apply Nat.eqb_neq; lia). rewrite nth_last.
    f_equal; [|unfold rprod; cbn; ring]. destruct (Nat.ltb_spec 1 (length prev)); [reflexivity|].
    destruct prev as [|x [|y prev]]; cbn in Hi, H; try lia. replace i with 0%nat by lia. reflexivity.
  - f_equal. rewrite wins_if, app_length, Nat.add_1_r, seq_S, map_app, rprod_app. cbn [Nat.add map]. rewrite Nat.eqb_refl, nth_last.
    rewrite (rprod_none (fun j => P c (nth j (prev ++ [c]) 0%nat))) by (intros j Hj; apply in_seq in Hj; lia).
    rewrite (map_ext_in (fun j => P c (nth j (prev ++ [c]) 0%nat)) (fun j => P c (nth j prev 0%nat))) by (intros j Hj; apply in_seq in Hj; now rewrite (app_nth1 prev [c] 0%nat (n := j)) by lia).
    rewrite <- (map_map (fun j => nth j prev 0%nat) (P c)), map_nth_seq. unfold rprod. cbn. ring.
Qed.
Lemma greedy_choice P prev c : greedy_p P prev c = map (choice_chance P (prev ++ [c])) (seq 0 (S (length prev))).
Proof.
  unfold greedy_p. cbv zeta. rewrite greedy_weights, map_map, rsum_seq. unfold choice_chance. rewrite app_length, Nat.add_1_r. reflexivity.
Qed.
Lemma greedy_posterior M f P prev c : (0 < M)%nat -> (forall k a b, 0 < P k a b) ->
  greedy_align M f P prev c = sumn (S (length prev)) (fun q =>
    answer_chance M (fun k => choice_chance (P k) (prev ++ [c]) q) * posterior_alignment M f (fun k => choice_chance (P k) (prev ++ [c]) q)).
Proof.
  intros HM HP. rewrite greedy_align_ratio. apply sumn_ext. intros q Hq.
  assert (E : forall k, nth q (greedy_p (P k) prev c) 0 = choice_chance (P k) (prev ++ [c]) q).
  { intro k. rewrite greedy_choice. rewrite (nth_indep _ 0 (choice_chance (P k) (prev ++ [c]) 0)) by (rewrite map_length, seq_length; exact Hq).
    rewrite (map_nth (choice_chance (P k) (prev ++ [c]))). now rewrite seq_nth by auto. }
  rewrite (ratio_ext M f _ (fun k => choice_chance (P k) (prev ++ [c]) q)) by (intros; apply E). apply ratio_posterior; auto.
  assert (0 < sumn M (fun k => choice_chance (P k) (prev ++ [c]) q)); [|lra]. apply sumn_pos; auto. intros k _. rewrite <- E. now apply greedy_nth_pos.
Qed.
(** the same score through the integrand of the rating learner *)
Lemma integrand_posterior M f p : (0 < M)%nat -> (forall k, (k < M)%nat -> 0 < p k) -> pq_integrand M f p = answer_chance M p * posterior_alignment M f p.
Proof. intros HM Hp. rewrite integrand_ratio by auto. apply ratio_posterior; auto. assert (K := sumn_pos M p HM Hp). lra. Qed.
