From Verif Require Import M_Base M_Select M_UCB S_Select S_UCB P_Base P_Select.
From Coq Require Import Reals Lra Permutation.
Local Open Scope R_scope.

Lemma Rltb_false x y : Rltb x y = false <-> y <= x.
Proof. unfold Rltb. destruct (Rlt_dec x y); split; intro; try discriminate; auto; lra. Qed.
Lemma Rltb_true x y : Rltb x y = true <-> x < y.
Proof. unfold Rltb. destruct (Rlt_dec x y); split; intro; try discriminate; auto; lra. Qed.
Lemma R_order_ok : order_ok Rltb.
Proof. split; intros a b; [intros c|]; rewrite ?Rltb_false, ?Rltb_true; lra. Qed.

Lemma ucb_score_ok alpha mu var i m v : nth_error mu i = Some m -> nth_error var i = Some v -> ucb_score alpha mu var i = Ok (m + alpha * sqrt v).
Proof. intros H1 H2. unfold ucb_score. apply getitem_ok in H1, H2. rewrite H1. cbn [bind]. now rewrite H2. Qed.
Lemma chosen_ucb enum alpha mu var L S i : (forall k, enumerates (enum k)) -> l_greedy L = ucb_greedy enum alpha mu var -> chosen L S i ->
  forall y, In y S -> ucb_le alpha mu var y i.
Proof.
  intros He Hg Hc y Hy m v m' v' H1 H2 H3 H4. apply Rltb_false.
  eapply (chosen_score Rltb enum (ucb_score alpha mu var) L S i R_order_ok He Hg Hc); [exact Hy|now apply ucb_score_ok|now apply ucb_score_ok].
Qed.
Lemma ucb_answers enum alpha mu var N : (forall k, enumerates (enum k)) -> (N <= length mu)%nat -> (N <= length var)%nat ->
  answers (ucb_greedy enum alpha mu var) N.
Proof.
  intros He H1 H2. apply score_answers; auto; [apply R_order_ok|]. intros P i Hi.
  destruct (getitem_total mu i) as [m Hm]; [eapply Nat.lt_le_trans; eauto|].
  destruct (getitem_total var i) as [v Hv]; [eapply Nat.lt_le_trans; eauto|].
  apply getitem_ok in Hm, Hv. rewrite (ucb_score_ok _ _ _ _ _ _ Hm Hv). eauto.
Qed.
