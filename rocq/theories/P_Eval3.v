(** Witnesses for the evaluation of path problems. *)
From Coquelicot Require Import Coquelicot.
From Coq Require Import Reals Lra Lia List Permutation Sorted.
From Verif Require Import M_Base M_RBase P_RBase S_Psd P_Psd M_Fake M_OrdProbit M_Select P_Select M_Info P_Info M_Acq S_Acq P_Acq P_Acq2 M_Normal M_PrefProbit M_Eval S_Eval P_Eval P_Eval2.
From Coq Require Import Reals Lra Lia List Permutation Sorted.
Import ListNotations.
Local Open Scope R_scope.

(** a sorting routine *)
Fixpoint insert (v : list R) (i : nat) (l : list nat) : list nat :=
  match l with [] => [i] | j :: l' => if Rle_dec (nth i v 0) (nth j v 0) then i :: l else j :: insert v i l' end.
Definition stable_argsort (v : list R) : list nat := fold_right (insert v) [] (seq 0 (length v)).
Lemma insert_perm v i l : Permutation (insert v i l) (i :: l).
Proof. induction l as [|j l IH]; simpl; auto. destruct (Rle_dec _ _); auto. eapply Permutation_trans; [apply perm_skip, IH|apply perm_swap]. Qed.
Lemma insert_sorted v i l : StronglySorted (fun i j => nth i v 0 <= nth j v 0) l -> StronglySorted (fun i j => nth i v 0 <= nth j v 0) (insert v i l).
Proof.
  induction 1 as [|j l S0 IH F]; simpl; [repeat constructor|]. destruct (Rle_dec _ _) as [H|H].
  - constructor; [constructor; auto|]. constructor; auto. eapply Forall_impl; [|exact F]. simpl. intros. lra.
  - constructor; auto. apply (Permutation_Forall (Permutation_sym (insert_perm v i l))). constructor; auto. lra.
Qed.
Lemma stable_sorts : sorts stable_argsort.
Proof.
  intro v. unfold stable_argsort. generalize (seq 0 (length v)). intro l. induction l as [|i l [IH1 IH2]]; simpl.
  - split; constructor. - split; [eapply Permutation_trans; [apply insert_perm|]; auto|now apply insert_sorted].
Qed.
(** every sorting routine puts one of two equally good paths second *)
Lemma ties_wrong argsort enum : sorts argsort -> enumerates enum ->
  exists (model : list nat -> list R) m, values_each model /\
    eval_problem enum argsort model (map (fun _ => 1)) (mkProblem [0; 1]%nat [0; 1]%nat) = Ok m /\ ev_diff m = 0 /\ ev_rank m = 1%nat.
Proof.
  intros HS HE. set (p := mkProblem [0; 1]%nat [0; 1]%nat).
  assert (F : pareto_first p) by (split; [apply Permutation_refl|simpl; lia]). assert (Ne : pr_pareto p <> []) by discriminate.
  assert (HU : values_each (map (fun _ : nat => 1))) by (intro; apply map_length).
  set (model b := map (fun i => if Nat.eqb i b then 1 else 0) : list nat -> list R).
  assert (HM : forall b, values_each (model b)) by (intros b l; apply map_length).
  assert (Pu := sorted_perm argsort HS [1; 1]). simpl in Pu.
  assert (C : sorted_idx argsort [1; 1] = [0; 1]%nat \/ sorted_idx argsort [1; 1] = [1; 0]%nat).
  { destruct (sorted_idx argsort [1; 1]) as [|a [|b [|c l]]] eqn:E; try (apply Permutation_length in Pu; discriminate).
    assert (Ha : In a [0; 1]%nat) by (apply (Permutation_in _ Pu); simpl; auto). assert (Hb : In b [0; 1]%nat) by (apply (Permutation_in _ Pu); simpl; auto).
    assert (N : NoDup [a; b]) by (eapply Permutation_NoDup; [apply Permutation_sym, Pu|repeat constructor; simpl; intuition discriminate]).
    inversion N; subst. simpl in *. destruct Ha as [<-|[<-|[]]], Hb as [<-|[<-|[]]]; auto; tauto. }
  assert (G : forall b, (b < 2)%nat -> exists m, eval_problem enum argsort (model b) (map (fun _ => 1)) p = Ok m /\ ev_best m = b /\ ev_diff m = 0 /\ position_from 0 b (sorted_idx argsort [1; 1]) = Ok (ev_rank m)).
  { intros b Hb. destruct (eval_run enum argsort (model b) (map (fun _ => 1)) HS HE (HM b) HU p F Ne) as [m [E [B [Es [M [Er [[t [T D]] [P _]]]]]]]].
    cbn zeta in *. exists m. unfold p in B, Es, M, Er, T, P. unfold pareto_paths in *. cbn in B, T, P.
    assert (Eb : ev_best m = b).
    { rewrite Es in M. destruct M as [_ M]. specialize (M 1). cbn in M. destruct b as [|[|b]]; [| |lia]; destruct (ev_best m) as [|[|k]]; try lia; cbn in M;
        (exfalso; assert (1 <= 0); [apply M; auto|lra]). }
    repeat split; auto; [|now rewrite <- Eb].
    assert (t = 1) by (destruct T as [T _]; simpl in T; intuition). cbn in Er. destruct (ev_best m) as [|[|k]]; [| |lia]; cbn in Er; lra. }
  destruct C as [C|C]; rewrite C in G.
  - destruct (G 1%nat) as [m [E [_ [D P]]]]; [lia|]. exists (model 1%nat), m. repeat split; auto. cbn in P. congruence.
  - destruct (G 0%nat) as [m [E [_ [D P]]]]; [lia|]. exists (model 0%nat), m. repeat split; auto. cbn in P. congruence.
Qed.
Definition back_u : list R := [3; 1; 2].
Definition back_s : list R := [-3; -1; -2].
Lemma nodup3 (a b c : R) : a <> b -> a <> c -> b <> c -> NoDup [a; b; c].
Proof. intros. repeat constructor; simpl; intuition congruence. Qed.
Lemma ss3 (P : nat -> nat -> Prop) a b c : P a b -> P a c -> P b c -> StronglySorted P [a; b; c].
Proof. intros. repeat constructor; auto. Qed.
Lemma perm3a : Permutation [0; 2; 1]%nat (seq 0 3).
Proof. simpl. constructor. apply perm_swap. Qed.
Lemma perm3b : Permutation [1; 2; 0]%nat (seq 0 3).
Proof. simpl. eapply Permutation_trans; [apply perm_skip, perm_swap|apply perm_swap]. Qed.
Lemma corr_half : corr [INR 0; INR 2; INR 1] [INR 1; INR 2; INR 0] = 1 / 2.
Proof.
  assert (M1 : rmean [INR 0; INR 2; INR 1] = 1) by (unfold rmean; simpl; field).
  assert (M2 : rmean [INR 1; INR 2; INR 0] = 1) by (unfold rmean; simpl; field).
  assert (C1 : cov_of [INR 0; INR 2; INR 1] [INR 1; INR 2; INR 0] = 1 / 2) by (unfold cov_of; rewrite M1, M2; simpl; field).
  assert (C2 : cov_of [INR 0; INR 2; INR 1] [INR 0; INR 2; INR 1] = 1) by (unfold cov_of; rewrite M1; simpl; field).
  assert (C3 : cov_of [INR 1; INR 2; INR 0] [INR 1; INR 2; INR 0] = 1) by (unfold cov_of; rewrite M2; simpl; field).
  unfold corr. rewrite C1, C2, C3, sqrt_1. unfold Rmin, Rmax. destruct (Rle_dec _ _) as [H|H]; destruct (Rle_dec _ _) as [K|K]; lra.
Qed.
Lemma rank3 a b c : a < b -> b < c -> forall l, Permutation l [a; b; c] -> rank_of l a = 1 /\ rank_of l b = 2 /\ rank_of l c = 3.
Proof.
  intros H1 H2 l P. unfold rank_of. repeat rewrite (filter_perm _ _ _ P). unfold Rltb. simpl.
  repeat (destruct (Rlt_dec _ _); try lra). simpl. repeat split; lra.
Qed.
Lemma spearman_back : spearman_entry back_u back_s = -1.
Proof.
  assert (R1 : rankdata back_u = [3; 1; 2]).
  { unfold rankdata, back_u. assert (P : Permutation [3; 1; 2] [1; 2; 3]) by (eapply Permutation_trans; [apply perm_swap|apply perm_skip, perm_swap]).
    destruct (rank3 1 2 3 ltac:(lra) ltac:(lra) _ P) as [A [B C]]. simpl. now rewrite A, B, C. }
  assert (R2 : rankdata back_s = [1; 3; 2]).
  { unfold rankdata, back_s. assert (P : Permutation [-3; -1; -2] [-3; -2; -1]) by (apply perm_skip, perm_swap).
    destruct (rank3 (-3) (-2) (-1) ltac:(lra) ltac:(lra) _ P) as [A [B C]]. simpl. now rewrite A, B, C. }
  unfold spearman_entry. rewrite R1, R2.
  assert (M1 : rmean [3; 1; 2] = 2) by (unfold rmean; simpl; field).
  assert (M2 : rmean [1; 3; 2] = 2) by (unfold rmean; simpl; field).
  assert (C1 : cov_of [3; 1; 2] [1; 3; 2] = -1) by (unfold cov_of; rewrite M1, M2; simpl; field).
  assert (C2 : cov_of [3; 1; 2] [3; 1; 2] = 1) by (unfold cov_of; rewrite M1; simpl; field).
  assert (C3 : cov_of [1; 3; 2] [1; 3; 2] = 1) by (unfold cov_of; rewrite M2; simpl; field).
  unfold corr. rewrite C1, C2, C3, sqrt_1. unfold Rmin, Rmax. destruct (Rle_dec _ _) as [H|H]; destruct (Rle_dec _ _) as [K|K]; lra.
Qed.
(** exactly the opposite order is reported as a positive correlation *)
Lemma backwards argsort enum : sorts argsort -> enumerates enum ->
  exists m, eval_problem enum argsort (map (fun x => - x)) (fun l => l) (mkProblem back_u [0; 1; 2]%nat) = Ok m /\
    ev_spearman m = 1 / 2 /\ spearman_entry back_u (map (fun x => - x) back_u) = -1.
Proof.
  intros HS HE. set (p := mkProblem back_u [0; 1; 2]%nat).
  assert (F : pareto_first p) by (split; [apply Permutation_refl|simpl; lia]).
  destruct (eval_run enum argsort (map (fun x => - x)) (fun l => l) HS HE (fun l => map_length _ l) (fun l => eq_refl) p F ltac:(discriminate)) as [m [E [_ [_ [_ [_ [_ [_ [Sp _]]]]]]]]].
  exists m. split; auto. assert (Eb : map (fun x => - x) back_u = back_s) by (unfold back_s, back_u; simpl; repeat f_equal; lra).
  rewrite Eb. split; [|exact spearman_back]. rewrite Sp. cbn zeta. change (pareto_paths p) with back_u. rewrite Eb.
  rewrite (sorted_unique argsort HS back_u [0; 2; 1]%nat), (sorted_unique argsort HS back_s [1; 2; 0]%nat).
  - exact corr_half.
  - apply nodup3; lra. - exact perm3b. - apply ss3; simpl; lra. - apply nodup3; lra. - exact perm3a. - apply ss3; simpl; lra.
Qed.
