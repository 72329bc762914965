(** Lemmas about the correlation measures of the evaluation. *)
From Coquelicot Require Import Coquelicot.
From Coq Require Import Reals Lra Lia List Permutation Sorted.
From Verif Require Import M_Base M_RBase P_RBase S_Psd P_Psd M_Fake M_OrdProbit M_Select P_Select M_Info P_Info M_Acq S_Acq P_Acq P_Acq2 M_Normal M_PrefProbit M_Eval S_Eval P_Eval.
From Coq Require Import Reals Lra Lia List Permutation Sorted.
Import ListNotations.
Local Open Scope R_scope.

Lemma corr_ext x y x' y' : cov_of x y = cov_of x' y' -> cov_of x x = cov_of x' x' -> cov_of y y = cov_of y' y' -> corr x y = corr x' y'.
Proof. unfold corr. intros -> -> ->. reflexivity. Qed.
Lemma zipw_combine (f : R -> R -> R) x y : zipw f x y = map (fun p => f (fst p) (snd p)) (combine x y).
Proof. revert y. induction x as [|a x IH]; intros [|b y]; simpl; auto. now rewrite IH. Qed.
Lemma rsum_perm l l' : Permutation l l' -> rsum l = rsum l'.
Proof. induction 1; simpl; lra. Qed.
Lemma zipw_cov mx my x y : length x = length y ->
  rsum (zipw (fun a b => (a - mx) * (b - my)) x y) = rsum (zipw Rmult x y) - my * rsum x - mx * rsum y + INR (length x) * (mx * my).
Proof.
  revert y. induction x as [|a x IH]; intros [|b y] L; simpl length in *; try discriminate; [simpl; lra|].
  cbn [zipw rsum]. rewrite IH by lia. rewrite S_INR. ring.
Qed.
Lemma cov_products x y : length x = length y ->
  cov_of x y = (rsum (zipw Rmult x y) - rmean y * rsum x - rmean x * rsum y + INR (length x) * (rmean x * rmean y)) / (INR (length x) - 1).
Proof. intro L. unfold cov_of. now rewrite zipw_cov. Qed.
Lemma rmean_perm x x' : Permutation x x' -> rmean x = rmean x'.
Proof. intro P. unfold rmean. now rewrite (rsum_perm _ _ P), (Permutation_length P). Qed.
Lemma cov_perm x y x' y' : length x = length y -> length x' = length y' -> Permutation x x' -> Permutation y y' ->
  rsum (zipw Rmult x y) = rsum (zipw Rmult x' y') -> cov_of x y = cov_of x' y'.
Proof.
  intros L L' Px Py E. rewrite !cov_products by auto. now rewrite E, (rmean_perm _ _ Px), (rmean_perm _ _ Py), (rsum_perm _ _ Px), (rsum_perm _ _ Py), (Permutation_length Px).
Qed.
Lemma zipw_self_perm x x' : Permutation x x' -> rsum (zipw Rmult x x) = rsum (zipw Rmult x' x').
Proof.
  intro P. assert (E : forall l, zipw Rmult l l = map (fun a => a * a) l) by (induction l; simpl; congruence).
  rewrite !E. apply rsum_perm. now apply Permutation_map.
Qed.
Lemma corr_perm x y x' y' : length x = length y -> length x' = length y' -> Permutation x x' -> Permutation y y' ->
  rsum (zipw Rmult x y) = rsum (zipw Rmult x' y') -> corr x y = corr x' y'.
Proof.
  intros L L' Px Py E. apply corr_ext; apply cov_perm; auto; now apply zipw_self_perm.
Qed.
(** counting down instead of up does not matter *)
Lemma rsum_flip c x : rsum (map (fun t => c - t) x) = INR (length x) * c - rsum x.
Proof. induction x as [|a x IH]; [simpl; lra|]. cbn [map rsum length]. rewrite IH, S_INR. ring. Qed.
Lemma rmean_flip c x : x <> [] -> rmean (map (fun t => c - t) x) = c - rmean x.
Proof.
  intro N. unfold rmean. rewrite rsum_flip, map_length. field. apply not_0_INR. destruct x; [congruence|discriminate].
Qed.
Lemma cov_flip c d x y : x <> [] -> length x = length y -> cov_of (map (fun t => c - t) x) (map (fun t => d - t) y) = cov_of x y.
Proof.
  intros N L. unfold cov_of. rewrite map_length, !rmean_flip by (first [assumption | intro; subst; destruct x; congruence || discriminate]).
  f_equal. generalize (rmean x) (rmean y). intros m1 m2. revert y L. induction x as [|a x IH]; intros [|b y] L; try discriminate; auto.
  cbn [map zipw rsum]. f_equal; [ring|]. destruct x as [|a' x]; [destruct y; [reflexivity|discriminate]|]. apply IH; [discriminate|now inversion L].
Qed.
Lemma corr_flip c d x y : x <> [] -> length x = length y -> corr (map (fun t => c - t) x) (map (fun t => d - t) y) = corr x y.
Proof.
  intros N L. apply corr_ext; apply cov_flip; auto. intro; subst. destruct x; [congruence|discriminate].
Qed.

(** * sorting *)
Lemma ss_unique {A} (P : A -> A -> Prop) : forall l l', (forall x y, In x l -> In y l -> P x y -> P y x -> x = y) ->
  StronglySorted P l -> StronglySorted P l' -> Permutation l l' -> l = l'.
Proof.
  induction l as [|x l IH]; intros l' An S1 S2 Pm; [apply Permutation_nil in Pm; now subst|].
  destruct l' as [|y l']; [apply Permutation_sym, Permutation_nil in Pm; discriminate|].
  inversion S1; subst. inversion S2; subst.
  assert (E : x = y).
  { assert (Iy : In y (x :: l)) by (apply (Permutation_in _ (Permutation_sym Pm)); now left).
    assert (Ix : In x (y :: l')) by (apply (Permutation_in _ Pm); now left).
    destruct Iy as [|Iy]; auto. destruct Ix as [|Ix]; [now symmetry|]. apply An; [now left|now right| |].
    - rewrite Forall_forall in H2. now apply H2.
    - rewrite Forall_forall in H4. now apply H4. }
  subst y. f_equal. apply IH; auto; [intros; apply An; auto; now right|]. now apply Permutation_cons_inv in Pm.
Qed.
Lemma ss_in_impl {A} (P Q : A -> A -> Prop) l : (forall x y, In x l -> In y l -> P x y -> Q x y) -> StronglySorted P l -> StronglySorted Q l.
Proof.
  induction l as [|x l IH]; intros H S0; constructor; inversion S0; subst.
  - apply IH; auto. intros; apply H; auto; now right.
  - rewrite Forall_forall in *. intros y Hy. apply H; [now left|now right|auto].
Qed.
Section sorting.
Context (argsort : list R -> list nat) (HS : sorts argsort).
Lemma sorted_unique v l : NoDup v -> Permutation l (seq 0 (length v)) -> StronglySorted (fun i j => nth j v 0 <= nth i v 0) l -> sorted_idx argsort v = l.
Proof.
  intros N P D. apply (ss_unique (fun i j => nth j v 0 <= nth i v 0)); auto.
  - intros i j Hi Hj H1 H2. apply (sorted_in argsort HS) in Hi. apply (sorted_in argsort HS) in Hj. apply (proj1 (NoDup_nth v 0) N); auto. lra.
  - now apply sorted_desc.
  - eapply Permutation_trans; [now apply sorted_perm|]. now apply Permutation_sym.
Qed.
Lemma sorted_same_order u s : NoDup u -> same_order u s -> sorted_idx argsort s = sorted_idx argsort u.
Proof.
  intros N [L O]. symmetry. apply sorted_unique; auto.
  - rewrite L. now apply sorted_perm.
  - eapply ss_in_impl; [|apply (sorted_desc argsort HS s)]. simpl. intros i j Hi Hj H.
    apply (sorted_in argsort HS) in Hi. apply (sorted_in argsort HS) in Hj. rewrite <- L in *.
    destruct (Rle_dec (nth j u 0) (nth i u 0)); auto. exfalso. assert (K : nth i u 0 < nth j u 0) by lra. apply (proj1 (O _ _ Hi Hj)) in K. lra.
Qed.
Lemma inr_not_constant l n : (2 <= n)%nat -> Permutation l (seq 0 n) -> not_constant (map INR l).
Proof.
  intros H P. exists (INR 0), (INR 1). repeat split.
  - apply in_map. apply (Permutation_in _ (Permutation_sym P)). apply in_seq. lia.
  - apply in_map. apply (Permutation_in _ (Permutation_sym P)). apply in_seq. lia.
  - simpl. lra.
Qed.
Lemma same_order_one u s : NoDup u -> same_order u s -> (2 <= length u)%nat ->
  corr (map INR (sorted_idx argsort u)) (map INR (sorted_idx argsort s)) = 1.
Proof.
  intros N O H. rewrite (sorted_same_order u s N O). apply corr_self. apply (inr_not_constant _ (length u)); auto. now apply sorted_perm.
Qed.

(** * paths listed from the best to the worst *)
Lemma listed_sorted u : (forall i j, (i < j < length u)%nat -> nth j u 0 < nth i u 0) -> NoDup u /\ sorted_idx argsort u = seq 0 (length u).
Proof.
  intro H. assert (N : NoDup u).
  { apply (NoDup_nth u 0). intros i j Hi Hj E. destruct (Nat.lt_trichotomy i j) as [K|[K|K]]; auto.
    - specialize (H i j (conj K Hj)). lra. - specialize (H j i (conj K Hi)). lra. }
  split; auto. apply sorted_unique; auto.
  assert (G : forall n a, (a + n <= length u)%nat -> StronglySorted (fun i j => nth j u 0 <= nth i u 0) (seq a n)).
  { induction n as [|n IH]; simpl; intros a Ha; constructor; [apply IH; lia|]. apply Forall_forall. intros j Hj. apply in_seq in Hj. left. apply H. lia. }
  apply G. lia.
Qed.
(** the position of every index in the sorted order *)
Definition place (v : list R) (i : nat) : nat := above v (nth i v 0).
Lemma place_position v i r : NoDup v -> (i < length v)%nat -> position_from 0 i (sorted_idx argsort v) = Ok r -> r = place v i.
Proof.
  intros N Hi H. assert (K := rank_bounds argsort HS v i r H). rewrite not_below_distinct in K; auto; [unfold place; lia|]. now apply nth_In.
Qed.
Lemma place_sorted v j i : NoDup v -> nth_error (sorted_idx argsort v) j = Some i -> place v i = j.
Proof.
  intros N H. assert (I : In i (sorted_idx argsort v)) by (eapply nth_error_In; eauto). assert (Hi := proj1 (sorted_in argsort HS v i) I).
  destruct (position_total _ 0 i I) as [r Hr]. rewrite <- (place_position v i r N Hi Hr).
  destruct (position_split _ _ _ _ Hr) as [l1 [l2 [E [-> _]]]]. simpl.
  assert (Nd : NoDup (sorted_idx argsort v)) by (eapply Permutation_NoDup; [apply Permutation_sym, (sorted_perm argsort HS)|apply seq_NoDup]).
  rewrite NoDup_nth_error in Nd. symmetry. apply Nd.
  - apply nth_error_Some. congruence.
  - rewrite H, E, nth_error_app2 by lia. now rewrite Nat.sub_diag.
Qed.
Lemma combine_nth_error {A B} (l : list A) (l' : list B) i : nth_error (combine l l') i =
  match nth_error l i, nth_error l' i with Some a, Some b => Some (a, b) | _, _ => None end.
Proof. revert l' i. induction l as [|a l IH]; intros [|b l'] [|i]; simpl; auto. - destruct (nth_error l i); auto. Qed.
Lemma nth_error_seq a n i : (i < n)%nat -> nth_error (seq a n) i = Some (a + i)%nat.
Proof. revert a i. induction n as [|n IH]; intros a [|i] H; simpl; try lia; [f_equal; lia|]. rewrite IH by lia. f_equal. lia. Qed.
Lemma places_perm v : NoDup v -> let n := length v in
  Permutation (combine (seq 0 n) (sorted_idx argsort v)) (map (fun i => (place v i, i)) (seq 0 n)).
Proof.
  intros N n. apply NoDup_Permutation.
  - assert (G : forall l l' : list nat, NoDup l -> NoDup (combine l l')).
    { induction l as [|a l IH]; intros [|b l'] H; simpl; try constructor; inversion H; subst; auto.
      intro K. apply in_combine_l in K. contradiction. }
    apply G, seq_NoDup.
  - apply FinFun.Injective_map_NoDup; [intros a b H; now inversion H|apply seq_NoDup].
  - intros [j i]. split; intro H.
    + apply In_nth_error in H. destruct H as [k Hk]. rewrite combine_nth_error in Hk.
      destruct (nth_error (seq 0 n) k) eqn:E1; [|discriminate]. destruct (nth_error (sorted_idx argsort v) k) eqn:E2; [|discriminate].
      inversion Hk; subst. assert (K : (k < n)%nat) by (rewrite <- (seq_length n 0); apply nth_error_Some; congruence).
      rewrite nth_error_seq in E1 by auto. inversion E1; subst. apply in_map_iff. exists i. rewrite (place_sorted v _ i N E2). split; auto.
      apply in_seq. assert (In i (sorted_idx argsort v)) by (eapply nth_error_In; eauto). apply (sorted_in argsort HS) in H. unfold n. lia.
    + apply in_map_iff in H. destruct H as [i' [E Hi]]. inversion E; subst. apply in_seq in Hi. assert (I : In i (sorted_idx argsort v)) by (apply (sorted_in argsort HS); unfold n in *; lia).
      apply In_nth_error in I. destruct I as [k Hk]. rewrite (place_sorted v k i N Hk). apply (nth_error_In _ k). rewrite combine_nth_error, Hk, nth_error_seq; auto.
      unfold n. rewrite <- (sorted_length argsort HS v). apply nth_error_Some. congruence.
Qed.
Lemma filter_split (x : R) v : (length (filter (fun y => Rltb y x) v) + not_below v x = length v)%nat.
Proof.
  unfold not_below, Rltb. induction v as [|y v IH]; simpl; auto. destruct (Rlt_dec y x), (Rle_dec x y); simpl; try lia; try lra.
Qed.
Lemma filter_equal (x : R) v : NoDup v -> In x v -> length (filter (fun y => negb (Rltb y x) && negb (Rltb x y))%bool v) = 1%nat.
Proof.
  induction v as [|y v IH]; intros N H; [destruct H|]. inversion N; subst. simpl. destruct H as [->|H].
  - unfold Rltb. destruct (Rlt_dec x x); [lra|]. simpl. f_equal. apply filter_none. apply Forall_forall. intros z Hz. 
    destruct (Rlt_dec z x), (Rlt_dec x z); simpl; auto. exfalso. apply H2. replace x with z by lra. auto.
  - assert (y <> x) by congruence. unfold Rltb at 1 2. destruct (Rlt_dec y x), (Rlt_dec x y); simpl; auto. lra.
Qed.
Lemma rank_place v i : NoDup v -> (i < length v)%nat -> rank_of v (nth i v 0) = INR (length v) - INR (place v i).
Proof.
  intros N Hi. assert (I : In (nth i v 0) v) by now apply nth_In. unfold rank_of. rewrite filter_equal by auto.
  assert (E := filter_split (nth i v 0) v). rewrite not_below_distinct in E by auto. fold (place v i) in E.
  rewrite <- E at 1. rewrite plus_INR, !S_INR. change (INR 0) with 0. lra.
Qed.
Lemma rankdata_places v : NoDup v -> rankdata v = map (fun t => INR (length v) - t) (map INR (map (place v) (seq 0 (length v)))).
Proof.
  intro N. unfold rankdata. rewrite !map_map. apply (nth_ext _ _ 0 0); [now rewrite !map_length, seq_length|].
  intros i Hi. rewrite map_length in Hi. rewrite (nth_indep _ 0 (rank_of v 0)) by (rewrite map_length; auto). rewrite map_nth.
  rewrite (nth_indep (map _ (seq 0 (length v))) 0 ((fun x => INR (length v) - INR (place v x)) 0%nat)) by (rewrite map_length, seq_length; auto).
  rewrite (map_nth (fun x => INR (length v) - INR (place v x))). rewrite seq_nth by auto. simpl plus. now apply rank_place.
Qed.
Lemma map_fst_places v : NoDup v -> Permutation (map (place v) (seq 0 (length v))) (seq 0 (length v)).
Proof.
  intro N. assert (P := Permutation_map fst (places_perm v N)). simpl in P. rewrite map_map in P. simpl in P.
  apply Permutation_sym. eapply Permutation_trans; [|exact P].
  assert (G : forall (l l' : list nat), length l = length l' -> map fst (combine l l') = l) by (induction l as [|a l IH]; intros [|b l'] H; simpl in *; try discriminate; auto; now rewrite IH by lia).
  rewrite G; auto. now rewrite seq_length, (sorted_length argsort HS).
Qed.
Lemma listed_spearman u s : length u = length s -> u <> [] -> (forall i j, (i < j < length u)%nat -> nth j u 0 < nth i u 0) -> NoDup s ->
  corr (map INR (sorted_idx argsort u)) (map INR (sorted_idx argsort s)) = spearman_entry u s.
Proof.
  intros L Ne H N. destruct (listed_sorted u H) as [Nu Eu]. rewrite Eu. unfold spearman_entry. rewrite !rankdata_places by auto.
  assert (Pu : map (place u) (seq 0 (length u)) = seq 0 (length u)).
  { rewrite <- (map_id (seq 0 (length u))) at 2. apply map_ext_in. intros i Hi. apply in_seq in Hi. apply place_sorted; auto.
    rewrite Eu. rewrite nth_error_seq by lia. reflexivity. }
  rewrite Pu. rewrite corr_flip.
  - rewrite L. apply corr_perm.
    + rewrite !map_length, seq_length. symmetry. apply (sorted_length argsort HS).
    + now rewrite !map_length, !seq_length.
    + apply Permutation_refl.
    + apply Permutation_map. eapply Permutation_trans; [apply (sorted_perm argsort HS)|]. apply Permutation_sym, map_fst_places; auto.
    + rewrite !zipw_combine.
      assert (G : forall l l' : list nat, map (fun p => fst p * snd p) (combine (map INR l) (map INR l')) = map (fun p : nat * nat => INR (fst p) * INR (snd p)) (combine l l')).
      { induction l as [|a l IH]; intros [|b l']; simpl; auto. now rewrite IH. }
      rewrite !G. rewrite (rsum_perm _ _ (Permutation_map _ (places_perm s N))). f_equal. rewrite map_map. simpl.
      assert (G2 : forall l f, map (fun p : nat * nat => INR (fst p) * INR (snd p)) (combine l (map f l)) = map (fun i => INR (f i) * INR i) l).
      { induction l as [|a l IH]; intro f; simpl; auto. rewrite IH. f_equal. ring. }
      now rewrite G2.
  - destruct u; [congruence|discriminate].
  - now rewrite !map_length, !seq_length.
Qed.
End sorting.
Section measured.
Context {A : Type} (enum : list nat -> list nat) (argsort : list R -> list nat) (model utility : list A -> list R).
Hypothesis HS : sorts argsort.
Hypothesis HE : enumerates enum.
Hypothesis HM : values_each model.
Hypothesis HU : values_each utility.
Lemma paths_nonempty (p : problem A) : pareto_first p -> pr_pareto p <> [] -> (0 < length (pareto_paths p))%nat.
Proof. intros F N. destruct (paths_mapM p (first_paths p F)) as [_ ->]. destruct (pr_pareto p); [congruence|simpl; lia]. Qed.
Lemma measured_range p m : pareto_first p -> pr_pareto p <> [] -> eval_problem enum argsort model utility p = Ok m ->
  -1 <= ev_spearman m <= 1 /\ -1 <= ev_pearson m <= 1 /\ ev_rho m <= 0.
Proof.
  intros F N H. destruct (eval_facts enum argsort model utility HS HE HM HU p m F N H) as [_ [_ [_ [_ [_ [_ [-> [-> ->]]]]]]]].
  split; [apply corr_range|split; [apply corr_range|]]. assert (K := sqrt_pos (rsum (zipw (fun x y => (x - y) * (x - y)) (softmax (utility (pareto_paths p))) (softmax (model (pareto_paths p)))))).
  unfold dist2. lra.
Qed.
Lemma measured_pearson p m : pareto_first p -> pr_pareto p <> [] -> eval_problem enum argsort model utility p = Ok m ->
  let u := utility (pareto_paths p) in let s := model (pareto_paths p) in
  not_constant u -> not_constant s -> ev_pearson m = pearson u s.
Proof.
  intros F N H u s Nu Ns. destruct (eval_facts enum argsort model utility HS HE HM HU p m F N H) as [_ [_ [_ [_ [_ [_ [_ [-> _]]]]]]]].
  apply corr_pearson; auto. unfold u, s. now rewrite HU, HM.
Qed.
Lemma measured_rho p m : pareto_first p -> pr_pareto p <> [] -> eval_problem enum argsort model utility p = Ok m ->
  (ev_rho m = 0 <-> exists c, model (pareto_paths p) = map (fun x => x + c) (utility (pareto_paths p))).
Proof.
  intros F N H. destruct (eval_facts enum argsort model utility HS HE HM HU p m F N H) as [_ [_ [_ [_ [_ [_ [_ [_ ->]]]]]]]].
  assert (P := paths_nonempty p F N). set (u := utility (pareto_paths p)). set (s := model (pareto_paths p)).
  assert (Lu : length u = length (pareto_paths p)) by apply HU. assert (Ls : length s = length (pareto_paths p)) by apply HM.
  assert (Nu : u <> []) by (intro K; rewrite K in Lu; simpl in Lu; lia).
  assert (D := dist2_zero (softmax u) (softmax s) ltac:(rewrite !softmax_length; lia)). split.
  - intro K. apply softmax_inj; auto. apply D. lra.
  - intros [c K]. assert (dist2 (softmax u) (softmax s) = 0); [|lra]. apply D. rewrite K. symmetry. apply softmax_shift.
Qed.
Lemma measured_same p m : pareto_first p -> eval_problem enum argsort model utility p = Ok m ->
  let u := utility (pareto_paths p) in let s := model (pareto_paths p) in
  (2 <= length (pr_pareto p))%nat -> NoDup u -> same_order u s -> ev_spearman m = 1.
Proof.
  intros F H u s L N O. assert (Ne : pr_pareto p <> []) by (destruct (pr_pareto p); [simpl in L; lia|discriminate]).
  destruct (eval_facts enum argsort model utility HS HE HM HU p m F Ne H) as [_ [_ [_ [_ [_ [_ [-> _]]]]]]].
  apply same_order_one; auto. unfold u. rewrite HU. destruct (paths_mapM p (first_paths p F)) as [_ ->]. auto.
Qed.
Lemma measured_listed p m : pareto_first p -> pr_pareto p <> [] -> eval_problem enum argsort model utility p = Ok m ->
  let u := utility (pareto_paths p) in let s := model (pareto_paths p) in
  (forall i j, (i < j < length u)%nat -> nth j u 0 < nth i u 0) -> NoDup s ->
  ev_spearman m = corr (rankdata u) (rankdata s).
Proof.
  intros F N H u s L Ns. destruct (eval_facts enum argsort model utility HS HE HM HU p m F N H) as [_ [_ [_ [_ [_ [_ [-> _]]]]]]].
  apply (listed_spearman argsort HS u s); auto.
  - unfold u, s. now rewrite HU, HM.
  - intro K. assert (P := paths_nonempty p F N). rewrite <- (HU (pareto_paths p)) in P. fold u in P. rewrite K in P. simpl in P. lia.
Qed.
End measured.
