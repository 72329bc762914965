(** Lemmas about the evaluation of path problems. *)
From Coq Require Import Reals Lra Lia List Permutation Sorted.
From Verif Require Import M_Base M_RBase P_RBase M_Fake M_OrdProbit M_Select P_Select M_Info M_Acq M_Eval S_Eval P_Acq5.
From Coq Require Import Reals Lra Lia List Permutation Sorted.
Import ListNotations.
Local Open Scope R_scope.

Lemma R_order_ok : order_ok Rltb.
Proof. split; intros a b; [intros c H1 H2|intro H]; unfold Rltb in *; repeat (destruct (Rlt_dec _ _)); try discriminate; auto; lra. Qed.
Lemma Rltb_false' x y : Rltb x y = false -> y <= x.
Proof. unfold Rltb. destruct (Rlt_dec x y); [discriminate|lra]. Qed.
Lemma nodup_fixed (l : list nat) : NoDup l -> set_of l = l.
Proof. intro H. unfold set_of. now apply nodup_fixed_point. Qed.
Lemma paths_mapM {A} (p : problem A) : Forall (fun i => (i < length (pr_rewards p))%nat) (pr_pareto p) ->
  mapM (getitem (pr_rewards p)) (pr_pareto p) = Ok (pareto_paths p) /\ length (pareto_paths p) = length (pr_pareto p).
Proof.
  destruct p as [X idx]. unfold pareto_paths. cbn [pr_rewards pr_pareto]. induction 1 as [|i l Hi H [IH1 IH2]]; simpl; auto.
  unfold getitem at 1. destruct (nth_error X i) as [x|] eqn:E; [|apply nth_error_None in E; lia]. cbn [bind]. rewrite IH1.
  simpl. split; [reflexivity|simpl; now rewrite IH2].
Qed.
Lemma first_bounds {A} (p : problem A) : pareto_first p -> Forall (fun i => (i < length (pr_pareto p))%nat) (pr_pareto p).
Proof. intros [H _]. apply Forall_forall. intros i Hi. apply (Permutation_in _ H) in Hi. apply in_seq in Hi. lia. Qed.
Lemma first_paths {A} (p : problem A) : pareto_first p -> Forall (fun i => (i < length (pr_rewards p))%nat) (pr_pareto p).
Proof. intros H. assert (B := first_bounds p H). destruct H as [_ H]. eapply Forall_impl; [|exact B]. simpl. intros. lia. Qed.
Lemma first_nodup {A} (p : problem A) : pareto_first p -> NoDup (pr_pareto p).
Proof. intros [H _]. eapply Permutation_NoDup; [apply Permutation_sym; exact H|apply seq_NoDup]. Qed.
Lemma bounded_perm (l : list nat) : NoDup l -> Forall (fun i => (i < length l)%nat) l -> Permutation l (seq 0 (length l)).
Proof.
  intros H B. apply NoDup_Permutation_bis; auto. - now rewrite seq_length. - intros i Hi.
  apply in_seq. rewrite Forall_forall in B. specialize (B i Hi). lia.
Qed.

(** * the sorted positions *)
Lemma ss_rev {A} (P : A -> A -> Prop) l : StronglySorted P l -> StronglySorted (fun a b => P b a) (rev l).
Proof.
  induction 1 as [|x l S IH F]; simpl; [constructor|].
  assert (G : forall l', StronglySorted (fun a b => P b a) l' -> Forall (fun y => P x y) l' -> StronglySorted (fun a b => P b a) (l' ++ [x])).
  { induction 1 as [|y l' S' IH' F']; intro Q; simpl; [constructor; auto; constructor|]. inversion Q; subst. constructor; auto.
    apply Forall_app. split; auto. }
  apply G; auto. apply Forall_rev. auto.
Qed.
Lemma ss_split {A} (P : A -> A -> Prop) l1 x l2 : StronglySorted P (l1 ++ x :: l2) -> Forall (fun y => P y x) l1 /\ Forall (P x) l2.
Proof.
  induction l1 as [|y l1 IH]; simpl; intro H; inversion H; subst; auto. destruct (IH H2) as [IA IB]. split; auto. constructor; auto.
  apply Forall_app in H3. destruct H3 as [_ H3]. now inversion H3.
Qed.
Section sorting.
Context (argsort : list R -> list nat) (HS : sorts argsort).
Lemma sorted_perm v : Permutation (sorted_idx argsort v) (seq 0 (length v)).
Proof. unfold sorted_idx. eapply Permutation_trans; [apply Permutation_sym, Permutation_rev|]. apply HS. Qed.
Lemma sorted_desc v : StronglySorted (fun i j => nth j v 0 <= nth i v 0) (sorted_idx argsort v).
Proof. unfold sorted_idx. apply ss_rev. apply HS. Qed.
Lemma sorted_length v : length (sorted_idx argsort v) = length v.
Proof. rewrite (Permutation_length (sorted_perm v)). apply seq_length. Qed.
Lemma sorted_in v i : In i (sorted_idx argsort v) <-> (i < length v)%nat.
Proof.
  split; intro H.
  - apply (Permutation_in _ (sorted_perm v)) in H. apply in_seq in H. lia.
  - apply (Permutation_in _ (Permutation_sym (sorted_perm v))). apply in_seq. lia.
Qed.
Lemma filter_perm {A} (f : A -> bool) l l' : Permutation l l' -> length (filter f l) = length (filter f l').
Proof. induction 1; simpl; try destruct (f x); try destruct (f y); simpl; auto; congruence. Qed.
Lemma filter_seq (f : R -> bool) v : length (filter f v) = length (filter (fun i => f (nth i v 0)) (seq 0 (length v))).
Proof.
  induction v as [|x v IH]; simpl; auto. rewrite <- seq_shift.
  assert (E : forall l, length (filter (fun i => f (nth i (x :: v) 0)) (map S l)) = length (filter (fun i => f (nth i v 0)) l)).
  { induction l as [|i l IHl]; simpl; auto. destruct (f (nth i v 0)); simpl; auto. }
  destruct (f x); simpl; rewrite E; congruence.
Qed.
Lemma filter_sorted (f : R -> bool) v : length (filter f v) = length (filter (fun i => f (nth i v 0)) (sorted_idx argsort v)).
Proof. rewrite filter_seq. apply filter_perm. apply Permutation_sym, sorted_perm. Qed.
Lemma position_split : forall l i x n, position_from i x l = Ok n -> exists l1 l2, l = l1 ++ x :: l2 /\ n = (i + length l1)%nat /\ ~ In x l1.
Proof.
  induction l as [|y l IH]; simpl; intros i x n H; [discriminate|]. destruct (Nat.eqb y x) eqn:E.
  - inversion H; subst. apply Nat.eqb_eq in E. subst. exists [], l. simpl. repeat split; auto; lia.
  - destruct (IH _ _ _ H) as [l1 [l2 [-> [-> N]]]]. exists (y :: l1), l2. simpl. repeat split; auto; [lia|].
    intros [K|K]; auto. apply Nat.eqb_neq in E. congruence.
Qed.
Lemma position_total : forall l i x, In x l -> exists n, position_from i x l = Ok n.
Proof. induction l as [|y l IH]; simpl; intros i x H; [tauto|]. destruct (Nat.eqb y x) eqn:E; eauto. apply Nat.eqb_neq in E. destruct H; [congruence|]. auto. Qed.
Lemma filter_none {A} (f : A -> bool) l : Forall (fun x => f x = false) l -> length (filter f l) = 0%nat.
Proof. induction 1; simpl; auto. now rewrite H. Qed.
Lemma filter_all {A} (f : A -> bool) l : Forall (fun x => f x = true) l -> length (filter f l) = length l.
Proof. induction 1; simpl; auto. rewrite H. simpl. congruence. Qed.
Lemma filter_le {A} (f : A -> bool) l : (length (filter f l) <= length l)%nat.
Proof. induction l; simpl; auto. destruct (f a); simpl; lia. Qed.
Lemma rank_bounds v b r : position_from 0 b (sorted_idx argsort v) = Ok r ->
  (above v (nth b v 0%R) <= r < not_below v (nth b v 0%R))%nat.
Proof.
  intro H. destruct (position_split _ _ _ _ H) as [l1 [l2 [E [-> _]]]]. simpl.
  assert (D := sorted_desc v). rewrite E in D. destruct (ss_split _ _ _ _ D) as [D1 D2].
  unfold above, not_below. rewrite !filter_sorted, E, !filter_app, !app_length. simpl.
  set (x := nth b v 0) in *. destruct (Rlt_dec x x) as [K|_]; [lra|]. destruct (Rle_dec x x) as [_|K]; [|lra]. split.
  - rewrite (filter_none _ l2).
    + rewrite Nat.add_0_r. apply filter_le.
    + eapply Forall_impl; [|exact D2]. simpl. intros j Hj. destruct (Rlt_dec x (nth j v 0)); auto; lra.
  - rewrite (filter_all _ l1).
    + simpl. lia.
    + eapply Forall_impl; [|exact D1]. simpl. intros j Hj. destruct (Rle_dec x (nth j v 0)); auto; lra.
Qed.
Lemma top_largest v i : getitem (sorted_idx argsort v) 0 = Ok i -> largest v (nth i v 0).
Proof.
  unfold getitem. simpl. destruct (sorted_idx argsort v) as [|y l] eqn:E; [discriminate|]. intro K. inversion K; subst i.
  assert (D := sorted_desc v). rewrite E in D. destruct (ss_split _ [] y l D) as [_ D2].
  assert (L := proj1 (sorted_in v y)). rewrite E in L. specialize (L (or_introl eq_refl)). split; [now apply nth_In|].
  intros z Hz. destruct (In_nth _ _ 0 Hz) as [j [Hj <-]]. assert (J := proj2 (sorted_in v j) Hj). rewrite E in J. destruct J as [<-|J]; [lra|].
  rewrite Forall_forall in D2. now apply D2.
Qed.
End sorting.
Lemma above_largest u x : largest u x -> above u x = 0%nat.
Proof. intros [_ H]. unfold above. apply filter_none. apply Forall_forall. intros y Hy. destruct (Rlt_dec x y); auto. specialize (H y Hy). lra. Qed.
Lemma above_zero u x : In x u -> above u x = 0%nat -> largest u x.
Proof.
  intros Hx H. split; auto. intros y Hy. destruct (Rle_dec y x) as [|N]; auto. exfalso. unfold above in H.
  assert (K : In y (filter (fun y => if Rlt_dec x y then true else false) u)).
  { apply filter_In. split; auto. destruct (Rlt_dec x y); auto. lra. }
  destruct (filter _ u); [destruct K|discriminate].
Qed.
Lemma largest_unique u x y : largest u x -> largest u y -> x = y.
Proof. intros [A B] [C D]. apply Rle_antisym; auto. Qed.
Lemma not_below_distinct u x : NoDup u -> In x u -> not_below u x = S (above u x).
Proof.
  unfold not_below, above. induction u as [|y u IH]; intros N H; [destruct H|]. inversion N; subst. simpl. destruct H as [->|H].
  - destruct (Rle_dec x x); [|lra]. destruct (Rlt_dec x x); [lra|]. simpl. f_equal.
    assert (G : forall l, ~ In x l -> length (filter (fun y => if Rle_dec x y then true else false) l) = length (filter (fun y => if Rlt_dec x y then true else false) l)).
    { induction l as [|z l IHl]; simpl; auto. intro K. destruct (Rle_dec x z), (Rlt_dec x z); simpl; rewrite ?IHl; auto; try lra; exfalso; apply K; left; lra. }
    now apply G.
  - assert (y <> x) by congruence. destruct (Rle_dec x y), (Rlt_dec x y); simpl; rewrite IH; auto; lra.
Qed.

(** * the loop body *)
Section body.
Context {A : Type} (enum : list nat -> list nat) (argsort : list R -> list nat) (model utility : list A -> list R).
Hypothesis HS : sorts argsort.
Hypothesis HE : enumerates enum.
Hypothesis HM : values_each model.
Hypothesis HU : values_each utility.
Lemma getitem_nth0 (l : list R) i x : getitem l i = Ok x -> (i < length l)%nat /\ x = nth i l 0.
Proof. intro H. apply getitem_ok in H. split; [apply nth_error_Some; congruence|]. symmetry. now apply nth_error_nth. Qed.
Lemma getitem_lt (l : list R) i : (i < length l)%nat -> getitem l i = Ok (nth i l 0).
Proof. intro H. apply getitem_ok. now apply nth_error_nth'. Qed.
Lemma mapM_raise {X Y} (f : X -> result Y) e l : (forall x, In x l -> (exists y, f x = Ok y) \/ f x = Raise e) -> (exists x, In x l /\ f x = Raise e) -> mapM f l = Raise e.
Proof.
  induction l as [|x l IH]; intros H [z [Hz Ez]]; [destruct Hz|]. simpl. destruct (H x (or_introl eq_refl)) as [[y E]|E]; rewrite E; auto.
  cbn [bind]. rewrite IH; auto. - intros; apply H; now right. - destruct Hz as [->|Hz]; [congruence|eauto].
Qed.
Lemma perm_enum p b : In b (enum p) <-> In b p.
Proof. split; apply Permutation_in; [|apply Permutation_sym]; apply HE. Qed.
Lemma choose_some s l : l <> [] -> choose_best enum s l = pick_extreme Rltb (getitem s) (enum l).
Proof. destruct l; [congruence|reflexivity]. Qed.
Lemma eval_run p : pareto_first p -> pr_pareto p <> [] ->
  exists m, eval_problem enum argsort model utility p = Ok m /\
    let u := utility (pareto_paths p) in let s := model (pareto_paths p) in
    (ev_best m < length (pareto_paths p))%nat /\
    ev_estimated m = nth (ev_best m) s 0 /\ largest s (ev_estimated m) /\ ev_real m = nth (ev_best m) u 0 /\
    (exists top, largest u top /\ ev_diff m = top - ev_real m) /\
    position_from 0 (ev_best m) (sorted_idx argsort u) = Ok (ev_rank m) /\
    ev_spearman m = corr (map INR (sorted_idx argsort u)) (map INR (sorted_idx argsort s)) /\ ev_pearson m = corr u s /\
    ev_rho m = - dist2 (softmax u) (softmax s).
Proof.
  intros F N. destruct (paths_mapM p (first_paths p F)) as [E L]. unfold eval_problem. rewrite E. cbn [bind].
  set (X := pareto_paths p) in *. set (s := model X). set (u := utility X).
  assert (Ls : length s = length X) by apply HM. assert (Lu : length u = length X) by apply HU.
  rewrite (nodup_fixed _ (first_nodup p F)). rewrite (choose_some s _ N).
  assert (B := first_bounds p F). rewrite Forall_forall in B.
  destruct (pick_extreme_total Rltb (getitem s) (enum (pr_pareto p)) R_order_ok) as [b [Hb Ib]].
  { intro K. assert (P := HE (pr_pareto p)). rewrite K in P. apply Permutation_nil in P. contradiction. }
  { intros j Hj. apply (proj1 (perm_enum _ _)) in Hj. apply getitem_total. rewrite Ls, L. now apply B. }
  destruct (pick_extreme_spec _ _ _ _ R_order_ok Hb) as [_ [v [Hv Hmax]]].
  rewrite Hb. cbn [bind]. apply (proj1 (perm_enum _ _)) in Ib. assert (Lb := B b Ib). rewrite <- L in Lb.
  assert (Lpos : (0 < length (sorted_idx argsort u))%nat) by (rewrite (sorted_length _ HS), Lu; lia).
  destruct (getitem_total (sorted_idx argsort u) 0 Lpos) as [t Ht]. rewrite Ht. cbn [bind].
  assert (Iu : In b (sorted_idx argsort u)) by (apply (sorted_in _ HS); lia).
  destruct (position_total _ 0 b Iu) as [r Hr]. rewrite Hr. cbn [bind].
  assert (It : (t < length u)%nat). { apply (sorted_in _ HS). apply getitem_ok in Ht. eapply nth_error_In; eauto. }
  rewrite (getitem_lt s b) by lia. rewrite (getitem_lt u b) by lia. rewrite (getitem_lt u t) by lia. cbn [bind].
  eexists. split; [reflexivity|]. cbn [ev_best ev_rank ev_estimated ev_real ev_diff ev_spearman ev_pearson ev_rho].
  repeat split; auto.
  - apply nth_In. lia.
  - intros y Hy. destruct (In_nth _ _ 0 Hy) as [j [Hj <-]]. destruct (getitem_nth0 _ _ _ Hv) as [_ ->].
    assert (In j (enum (pr_pareto p))).
    { apply perm_enum. apply (Permutation_in _ (Permutation_sym (proj1 F))). apply in_seq. lia. }
    specialize (Hmax j (nth j s 0) H (getitem_lt s j Hj)). now apply Rltb_false'.
  - exists (nth t u 0). split; auto. now apply (top_largest argsort HS).
Qed.
Lemma eval_raises p : proper_pareto p -> ~ pareto_first p -> eval_problem enum argsort model utility p = Raise IndexError.
Proof.
  intros [N [F Ne]] NF. destruct (paths_mapM p F) as [E L]. unfold eval_problem. rewrite E. cbn [bind].
  set (X := pareto_paths p) in *. set (s := model X).
  assert (Ls : length s = length X) by apply HM. rewrite (nodup_fixed _ N). rewrite (choose_some s _ Ne).
  unfold pick_extreme. rewrite (mapM_raise (getitem s) IndexError (enum (pr_pareto p))); auto.
  - intros x _. unfold getitem. destruct (nth_error s x); eauto.
  - destruct (Forall_Exists_dec (fun i => (i < length (pr_pareto p))%nat) (fun i => lt_dec i (length (pr_pareto p))) (pr_pareto p)) as [Y|Y].
    + exfalso. apply NF. split; [now apply bounded_perm|].
      rewrite <- (seq_length (length (pr_rewards p)) 0). apply NoDup_incl_length; auto. intros i Hi. apply in_seq. rewrite Forall_forall in F.
      specialize (F i Hi). lia.
    + apply Exists_exists in Y. destruct Y as [i [Hi Ki]]. exists i. split; [now apply perm_enum|].
      unfold getitem. destruct (nth_error s i) eqn:En; auto. assert (nth_error s i <> None) by congruence. apply nth_error_Some in H. lia.
Qed.
Lemma first_dec (p : problem A) : proper_pareto p -> pareto_first p \/ ~ pareto_first p.
Proof.
  intros [N [F Ne]]. destruct (Forall_Exists_dec (fun i => (i < length (pr_pareto p))%nat) (fun i => lt_dec i (length (pr_pareto p))) (pr_pareto p)) as [Y|Y].
  - left. split; [now apply bounded_perm|].
    rewrite <- (seq_length (length (pr_rewards p)) 0). apply NoDup_incl_length; auto. intros i Hi. apply in_seq. rewrite Forall_forall in F.
    specialize (F i Hi). lia.
  - right. intro H. apply first_bounds in H. apply Exists_exists in Y. destruct Y as [i [Hi Ki]]. rewrite Forall_forall in H. apply Ki. now apply H.
Qed.
Lemma eval_ok_iff p : proper_pareto p -> ((exists m, eval_problem enum argsort model utility p = Ok m) <-> pareto_first p).
Proof.
  intro H. split.
  - intros [m Hm]. destruct (first_dec p H) as [Y|Y]; auto. rewrite (eval_raises p H Y) in Hm. discriminate.
  - intro F. destruct (eval_run p F) as [m [Hm _]]; eauto. apply H.
Qed.
Lemma eval_facts p m : pareto_first p -> pr_pareto p <> [] -> eval_problem enum argsort model utility p = Ok m ->
    let u := utility (pareto_paths p) in let s := model (pareto_paths p) in
    (ev_best m < length (pareto_paths p))%nat /\
    ev_estimated m = nth (ev_best m) s 0 /\ largest s (ev_estimated m) /\ ev_real m = nth (ev_best m) u 0 /\
    (exists top, largest u top /\ ev_diff m = top - ev_real m) /\
    position_from 0 (ev_best m) (sorted_idx argsort u) = Ok (ev_rank m) /\
    ev_spearman m = corr (map INR (sorted_idx argsort u)) (map INR (sorted_idx argsort s)) /\ ev_pearson m = corr u s /\
    ev_rho m = - dist2 (softmax u) (softmax s).
Proof. intros F N H. destruct (eval_run p F N) as [m' [H' K]]. rewrite H in H'. inversion H'; subst. exact K. Qed.
Lemma eval_rank p m : pareto_first p -> pr_pareto p <> [] -> eval_problem enum argsort model utility p = Ok m ->
  let u := utility (pareto_paths p) in (above u (ev_real m) <= ev_rank m < not_below u (ev_real m))%nat.
Proof.
  intros F N H. destruct (eval_facts p m F N H) as [_ [_ [_ [E [_ [P _]]]]]]. cbn zeta in *. rewrite E.
  exact (rank_bounds argsort HS _ _ _ P).
Qed.
Lemma eval_diff p m : pareto_first p -> pr_pareto p <> [] -> eval_problem enum argsort model utility p = Ok m ->
  let u := utility (pareto_paths p) in 0 <= ev_diff m /\ (ev_diff m = 0 <-> largest u (ev_real m)).
Proof.
  intros F N H. destruct (eval_facts p m F N H) as [B [_ [_ [E [[t [T D]] _]]]]]. cbn zeta in *.
  assert (I : In (ev_real m) (utility (pareto_paths p))) by (rewrite E; apply nth_In; rewrite HU; lia).
  assert (Le := proj2 T _ I). split; [lra|]. split; intro K.
  - replace (ev_real m) with t by lra. auto.
  - rewrite (largest_unique _ _ _ T K) in D. lra.
Qed.
Lemma eval_rank0 p m : pareto_first p -> pr_pareto p <> [] -> eval_problem enum argsort model utility p = Ok m -> ev_rank m = 0%nat -> ev_diff m = 0.
Proof.
  intros F N H R. assert (K := eval_rank p m F N H). cbn zeta in K. destruct (eval_facts p m F N H) as [B [_ [_ [E _]]]]. cbn zeta in E.
  apply (eval_diff p m F N H). apply above_zero; [rewrite E; apply nth_In; rewrite HU; lia|lia].
Qed.
Lemma eval_distinct p m : pareto_first p -> pr_pareto p <> [] -> eval_problem enum argsort model utility p = Ok m ->
  NoDup (utility (pareto_paths p)) -> ev_rank m = above (utility (pareto_paths p)) (ev_real m) /\ (ev_rank m = 0%nat <-> ev_diff m = 0).
Proof.
  intros F N H D. assert (K := eval_rank p m F N H). cbn zeta in K. destruct (eval_facts p m F N H) as [B [_ [_ [E _]]]]. cbn zeta in E.
  assert (I : In (ev_real m) (utility (pareto_paths p))) by (rewrite E; apply nth_In; rewrite HU; lia).
  rewrite (not_below_distinct _ _ D I) in K. assert (R : ev_rank m = above (utility (pareto_paths p)) (ev_real m)) by lia. split; auto. split.
  - now apply (eval_rank0 p m).
  - intro Z. apply (eval_diff p m F N H) in Z. rewrite R. now apply above_largest.
Qed.
Lemma eval_true_order p m : pareto_first p -> pr_pareto p <> [] -> eval_problem enum argsort model utility p = Ok m ->
  same_order (utility (pareto_paths p)) (model (pareto_paths p)) -> ev_diff m = 0.
Proof.
  intros F N H [Ll O]. destruct (eval_facts p m F N H) as [B [Es [M [E _]]]]. cbn zeta in *.
  apply (eval_diff p m F N H). split; [rewrite E; apply nth_In; rewrite HU; lia|]. intros y Hy.
  destruct (In_nth _ _ 0 Hy) as [j [Hj <-]]. rewrite E. destruct (Rle_dec (nth j (utility (pareto_paths p)) 0) (nth (ev_best m) (utility (pareto_paths p)) 0)) as [|K]; auto.
  exfalso. assert (K' : nth (ev_best m) (utility (pareto_paths p)) 0 < nth j (utility (pareto_paths p)) 0) by lra.
  assert (Bu : (ev_best m < length (utility (pareto_paths p)))%nat) by (rewrite HU; lia).
  apply (proj1 (O _ _ Bu Hj)) in K'.
  assert (Q := proj2 M (nth j (model (pareto_paths p)) 0)). rewrite Es in Q. assert (In (nth j (model (pareto_paths p)) 0) (model (pareto_paths p))) by (apply nth_In; lia).
  specialize (Q H0). lra.
Qed.

(** * the whole evaluation *)
Lemma mapM_forall {X Y} (f : X -> result Y) l ys : mapM f l = Ok ys -> Forall2 (fun x y => f x = Ok y) l ys.
Proof.
  revert ys. induction l as [|x l IH]; simpl; intros ys H; [inversion H; constructor|].
  destruct (f x) as [y|e] eqn:E; [|discriminate]. cbn [bind] in H. destruct (mapM f l) as [ys'|e]; [|discriminate]. inversion H; subst. constructor; auto.
Qed.
Lemma fold_ranks ms : forall a, fold_left (fun a m => (a + ev_rank m)%nat) ms a = (a + list_sum (map ev_rank ms))%nat.
Proof. induction ms as [|m ms IH]; simpl; intro a; [lia|]. rewrite IH. lia. Qed.
Lemma f2_length {X Y} (P : X -> Y -> Prop) l l' : Forall2 P l l' -> length l = length l'.
Proof. induction 1; simpl; auto. Qed.
Lemma evaluation_inv ps acc avg ms : evaluation enum argsort model utility ps = Ok (acc, avg, ms) ->
  ps <> [] /\ Forall2 (fun p m => eval_problem enum argsort model utility p = Ok m) ps ms /\
  acc = INR (length (filter (fun m => Nat.eqb (ev_rank m) 0) ms)) / INR (length ps) /\ avg = INR (list_sum (map ev_rank ms)) / INR (length ps).
Proof.
  unfold evaluation. destruct (mapM _ ps) as [ms'|e] eqn:E; [|discriminate]. cbn [bind]. intro H.
  destruct ps as [|p ps]; [discriminate|]. inversion H; subst. rewrite fold_ranks. simpl plus. repeat split; auto; [discriminate|]. now apply mapM_forall.
Qed.
Lemma evaluation_shares ps acc avg ms : evaluation enum argsort model utility ps = Ok (acc, avg, ms) ->
  ps <> [] /\ Forall2 (fun p m => eval_problem enum argsort model utility p = Ok m) ps ms /\
  INR (length ps) * acc = INR (length (filter (fun m => Nat.eqb (ev_rank m) 0) ms)) /\ INR (length ps) * avg = INR (list_sum (map ev_rank ms)).
Proof.
  intro H. destruct (evaluation_inv ps acc avg ms H) as [N [F [-> ->]]].
  assert (P : INR (length ps) <> 0) by (apply not_0_INR; destruct ps; [congruence|discriminate]). repeat split; auto; field; auto.
Qed.
Lemma evaluation_runs ps : ps <> [] -> (forall p, In p ps -> pareto_first p /\ pr_pareto p <> []) ->
  exists acc avg ms, evaluation enum argsort model utility ps = Ok (acc, avg, ms).
Proof.
  intros N H. destruct (mapM_total (eval_problem enum argsort model utility) ps) as [ms E].
  - intros p Hp. destruct (H p Hp) as [F Np]. destruct (eval_run p F Np) as [m [Hm _]]. eauto.
  - unfold evaluation. rewrite E. cbn [bind]. destruct ps; [congruence|]. eauto.
Qed.
Lemma filter_full {X} (f : X -> bool) l : length (filter f l) = length l -> Forall (fun x => f x = true) l.
Proof.
  induction l as [|x l IH]; simpl; intro H; constructor; destruct (f x) eqn:E; auto; simpl in H.
  - assert (K := filter_le f l). lia.
  - assert (K := filter_le f l). lia.
Qed.
Lemma evaluation_accuracy ps acc avg ms : (forall p, In p ps -> pareto_first p /\ pr_pareto p <> []) ->
  evaluation enum argsort model utility ps = Ok (acc, avg, ms) ->
  0 <= acc <= 1 /\ 0 <= avg /\ (acc = 1 <-> avg = 0) /\ (acc = 1 <-> Forall (fun m => ev_rank m = 0%nat) ms) /\
  (acc = 1 -> Forall (fun m => ev_diff m = 0) ms).
Proof.
  intros HP H. destruct (evaluation_inv ps acc avg ms H) as [N [F [-> ->]]]. assert (L := f2_length _ _ _ F).
  assert (P : 0 < INR (length ps)) by (apply lt_0_INR; destruct ps; [congruence|simpl; lia]).
  assert (Le := filter_le (fun m => Nat.eqb (ev_rank m) 0) ms). rewrite <- L in Le.
  assert (A1 : INR (length (filter (fun m => Nat.eqb (ev_rank m) 0) ms)) / INR (length ps) = 1 <-> Forall (fun m => ev_rank m = 0%nat) ms).
  { split; intro K.
    - assert (E : INR (length (filter (fun m => Nat.eqb (ev_rank m) 0) ms)) = INR (length ps)) by (apply (Rmult_eq_reg_r (/ INR (length ps))); [rewrite Rinv_r by lra; exact K|apply Rinv_neq_0_compat; lra]).
      apply INR_eq in E. rewrite L in E. apply filter_full in E. eapply Forall_impl; [|exact E]. simpl. intros m Hm. now apply Nat.eqb_eq.
    - rewrite filter_all.
      + rewrite <- L. field. lra.
      + eapply Forall_impl; [|exact K]. simpl. intros m ->. reflexivity. }
  assert (A2 : INR (list_sum (map ev_rank ms)) / INR (length ps) = 0 <-> Forall (fun m => ev_rank m = 0%nat) ms).
  { split; intro K.
    - assert (E : INR (list_sum (map ev_rank ms)) = INR 0) by (apply (Rmult_eq_reg_r (/ INR (length ps))); [rewrite Rmult_0_l; exact K|apply Rinv_neq_0_compat; lra]).
      apply INR_eq in E. clear - E. induction ms as [|m ms IH]; constructor; simpl in E; [lia|apply IH; lia].
    - replace (list_sum (map ev_rank ms)) with 0%nat; [simpl; lra|]. clear - K. induction K as [|m ms Hm K IH]; simpl; auto. lia. }
  split; [split|split; [|split; [|split]]]; auto.
  - apply Rmult_le_pos; [apply pos_INR|left; now apply Rinv_0_lt_compat].
  - apply (Rmult_le_reg_r (INR (length ps))); auto. unfold Rdiv. rewrite Rmult_assoc, Rinv_l, Rmult_1_r, Rmult_1_l by lra. now apply le_INR.
  - apply Rmult_le_pos; [apply pos_INR|left; now apply Rinv_0_lt_compat].
  - tauto.
  - intro K. apply A1 in K. clear - K F HP HS HE HM HU. induction F as [|p m ps ms Hm F IH]; constructor; inversion K; subst.
    + destruct (HP p (or_introl eq_refl)) as [Fp Np]. now apply (eval_rank0 p m).
    + apply IH; auto. intros; apply HP; now right.
Qed.
Lemma evaluation_perfect ps : ps <> [] -> (forall p, In p ps -> pareto_first p /\ pr_pareto p <> [] /\
    NoDup (utility (pareto_paths p)) /\ same_order (utility (pareto_paths p)) (model (pareto_paths p))) ->
  exists ms, evaluation enum argsort model utility ps = Ok (1, 0, ms).
Proof.
  intros N H. assert (H1 : forall p, In p ps -> pareto_first p /\ pr_pareto p <> []) by (intros p Hp; split; apply (H p Hp)).
  destruct (evaluation_runs ps N H1) as [acc [avg [ms E]]]. exists ms. rewrite E.
  destruct (evaluation_accuracy ps acc avg ms H1 E) as [_ [_ [B [C _]]]]. destruct (evaluation_inv ps acc avg ms E) as [_ [F _]].
  assert (K : acc = 1).
  { apply C. clear - F H HS HE HM HU. induction F as [|p m ps ms Hm F IH]; constructor.
    - destruct (H p (or_introl eq_refl)) as [Fp [Np [D O]]]. apply (eval_distinct p m Fp Np Hm D). now apply (eval_true_order p m).
    - apply IH. intros; apply H; now right. }
  assert (K' := proj1 B K). subst. reflexivity.
Qed.
End body.
