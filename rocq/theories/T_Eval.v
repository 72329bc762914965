(** C156, C157: what an experiment reports about a trained model. *)
From Coquelicot Require Import Coquelicot.
From Coq Require Import Reals Lra Lia List Permutation Sorted.
From Verif Require Import M_Base M_RBase M_Fake M_OrdProbit M_Select M_Info M_Acq S_Acq M_Eval S_Eval P_Eval P_Eval2 P_Eval3.
Import ListNotations.
Local Open Scope R_scope.

(** * C156 *)
(** a problem with distinct Pareto indices can be evaluated exactly when its Pareto paths are listed first *)
Theorem C156_evaluated {A} enum argsort (model utility : list A -> list R) p : sorts argsort -> enumerates enum -> values_each model -> values_each utility ->
  proper_pareto p -> ((exists m, eval_problem enum argsort model utility p = Ok m) <-> pareto_first p).
Proof. intros HS HE HM HU H. exact (eval_ok_iff enum argsort model utility HS HE HM HU p H). Qed.
Print Assumptions C156_evaluated.
(** otherwise the evaluation fails: the scores of the Pareto paths are looked up with the indices of all paths *)
Theorem C156_index_refuted {A} enum argsort (model utility : list A -> list R) p : sorts argsort -> enumerates enum -> values_each model -> values_each utility ->
  proper_pareto p -> ~ pareto_first p -> eval_problem enum argsort model utility p = Raise IndexError.
Proof. intros HS HE HM HU H N. exact (eval_raises enum argsort model utility HE HM p H N). Qed.
Print Assumptions C156_index_refuted.
(** the path chosen has the highest score; the regret compares its utility with the highest utility *)
Theorem C156_chosen {A} enum argsort (model utility : list A -> list R) p : sorts argsort -> enumerates enum -> values_each model -> values_each utility ->
  pareto_first p -> pr_pareto p <> [] ->
  exists m top, eval_problem enum argsort model utility p = Ok m /\
    let u := utility (pareto_paths p) in let s := model (pareto_paths p) in
    (ev_best m < length (pareto_paths p))%nat /\ ev_estimated m = nth (ev_best m) s 0 /\ largest s (ev_estimated m) /\
    ev_real m = nth (ev_best m) u 0 /\ largest u top /\ ev_diff m = top - ev_real m.
Proof.
  intros HS HE HM HU F N. destruct (eval_run enum argsort model utility HS HE HM HU p F N) as [m [E [B [C [D [G [[t [T K]] _]]]]]]].
  exists m, t. repeat (split; auto).
Qed.
Print Assumptions C156_chosen.
Theorem C156_regret {A} enum argsort (model utility : list A -> list R) p m : sorts argsort -> enumerates enum -> values_each model -> values_each utility ->
  pareto_first p -> pr_pareto p <> [] -> eval_problem enum argsort model utility p = Ok m ->
  0 <= ev_diff m /\ (ev_diff m = 0 <-> largest (utility (pareto_paths p)) (ev_real m)).
Proof. intros HS HE HM HU F N H. exact (eval_diff enum argsort model utility HS HE HM HU p m F N H). Qed.
Print Assumptions C156_regret.
(** the rank is at least the number of better paths and less than the number of paths that are at least as good *)
Theorem C156_rank {A} enum argsort (model utility : list A -> list R) p m : sorts argsort -> enumerates enum -> values_each model -> values_each utility ->
  pareto_first p -> pr_pareto p <> [] -> eval_problem enum argsort model utility p = Ok m ->
  (above (utility (pareto_paths p)) (ev_real m) <= ev_rank m < not_below (utility (pareto_paths p)) (ev_real m))%nat /\
  (ev_rank m = 0%nat -> ev_diff m = 0).
Proof.
  intros HS HE HM HU F N H. split; [exact (eval_rank enum argsort model utility HS HE HM HU p m F N H)|exact (eval_rank0 enum argsort model utility HS HE HM HU p m F N H)].
Qed.
Print Assumptions C156_rank.
(** without ties it is the number of better paths, and the chosen path counts as correct exactly when it is a best one *)
Theorem C156_distinct {A} enum argsort (model utility : list A -> list R) p m : sorts argsort -> enumerates enum -> values_each model -> values_each utility ->
  pareto_first p -> pr_pareto p <> [] -> eval_problem enum argsort model utility p = Ok m -> NoDup (utility (pareto_paths p)) ->
  ev_rank m = above (utility (pareto_paths p)) (ev_real m) /\ (ev_rank m = 0%nat <-> ev_diff m = 0).
Proof. intros HS HE HM HU F N H. exact (eval_distinct enum argsort model utility HS HE HM HU p m F N H). Qed.
Print Assumptions C156_distinct.
(** with ties a best path can count as wrong, whatever the sorting routine does *)
Theorem C156_ties_refuted argsort enum : sorts argsort -> enumerates enum ->
  exists (model : list nat -> list R) m, values_each model /\
    eval_problem enum argsort model (map (fun _ => 1)) (mkProblem [0; 1]%nat [0; 1]%nat) = Ok m /\ ev_diff m = 0 /\ ev_rank m = 1%nat.
Proof. exact (ties_wrong argsort enum). Qed.
Print Assumptions C156_ties_refuted.
Theorem C156_accuracy {A} enum argsort (model utility : list A -> list R) ps acc avg ms : sorts argsort -> enumerates enum -> values_each model -> values_each utility ->
  (forall p, In p ps -> pareto_first p /\ pr_pareto p <> []) -> evaluation enum argsort model utility ps = Ok (acc, avg, ms) ->
  0 <= acc <= 1 /\ 0 <= avg /\ (acc = 1 <-> avg = 0) /\ (acc = 1 <-> Forall (fun m => ev_rank m = 0%nat) ms) /\
  (acc = 1 -> Forall (fun m => ev_diff m = 0) ms).
Proof. intros HS HE HM HU H E. exact (evaluation_accuracy enum argsort model utility HS HE HM HU ps acc avg ms H E). Qed.
Print Assumptions C156_accuracy.
(** the accuracy and the average rank are the share of correct problems and the mean of the ranks *)
Theorem C156_shares {A} enum argsort (model utility : list A -> list R) ps acc avg ms : evaluation enum argsort model utility ps = Ok (acc, avg, ms) ->
  ps <> [] /\ Forall2 (fun p m => eval_problem enum argsort model utility p = Ok m) ps ms /\
  INR (length ps) * acc = INR (length (filter (fun m => Nat.eqb (ev_rank m) 0) ms)) /\ INR (length ps) * avg = INR (list_sum (map ev_rank ms)).
Proof. exact (evaluation_shares enum argsort model utility ps acc avg ms). Qed.
Print Assumptions C156_shares.
(** a model that orders the paths of every problem like the utility gets full marks *)
Theorem C156_full_marks {A} enum argsort (model utility : list A -> list R) ps : sorts argsort -> enumerates enum -> values_each model -> values_each utility ->
  ps <> [] -> (forall p, In p ps -> pareto_first p /\ pr_pareto p <> [] /\ NoDup (utility (pareto_paths p)) /\
    same_order (utility (pareto_paths p)) (model (pareto_paths p))) ->
  exists ms, evaluation enum argsort model utility ps = Ok (1, 0, ms).
Proof. intros HS HE HM HU N H. exact (evaluation_perfect enum argsort model utility HS HE HM HU ps N H). Qed.
Print Assumptions C156_full_marks.
(** no problems: division by zero *)
Theorem C156_none_refuted {A} enum argsort (model utility : list A -> list R) : evaluation enum argsort model utility [] = Raise ZeroDivisionError.
Proof. reflexivity. Qed.
Print Assumptions C156_none_refuted.

(** * C157 *)
Theorem C157_range {A} enum argsort (model utility : list A -> list R) p m : sorts argsort -> enumerates enum -> values_each model -> values_each utility ->
  pareto_first p -> pr_pareto p <> [] -> eval_problem enum argsort model utility p = Ok m ->
  -1 <= ev_spearman m <= 1 /\ -1 <= ev_pearson m <= 1 /\ ev_rho m <= 0.
Proof. intros HS HE HM HU F N H. exact (measured_range enum argsort model utility HS HE HM HU p m F N H). Qed.
Print Assumptions C157_range.
Theorem C157_pearson {A} enum argsort (model utility : list A -> list R) p m : sorts argsort -> enumerates enum -> values_each model -> values_each utility ->
  pareto_first p -> pr_pareto p <> [] -> eval_problem enum argsort model utility p = Ok m ->
  let u := utility (pareto_paths p) in let s := model (pareto_paths p) in
  not_constant u -> not_constant s -> ev_pearson m = pearson u s.
Proof. intros HS HE HM HU F N H. exact (measured_pearson enum argsort model utility HS HE HM HU p m F N H). Qed.
Print Assumptions C157_pearson.
(** the softmax distance vanishes exactly when the scores are the utility up to a shift *)
Theorem C157_rho {A} enum argsort (model utility : list A -> list R) p m : sorts argsort -> enumerates enum -> values_each model -> values_each utility ->
  pareto_first p -> pr_pareto p <> [] -> eval_problem enum argsort model utility p = Ok m ->
  (ev_rho m = 0 <-> exists c, model (pareto_paths p) = map (fun x => x + c) (utility (pareto_paths p))).
Proof. intros HS HE HM HU F N H. exact (measured_rho enum argsort model utility HS HE HM HU p m F N H). Qed.
Print Assumptions C157_rho.
Theorem C157_same_order {A} enum argsort (model utility : list A -> list R) p m : sorts argsort -> enumerates enum -> values_each model -> values_each utility ->
  pareto_first p -> eval_problem enum argsort model utility p = Ok m ->
  let u := utility (pareto_paths p) in let s := model (pareto_paths p) in
  (2 <= length (pr_pareto p))%nat -> NoDup u -> same_order u s -> ev_spearman m = 1.
Proof. intros HS HE HM HU F H. exact (measured_same enum argsort model utility HS HE HM HU p m F H). Qed.
Print Assumptions C157_same_order.
(** paths listed from the best to the worst: the value is the correlation of the ranks *)
Theorem C157_listed {A} enum argsort (model utility : list A -> list R) p m : sorts argsort -> enumerates enum -> values_each model -> values_each utility ->
  pareto_first p -> pr_pareto p <> [] -> eval_problem enum argsort model utility p = Ok m ->
  let u := utility (pareto_paths p) in let s := model (pareto_paths p) in
  (forall i j, (i < j < length u)%nat -> nth j u 0 < nth i u 0) -> NoDup s -> ev_spearman m = corr (rankdata u) (rankdata s).
Proof. intros HS HE HM HU F N H. exact (measured_listed enum argsort model utility HS HE HM HU p m F N H). Qed.
Print Assumptions C157_listed.
(** in another order it is not: scores in exactly the opposite order are reported with a positive value, although the ranks have
    correlation -1 *)
Theorem C157_spearman_refuted argsort enum : sorts argsort -> enumerates enum ->
  exists m, eval_problem enum argsort (map (fun x => - x)) (fun l => l) (mkProblem [3; 1; 2] [0; 1; 2]%nat) = Ok m /\
    ev_spearman m = 1 / 2 /\ spearman_entry [3; 1; 2] (map (fun x => - x) [3; 1; 2]) = -1.
Proof. exact (backwards argsort enum). Qed.
Print Assumptions C157_spearman_refuted.

(** ---- examples ---- *)
(** routines as assumed exist *)
Example C156_hypotheses : sorts stable_argsort /\ enumerates (fun s => s) /\ values_each (fun l : list R => l) /\ values_each (map Ropp).
Proof. repeat split; try apply stable_sorts; try (intro; apply Permutation_refl); try (intro; apply map_length). Qed.
(** a problem with three paths of which the first two are Pareto paths, listed in the opposite order, and one whose Pareto paths are not first *)
Example C156_first_example : pareto_first (mkProblem [5; 4; 1] [1; 0]%nat) /\ pareto_paths (mkProblem [5; 4; 1] [1; 0]%nat) = [4; 5] /\
  proper_pareto (mkProblem [1; 4; 5] [1; 2]%nat) /\ ~ pareto_first (mkProblem [1; 4; 5] [1; 2]%nat).
Proof.
  repeat split; simpl; auto; try lia; try discriminate; try (repeat constructor; simpl; intuition lia).
  intros [H _]. simpl in H. assert (In 2%nat [0; 1]%nat) by (apply (Permutation_in _ H); simpl; auto). simpl in H0. intuition discriminate.
Qed.
Example C156_order_example : same_order [3; 1; 2] [30; 10; 20] /\ NoDup [3; 1; 2] /\ not_constant [3; 1; 2] /\ ~ same_order [3; 1; 2] [-3; -1; -2] /\
  above [3; 1; 2; 2] 2 = 1%nat /\ not_below [3; 1; 2; 2] 2 = 3%nat.
Proof.
  assert (K : forall i, (i < 3)%nat -> i = 0%nat \/ i = 1%nat \/ i = 2%nat) by (intros; lia). repeat split; simpl; auto.
  - destruct (K i H) as [-> | [-> | ->]], (K j H0) as [-> | [-> | ->]]; simpl; lra.
  - destruct (K i H) as [-> | [-> | ->]], (K j H0) as [-> | [-> | ->]]; simpl; lra.
  - apply nodup3; lra.
  - exists 3, 1. simpl. repeat split; auto. lra.
  - intros [_ H]. assert (Q := proj1 (H 1%nat 0%nat ltac:(simpl; lia) ltac:(simpl; lia)) ltac:(simpl; lra)). simpl in Q. lra.
  - unfold above. simpl. repeat (destruct (Rlt_dec _ _); try lra). reflexivity.
  - unfold not_below. simpl. repeat (destruct (Rle_dec _ _); try lra). reflexivity.
Qed.
(** paths listed from the best to the worst, distinct scores *)
Example C157_listed_example : (forall i j, (i < j < length [3; 2; 1])%nat -> nth j [3; 2; 1] 0 < nth i [3; 2; 1] 0) /\ NoDup [5; 7; 6].
Proof.
  split; [|apply nodup3; lra]. intros i j H. simpl in H. assert (K : (i = 0%nat /\ j = 1%nat) \/ (i = 0%nat /\ j = 2%nat) \/ (i = 1%nat /\ j = 2%nat)) by lia.
  destruct K as [[-> ->]|[[-> ->]|[-> ->]]]; simpl; lra.
Qed.
