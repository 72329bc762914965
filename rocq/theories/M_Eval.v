(** Model of /repo/experiments/experiment_helper.py:804-861 [evaluation]: how an experiment scores a trained model on path problems.

    A path is any value; the model and the true utility are functions from the list of paths of a problem to the list of their values.
    Values are real numbers.  [np.argsort] does not promise an order of equal values and [list(set)] does not promise any order: both are
    arbitrary functions.  The sum of ranks and the counts are exact.  nan (constant rows in [np.corrcoef]) is not modelled. *)
From Verif Require Import M_Base M_RBase M_Fake M_OrdProbit M_Select M_Info M_Acq.
Local Open Scope R_scope.

(** one path problem: the rewards of its paths and the entry 'pareto' of its indices (line 821) *)
Record problem (A : Type) := mkProblem { pr_rewards : list A; pr_pareto : list nat }.
Arguments mkProblem {A}. Arguments pr_rewards {A}. Arguments pr_pareto {A}.
(** what the loop body stores for a problem (lines 827, 832, 849-854) *)
Record measures := mkMeasures {
  ev_best : nat; ev_rank : nat; ev_estimated : R; ev_real : R; ev_diff : R; ev_spearman : R; ev_pearson : R; ev_rho : R }.

(** /repo/src/lop/active_learning/ActiveLearner.py:213-228 [select_best] with real values and the default [prev_selection=set()] *)
Definition choose_best (enum : list nat -> list nat) (mu : list R) (prefer_pts : list nat) : result nat :=
  let p := match prefer_pts with [] => seq 0 (length mu) | _ => prefer_pts end in
  match p with [] => Raise GenericException | _ => pick_extreme Rltb (getitem mu) (enum p) end.
(** [np.where(l == x)[0][0]] (line 832): the first position of [x] *)
Fixpoint position_from (i x : nat) (l : list nat) : result nat :=
  match l with [] => Raise IndexError | y :: l' => if Nat.eqb y x then Ok i else position_from (S i) x l' end.
(** [np.argsort(v)[::-1]] (lines 830, 836) *)
Definition sorted_idx (argsort : list R -> list nat) (v : list R) : list nat := rev (argsort v).
(** the loop body, lines 821-854 *)
Definition eval_problem {A} (enum : list nat -> list nat) (argsort : list R -> list nat) (model utility : list A -> list R)
    (p : problem A) : result measures :=
  do rewards <- mapM (getitem (pr_rewards p)) (pr_pareto p);
  let scores := model rewards in
  do best <- choose_best enum scores (set_of (pr_pareto p));
  let u := utility rewards in
  let s := sorted_idx argsort u in
  do best_path <- getitem s 0%nat;
  do rank <- position_from 0 best s;
  do estimated <- getitem scores best;
  do real <- getitem u best;
  do top <- getitem u best_path;
  Ok (mkMeasures best rank estimated real (top - real)
        (corr (map INR s) (map INR (sorted_idx argsort scores))) (corr u scores) (- dist2 (softmax u) (softmax scores))).
(** lines 856-861: accuracy, average rank and the measures of each problem; integer division by zero for no problems *)
Definition evaluation {A} (enum : list nat -> list nat) (argsort : list R -> list nat) (model utility : list A -> list R)
    (ps : list (problem A)) : result (R * R * list measures) :=
  do ms <- mapM (eval_problem enum argsort model utility) ps;
  match ps with
  | [] => Raise ZeroDivisionError
  | _ => Ok (INR (length (filter (fun m => Nat.eqb (ev_rank m) 0) ms)) / INR (length ps),
             INR (fold_left (fun a m => (a + ev_rank m)%nat) ms 0%nat) / INR (length ps), ms)
  end.
