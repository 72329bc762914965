(** Model of /repo/other/study_analysis_2022/read_study.py: how the accuracy of the models on the data of a user study is measured.

    A model is a state with [predict], [add] and [reset] (src/lop/models/Model.py:38-46); a prediction may change the state, because it fits
    the model.  The files read by [process_all_data] are given as their contents; plots and arguments of the script are left out. *)
From Verif Require Import M_Base M_RBase M_Pareto M_Pairs M_Select M_Store M_Train.
Local Open Scope R_scope.

(** one choice of a participant (read_study.py:35-38, 56-65): the rewards of the options and the index of the chosen one *)
Record sample (P : Type) := mkSample { rewards : list P; preferred : nat }.
Arguments mkSample {P}. Arguments rewards {P}. Arguments preferred {P}.
(** the entries 'train' and 'eval' of a run (read_study.py:29-32) *)
Record srun (P : Type) := mkRun { train : list (sample P); evals : list (sample P) }.
Arguments mkRun {P}. Arguments train {P}. Arguments evals {P}.

(** an assignment to an entry of an array (read_study.py:32, 42) *)
Fixpoint set_at {A} (l : list A) (i : nat) (x : A) : result (list A) :=
  match l, i with
  | [], _ => Raise IndexError
  | _ :: l', O => Ok (x :: l')
  | a :: l', S i => do r <- set_at l' i x; Ok (a :: r)
  end.

Section study.
Variables (M P : Type).
Variable predict : M -> list P -> result (M * list R).
Variable madd : M -> list P -> list pair -> result M.
Variable mreset : M -> M.

(** read_study.py:53-66, the loop of [eval_model] *)
Fixpoint eval_count (m : M) (eval_d : list (sample P)) (count : nat) : result (M * nat) :=
  match eval_d with
  | [] => Ok (m, count)
  | s :: eval_d' =>
      do mu <- predict m (rewards s);                                          (* line 59 *)
      do predicted_idx <- argmax Rltb (snd mu);                                (* line 60 *)
      eval_count (fst mu) eval_d' (if Nat.eqb predicted_idx (preferred s) then S count else count) (* lines 64-65 *)
  end.
(** read_study.py:53-68 [eval_model] *)
Definition eval_model (m : M) (eval_d : list (sample P)) : result (M * R) :=
  do c <- eval_count m eval_d 0;
  match eval_d with [] => Raise ZeroDivisionError | _ => Ok (fst c, INR (snd c) / INR (length eval_d)) end.
(** read_study.py:34-43: the loop of [train_eval]; entries that were not assigned ([np.empty], line 30) are [None] *)
Fixpoint train_loop (m : M) (d : srun P) (i : nat) (order : list nat) (accs : list (option R)) : result (M * list (option R)) :=
  match order with
  | [] => Ok (m, accs)
  | idx :: order' =>
      do t_d <- getitem (train d) idx;                                         (* line 35 *)
      let pairs := gen_pairs_from_idx (preferred t_d) (seq 0 (length (rewards t_d))) in (* line 38 *)
      do m1 <- madd m (rewards t_d) pairs;                                     (* line 40 *)
      do a <- eval_model m1 (evals d);
      do accs' <- set_at accs (S i) (Some (snd a));                            (* line 42 *)
      train_loop (fst a) d (S i) order' accs'
  end.
(** read_study.py:24-44 [train_eval] *)
Definition train_eval (m : M) (d : srun P) (train_sort : option (list nat)) : result (M * list (option R)) :=
  let order := match train_sort with Some o => o | None => seq 0 (length (train d)) end in (* lines 25-26 *)
  do a <- eval_model m (evals d);                                              (* line 32 *)
  train_loop (fst a) d 0 order (Some (snd a) :: repeat None (length (train d))).
(** [acc[i] = row] (read_study.py:85): numpy repeats a row with one entry *)
Definition assign_row (n : nat) (row : list (option R)) : result (list (option R)) :=
  if Nat.eqb (length row) n then Ok row else match row with [x] => Ok (repeat x n) | _ => Raise ValueError end.
(** read_study.py:83-86, the loop over the runs *)
Fixpoint runs_loop (m : M) (n : nat) (data_runs : list (srun P)) : result (M * list (list (option R))) :=
  match data_runs with
  | [] => Ok (m, [])
  | d :: ds =>
      do r <- train_eval m d None;
      do row <- assign_row n (snd r);
      do rest <- runs_loop (mreset (fst r)) n ds;                              (* line 86 *)
      Ok (fst rest, row :: snd rest)
  end.
(** read_study.py:69-88 [process_all_data] for the runs of all files *)
Definition process_all_data (m : M) (data_runs : list (srun P)) : result (M * list (list (option R))) :=
  do d0 <- getitem data_runs 0%nat;                                            (* line 81 *)
  runs_loop m (S (length (train d0))) data_runs.
End study.

(** ---- the models of the script ---- *)
(** models with a data store (PreferenceModel.py), lines 99-103: [pred] is the fit and prediction, a function of the stored points and labels *)
Definition store_predict (pred : option (list row) -> option (list pair) -> list row -> result (list R)) (s : store) (X : list row) : result (store * list R) :=
  do mu <- pred (sX s) (sRel s) X; Ok (match sX s with None => s | Some _ => set_opt s true end, mu).
Definition store_add (s : store) (X : list row) (y : list pair) : result store := added (add s X (LRel y)).
(** Model.py:136-151 [SimplelestModel], line 104 *)
Definition sum_predict (m : unit) (X : list (list R)) : result (unit * list R) := Ok (m, map rsum X).
Definition sum_add (m : unit) (X : list (list R)) (y : list pair) : result unit := Ok m.

(** ---- the report, lines 107-119 ---- *)
(** np.mean and np.std of a column *)
Definition mean_of (l : list R) : R := rsum l / INR (length l).
Definition std_of (l : list R) : R := sqrt (mean_of (map (fun x => (x - mean_of l) * (x - mean_of l)) l)).
Definition column (j : nat) (acc : list (list R)) : list R := map (fun r => nth j r 0) acc.
(** mean and spread of every model at iteration [j]: the linear model (lines 108-110), the GP (lines 112-114), the sum (lines 116-118) *)
Definition report (acc_l acc_gp acc_s : list (list R)) (j : nat) : (R * R) * (R * R) * (R * R) :=
  ((mean_of (column j acc_l), std_of (column j acc_l) / sqrt (INR (length acc_l))),
   (mean_of (column j acc_gp), std_of (column j acc_l) / sqrt (INR (length acc_gp))),
   (mean_of (column j acc_s), std_of (column j acc_s) / sqrt (INR (length acc_s)))).
