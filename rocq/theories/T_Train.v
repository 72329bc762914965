(** C158: training runs of an experiment. *)
From Verif Require Import M_Base M_Pareto M_Pairs M_Select M_Store S_Store M_Train S_Train P_Train P_Train2.

(** after a run of choices exactly the shown rows (and the rows added without being shown) and exactly the user's answers are stored *)
Theorem C158_recorded : forall perfect u choose rate select problems i s s' log, sPareto s = false ->
  train Choose1 perfect u choose rate select i problems s = Ok (s', log) ->
  exists qs, length qs = length problems /\ log = repeat (0%Z, (-1)%Z) (length problems) /\
    (forall k q, nth_error qs k = Some q -> choose (i + k) (q_shown q) = Ok (q_choice q) /\
       exists rewards, nth_error problems k = Some rewards /\ Forall (fun x => In x rewards) (q_shown q ++ q_rest q)) /\
    points s' = points s ++ asked_points qs /\ rel s' = rel s ++ asked_pairs (length (points s)) qs /\
    ord_v s' = ord_v s /\ abs_v s' = abs_v s.
Proof. exact choose_train. Qed.
Print Assumptions C158_recorded.
(** such a run does not fail when every problem has two paths, the selection points into it and the user answers *)
Theorem C158_runs : forall perfect u choose rate select problems, selects_from select -> (forall i X, X <> [] -> exists b, choose i X = Ok b) ->
  Forall (fun X => 2 <= length X) problems -> forall i s, exists s' log, train Choose1 perfect u choose rate select i problems s = Ok (s', log).
Proof. exact choose_runs. Qed.
Print Assumptions C158_runs.
(** with a user who never errs every stored pair agrees with the utility, in every kind of run; the pairs that are generated from
    domination too, if more of every objective is not worse *)
Theorem C158_agrees : forall t perfect u choose rate select k problems pareto s log, never_errs u choose ->
  (pareto = true -> respects_domination u) -> Forall (same_width k) problems ->
  train t perfect u choose rate select 0 problems (init pareto) = Ok (s, log) -> Forall (agrees u (points s)) (rel s).
Proof. exact train_agrees. Qed.
Print Assumptions C158_agrees.
(** the mark of an answer in a 'switch' run: 1 exactly when the user chose the first best row *)
Theorem C158_mark : forall perfect u choose rate select i rewards s s' c, iteration Switch perfect u choose rate select i rewards s = Ok (s', (0%Z, c)) ->
  exists q, Forall (fun x => In x rewards) (q_shown q) /\ q_rest q = [] /\ length (q_shown q) <> 1 /\ choose i (q_shown q) = Ok (q_choice q) /\
    points s' = points s ++ q_shown q /\ (exists gen, rel s' = rel s ++ won (length (points s)) q ++ gen /\ (sPareto s = false -> gen = [])) /\
    (c = 1%Z <-> first_best u (q_shown q) (q_choice q)) /\ (c = 0%Z <-> ~ first_best u (q_shown q) (q_choice q)).
Proof. exact switch_mark. Qed.
Print Assumptions C158_mark.
(** a user who never errs has only correct marks *)
Theorem C158_all_correct : forall perfect u choose rate select problems i s s' log, never_errs u choose ->
  train Switch perfect u choose rate select i problems s = Ok (s', log) ->
  length log = length problems /\ Forall (fun e => e = (0%Z, 1%Z) \/ e = (1%Z, (-1)%Z)) log.
Proof. exact switch_log. Qed.
Print Assumptions C158_all_correct.
(** the perfect user, who picks the first largest utility, never errs *)
Theorem C158_perfect : forall u, never_errs u (fun _ X => argmax Qlt_bool (map u X)).
Proof. exact perfect_never_errs. Qed.
Print Assumptions C158_perfect.
(** choosing another row that is just as good is marked as wrong *)
Theorem C158_tie_refuted : exists u choose select rewards s', iteration Switch false u choose (fun _ _ => []) select 0 rewards (init false) = Ok (s', (0%Z, 0%Z)) /\
  forall i X b x y, choose i X = Ok b -> nth_error X b = Some x -> In y X -> (u y <= u x)%Q.
Proof. exact tie_marked. Qed.
Print Assumptions C158_tie_refuted.
(** every run with rankings fails at its first query *)
Theorem C158_ranking_refuted : forall perfect u choose rate select rewards problems s i, selects_from select -> 2 <= length rewards ->
  train Ranking perfect u choose rate select i (rewards :: problems) s = Raise (if perfect then TypeError else GenericException).
Proof. exact ranking_fails. Qed.
Print Assumptions C158_ranking_refuted.
(** every experiment with the perfect user, the default, fails before the first query *)
Theorem C158_perfect_refuted : forall t perfect u choose rate select problems s, experiment t perfect u choose rate select Perfect problems s = Raise AttributeError.
Proof. intros. exact (perfect_fails perfect u choose rate select t problems s). Qed.
Print Assumptions C158_perfect_refuted.
(** a problem with a single path cannot be trained on *)
Theorem C158_single_refuted : forall t perfect u choose rate select x problems s i, train t perfect u choose rate select i ([x] :: problems) s = Raise IndexError.
Proof. intros. exact (one_path_fails perfect u choose rate select t x problems s i). Qed.
Print Assumptions C158_single_refuted.
(** the same run with the human user is the training loop *)
Theorem C158_human : forall t perfect u choose rate select problems s, experiment t perfect u choose rate select HumanChoice problems s = train t perfect u choose rate select 0 problems s.
Proof. intros. exact (human_runs perfect u choose rate select t problems s). Qed.
Print Assumptions C158_human.

(** ---- examples ---- *)
(** two problems; the last two paths are shown, the first is stored without being shown *)
Definition ex_select (s : store) (X : list row) : result (list nat * list nat) := Ok ([length X - 1; length X - 2], [0]).
Definition ex_u (x : row) : Q := fold_right Qplus 0%Q x.
Definition ex_choose (i : nat) (X : list row) : result nat := argmax Qlt_bool (map ex_u X).
Definition ex_problems : list (list row) := [[[5; 5]; [1; 2]; [3; 1]]; [[2; 0]; [0; 1]]]%Q.
Example C158_select_example : selects_from ex_select.
Proof. intros s X H. exists [length X - 1; length X - 2], [0]. repeat split; auto; [discriminate|repeat constructor; lia|repeat constructor; lia]. Qed.
Example C158_run_example : exists s log, train Choose1 true ex_u ex_choose (fun _ _ => []) ex_select 0 ex_problems (init false) = Ok (s, log) /\
  points s = [[3; 1]; [1; 2]; [5; 5]; [0; 1]; [2; 0]; [2; 0]]%Q /\ rel s = [((-1)%Z, 0, 1); ((-1)%Z, 4, 3)] /\ log = [(0, -1); (0, -1)]%Z.
Proof. eexists. eexists. split; [vm_compute; reflexivity|]. repeat split. Qed.
(** with generated pairs *)
Example C158_pareto_example : respects_domination ex_u /\ Forall (same_width 2) ex_problems /\
  exists s log, train Choose1 true ex_u ex_choose (fun _ _ => []) ex_select 0 ex_problems (init true) = Ok (s, log) /\ 2 < length (rel s) /\
  never_errs ex_u ex_choose.
Proof.
  split; [|split; [repeat constructor|]].
  - intros a b H. unfold ex_u. induction H as [|x y a b L H IH]; simpl; [apply Qle_refl|]. apply Qplus_le_compat; auto. now apply Qlt_le_weak.
  - eexists. eexists. split; [vm_compute; reflexivity|]. split; [vm_compute; lia|]. exact (perfect_never_errs ex_u).
Qed.
(** a 'switch' run with a mistake in the first query *)
Example C158_mark_example : exists s, iteration Switch false ex_u (fun _ _ => Ok 1) (fun _ _ => []) ex_select 0 [[5; 5]; [1; 2]; [3; 1]]%Q (init false) = Ok (s, (0%Z, 0%Z)) /\
  ~ first_best ex_u [[3; 1]; [1; 2]]%Q 1.
Proof.
  eexists. split; [vm_compute; reflexivity|]. intro H. apply argmax_first in H. vm_compute in H. discriminate.
Qed.
