(** C166: the results of an experiment (single_experiment.py). *)
From Coq Require Import String List.
From Verif Require Import M_Base M_Results S_Results P_Results.
From Coq Require Import List.
Import ListNotations.

(** when the program ends or fails, the file has exactly the finished runs, in order, and there is none if no run has finished; after an
    interrupt it starts with them *)
Theorem C166_saved V (evs : list (event V)) :
  match runs evs with
  | (Exited, Some f) => holds_first f (finished evs)
  | (Exited, None) => False
  | (_, None) => finished evs = []
  | (_, Some f) => finished evs <> [] /\ holds f (finished evs)
  end.
Proof. exact (runs_ok V evs). Qed.
Print Assumptions C166_saved.
Example C166_saved_ex : exists f, runs [Finished (fun a => a); Finished (fun a => a + 5); Failed ValueError] = (Raised ValueError, Some f) /\ nth_error f 10 = Some [Some 10; Some 15].
Proof. eexists. split; reflexivity. Qed.
(** after an interrupt during a run the file has a further row that no run has written *)
Theorem C166_saved_refuted V (rs : list (nat -> V)) r k rest : k <= 10 ->
  exists f, runs (map Finished rs ++ Interrupted r k :: rest) = (Exited, Some f) /\ nth_error f 10 = Some (map (fun r => Some (r 10)) rs ++ [None])%list.
Proof. exact (runs_interrupted V rs r k rest). Qed.
Print Assumptions C166_saved_refuted.
Example C166_saved_refuted_ex : 0 <= 10. Proof. auto with arith. Qed.
Local Open Scope string_scope.
(** without --dir, or with a slash at its end, everything is written into the folder of the experiment *)
Theorem C166_folder described j : let f := folder_name "" described in inside (run_folder f j) ("results/AT_" ++ described) /\ inside (data_file f) ("results/AT_" ++ described).
Proof. exact (default_inside described j). Qed.
Print Assumptions C166_folder.
Theorem C166_dir d described j : let f := folder_name (d ++ "/") described in inside (run_folder f j) ("results/" ++ d) /\ inside (data_file f) ("results/" ++ d).
Proof. exact (slash_inside d described j). Qed.
Print Assumptions C166_dir.
Example C166_dir_ex : data_file (folder_name ("mine" ++ "/") "x") = "results/mine/train_data.npz". Proof. reflexivity. Qed.
(** otherwise the folder that is made stays empty *)
Theorem C166_dir_refuted d described j : d <> "" -> (forall d', d <> (d' ++ "/")%string) -> let f := folder_name d described in f = "results/" ++ d /\ ~ inside (run_folder f j) f /\ ~ inside (data_file f) f.
Proof. exact (outside d described j). Qed.
Print Assumptions C166_dir_refuted.
Example C166_dir_refuted_ex : "mine" <> "" /\ (forall d', "mine" <> (d' ++ "/")%string) /\ data_file (folder_name "mine" "x") = "results/minetrain_data.npz".
Proof. split; [discriminate|]. split; [|reflexivity]. intros d' E. do 4 (destruct d' as [|? d']; [discriminate E|cbn in E; injection E as _ E]). destruct d'; discriminate E. Qed.
(** a flag that is given the text False is on *)
Theorem C166_flag_refuted : bool_arg "False" = true /\ bool_arg "True" = true.
Proof. exact (conj eq_refl eq_refl). Qed.
Print Assumptions C166_flag_refuted.
