(** Model of what an experiment writes: /repo/experiments/single_experiment.py:138, 149 (flags), 181-195 (folder) and 197-295 (runs).
    One entry of an array is one run; [None] is the content of [np.empty] before the assignment.  A write of the file is taken as atomic
    and as replacing the file of the same name. *)
From Coq Require Export String.
From Verif Require Import M_Base.
Local Open Scope string_scope.
Local Open Scope list_scope.
Local Open Scope nat_scope.

Section results.
Variable V : Type.
(** the eleven arrays (lines 203-213), numbered in the order of the assignments of lines 252-264, as functions of array and run *)
Definition arrays := nat -> nat -> option V.
(** lines 252-264, the first [k] assignments of run [j] *)
Definition assign (A : arrays) (j : nat) (r : nat -> V) (k : nat) : arrays :=
  fun a i => if andb (i =? j) (a <? k) then Some (r a) else A a i.
(** lines 267-278, 283-294: [array[:n]] of every array *)
Definition save (A : arrays) (n : nat) : list (list (option V)) := map (fun a => map (A a) (seq 0 n)) (seq 0 11).
(** what happens in one pass of the loop (lines 218-278): it ends, an interrupt arrives before it starts (lines 217-218), or after [k]
    assignments but before the file is written (lines 219-266), or [train_and_eval] raises *)
Inductive event := Finished (r : nat -> V) | InterruptedBefore | Interrupted (r : nat -> V) (k : nat) | Failed (e : exn).
(** how the program ends *)
Inductive ending := Ended | Exited | Raised (e : exn).
(** lines 218-295; [cur_run] of line 281 is the run that was started last, or 0 (line 215) *)
Fixpoint loop (j : nat) (evs : list event) (A : arrays) (file : option (list (list (option V)))) : ending * option (list (list (option V))) :=
  match evs with
  | [] => (Ended, file)
  | Finished r :: rest => let A' := assign A j r 11 in loop (S j) rest A' (Some (save A' (S j)))
  | InterruptedBefore :: _ => (Exited, Some (save A (S (j - 1))))
  | Interrupted r k :: _ => (Exited, Some (save (assign A j r k) (S j)))
  | Failed e :: _ => (Raised e, file)
  end.
(** lines 203-295, one event per run *)
Definition runs (evs : list event) : ending * option (list (list (option V))) := loop 0 evs (fun _ _ => None) None.
End results.
Arguments Finished {V}. Arguments InterruptedBefore {V}. Arguments Interrupted {V}. Arguments Failed {V}. Arguments runs {V}. Arguments loop {V}. Arguments save {V}. Arguments assign {V}.

(** lines 182-190: [described] is the long name built from the settings *)
Definition folder_name (dir described : string) : string :=
  if String.eqb dir "" then ("results/AT_" ++ described ++ "/")%string else ("results/" ++ dir)%string.
(** line 220, and lines 267 and 283, where numpy adds the ending *)
Definition run_folder (folder j : string) : string := (folder ++ "run_" ++ j ++ "/")%string.
Definition data_file (folder : string) : string := (folder ++ "train_data.npz")%string.
(** lines 138, 149: [type=bool], i.e. python's [bool] of the text *)
Definition bool_arg (s : string) : bool := negb (String.eqb s "").
