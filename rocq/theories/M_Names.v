(** Model of the names under which /repo/experiments/experiment_helper.py:677-682, 790-795 and /repo/experiments/GP_visualization.py:38-47,
    125 record the state of the model after every training step.  A text is the list of the codes of its characters. *)
From Coq Require Import String Ascii.
From Verif Require Import M_Base.
Local Open Scope nat_scope.
Local Open Scope list_scope.

Definition codes (s : string) : list nat := map nat_of_ascii (list_ascii_of_string s).
(** the decimal digits of a number; the recursion is on a bound of the number of digits *)
Fixpoint digits (fuel n : nat) : list nat :=
  match fuel with
  | O => []
  | S f => if n <? 10 then [n] else digits f (n / 10) ++ [n mod 10]
  end.
(** python's [str(n)] (experiment_helper.py:677, 790) *)
Definition str (n : nat) : list nat := map (fun d => 48 + d) (digits (S n) n).
(** python's [zfill(w)] of the text of a number (experiment_helper.py:678, 791) *)
Definition zfill (w : nat) (s : list nat) : list nat := repeat 48 (w - length s) ++ s.
(** experiment_helper.py:677-679, 790-792: [str_header.zfill(3)] returns the padded text, which is not used; texts cannot be changed in place *)
Definition header (k : nat) : list nat :=
  let str_header := str k in
  let _ := zfill 3 str_header in
  codes "trainitr_" ++ str_header.
(** the names if the padded text were used *)
Definition padded_header (k : nat) : list nat := codes "trainitr_" ++ zfill 3 (str k).
(** GP_visualization.py:38-47, 60-61: numpy adds the ending *)
Definition viz_file (folder file_header : list nat) : list nat := folder ++ file_header ++ codes "_viz" ++ codes ".npz".
(** GP_visualization.py:125 *)
Definition picture_file (folder file_header : list nat) : list nat := folder ++ file_header ++ codes "_active_samples.jpg".
