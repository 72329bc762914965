(** Property C178: the files of a run *)
From Coq Require Import String List Arith Lia.
From Verif Require Import M_Base M_Names S_Names P_Names.
Import ListNotations.
Local Open Scope nat_scope.
Local Open Scope list_scope.

(** every training step has its own file and its own picture *)
Theorem C178_distinct : forall folder i j, viz_file folder (header i) = viz_file folder (header j) \/ picture_file folder (header i) = picture_file folder (header j) -> i = j.
Proof.
exact names_distinct.
Qed.
Print Assumptions C178_distinct.
Theorem C178_kinds : forall folder s t, viz_file folder s <> picture_file folder t.
Proof.
exact kinds_distinct.
Qed.
Print Assumptions C178_kinds.
(** the names of steps with the same number of digits sort like the steps *)
Theorem C178_same_digits : forall folder i j, length (str i) = length (str j) -> i < j -> sorted_before (viz_file folder (header i)) (viz_file folder (header j)).
Proof.
exact same_length_order.
Qed.
Print Assumptions C178_same_digits.
Theorem C178_first_ten : forall folder i j, i < j -> j < 10 -> sorted_before (viz_file folder (header i)) (viz_file folder (header j)).
Proof.
exact first_ten.
Qed.
Print Assumptions C178_first_ten.
(** refuted: the names sort like the steps; every step from the tenth on is listed before one of the first nine *)
Theorem C178_order_refuted : forall folder n, 10 <= n -> exists m, m < 10 /\ sorted_before (viz_file folder (header n)) (viz_file folder (header m)) /\
  ~ sorted_before (viz_file folder (header m)) (viz_file folder (header n)).
Proof.
exact later_first.
Qed.
Print Assumptions C178_order_refuted.
(** with the padded text, whose value is not used, the first thousand names would sort like the steps *)
Theorem C178_padded : forall folder i j, i < j -> j < 1000 -> sorted_before (viz_file folder (padded_header i)) (viz_file folder (padded_header j)).
Proof.
exact padded_order.
Qed.
Print Assumptions C178_padded.
(** the digits of a step determine it *)
Theorem C178_digits : forall n, exists ds, str n = map (fun d => 48 + d) ds /\ Forall (fun d => d < 10) ds /\ value ds = n /\ ds <> [].
Proof.
exact str_value.
Qed.
Print Assumptions C178_digits.

Example C178_name_ex : viz_file (codes "run_0/") (header 25) = codes "run_0/trainitr_25_viz.npz".
Proof.
reflexivity.
Qed.
Example C178_padded_ex : viz_file (codes "run_0/") (padded_header 7) = codes "run_0/trainitr_007_viz.npz" /\ picture_file [] (header 7) = codes "trainitr_7_active_samples.jpg".
Proof.
split; reflexivity.
Qed.
Example C178_same_digits_ex : length (str 12) = length (str 34).
Proof.
reflexivity.
Qed.
Example C178_order_ex : sorted_before (viz_file [] (header 10)) (viz_file [] (header 2)) /\ 10 <= 10.
Proof.
split; [|lia]. unfold viz_file. cbn [app]. do 9 apply sb_eq. apply sb_lt, Nat.ltb_lt. reflexivity.
Qed.
