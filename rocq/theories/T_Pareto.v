(** Properties C05-C06: pareto.py *)
From Verif Require Import M_Base M_Pareto S_Pareto P_Pareto.
From Coq Require Import Sorted.

(** C05 (one more unit of fuel than rows is always enough, so the python loop terminates) *)
Theorem C05_pareto_exact : forall k V fuel, rect k V -> length V < fuel ->
  exists l, get_pareto fuel V = Some l /\ StronglySorted lt l /\ (forall i, In i l <-> on_front V i).
Proof. exact get_pareto_correct. Qed.
Print Assumptions C05_pareto_exact.
(** the data of tests/active_learning/test_active_learner.py, with a duplicated front point appended *)
Definition pareto_ex : list row :=
  [[3#1;4#1;5#1]; [2#1;3#1;4#1]; [5#1;2#1;1#1]; [3#1;4#1;6#1]; [3#1;2#1;1#1]; [2#1;7#1;2#1]; [3#1;4#1;6#1]]%Q.
Example C05_ex : rect 3 pareto_ex /\ get_pareto 8 pareto_ex = Some [2; 3; 5].
Proof. split; [repeat constructor | vm_compute; reflexivity]. Qed.

(** C06 *)
Theorem C06_pareto_cover : forall k V fuel l, rect k V -> length V < fuel -> get_pareto fuel V = Some l ->
   (forall i r, nth_error V i = Some r -> exists j p, In j l /\ nth_error V j = Some p /\ weakly_below r p) /\
   (forall i j r p, In i l -> In j l -> i <> j -> nth_error V i = Some r -> nth_error V j = Some p -> ~ weakly_below r p).
Proof. exact get_pareto_cover. Qed.
Print Assumptions C06_pareto_cover.
Theorem C06_pareto_mask : forall fuel V l, get_pareto fuel V = Some l ->
  exists m, get_pareto_mask fuel V = Some m /\ length m = length V /\
    (forall i, i < length V -> (nth_error m i = Some true <-> In i l)).
Proof. exact get_pareto_mask_correct. Qed.
Print Assumptions C06_pareto_mask.
Example C06_ex : get_pareto_mask 8 pareto_ex = Some [false; false; true; true; false; true; false].
Proof. vm_compute. reflexivity. Qed.
