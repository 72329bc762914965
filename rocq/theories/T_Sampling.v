(** Properties C07-C08: sample_utility.py.  [draws] is the stream of results of np.random.choice; theorems hold for
    every stream; [fuel] bounds the rounds of the while loop, [Ok] means the loop ended by itself. *)
From Coq Require Import Permutation Sorted.
From Verif Require Import M_Base M_Sampling S_Sampling P_Sampling.

(** C07 *)
Theorem C07_unique_sets : forall draws s k, (k <= s -> forall t, is_draw s k (draws t)) ->
  forall fuel num_sets rows, sample_unique_sets fuel draws s num_sets k = Ok rows ->
  length rows = num_sets /\ NoDup rows /\ Forall (is_subset s k) rows /\ StronglySorted dict_lt rows /\
  Forall (fun r => exists t, Permutation r (draws t)) rows.
Proof. exact sample_unique_sets_safe. Qed.
Print Assumptions C07_unique_sets.
Example C07_ex :
  let draws t := nth (t mod 4) [[2;0]; [0;2]; [3;1]; [1;0]] [] in
  (forall t, is_draw 4 2 (draws t)) /\
  sample_unique_sets 9 draws 4 3 2 = Ok [[0;1]; [0;2]; [1;3]].
Proof.
  split; [|vm_compute; reflexivity]. intro t. pose proof (Nat.mod_upper_bound t 4).
  destruct (t mod 4) as [|[|[|[|?]]]]; [| | | |lia]; simpl; split; auto; split; repeat constructor; simpl; lia.
Qed.

(** C08: refuted.  Asking for more sets than exist never returns, whatever is drawn. *)
Theorem C08_sampling_terminates_refuted : forall s k num_sets draws,
  k <= s -> (forall t, is_draw s k (draws t)) -> binom s k < num_sets ->
  forall fuel, sample_unique_sets fuel draws s num_sets k = Raise OutOfFuel.
Proof. exact (fun s k n draws => sample_never draws s k n). Qed.
Print Assumptions C08_sampling_terminates_refuted.
Lemma coin_draw t : is_draw 2 1 [t mod 2].
Proof.
  pose proof (Nat.mod_upper_bound t 2). split; [reflexivity|]. split.
  - apply NoDup_cons; [intros []|apply NoDup_nil].
  - apply Forall_cons; [lia|apply Forall_nil].
Qed.
Example C08_refuted_ex : 1 <= 2 /\ (forall t, is_draw 2 1 ((fun t => [t mod 2]) t)) /\ binom 2 1 < 3.
Proof.
  split; [lia|]. split; [|vm_compute; lia]. exact coin_draw.
Qed.
(** the number used above is the number of subsets *)
Theorem C08_binom_counts : forall s k l, NoDup l -> (forall r, In r l <-> is_subset s k r) -> length l = binom s k.
Proof. exact binom_counts. Qed.
Print Assumptions C08_binom_counts.
Example C08_binom_ex : binom 5 2 = 10 /\ NoDup (all_subsets 0 5 2) /\
  (forall r, In r (all_subsets 0 5 2) <-> is_subset 5 2 r).
Proof. split; [reflexivity|]. split; [apply all_subsets_NoDup | apply all_subsets_spec]. Qed.
(** any feasible request terminates when every subset is drawn at some time *)
Theorem C08_sampling_terminates_feasible : forall draws s k num_sets,
  k <= s -> (forall t, is_draw s k (draws t)) -> fair s k draws -> num_sets <= binom s k ->
  exists fuel rows, sample_unique_sets fuel draws s num_sets k = Ok rows.
Proof. exact sample_terminates. Qed.
Print Assumptions C08_sampling_terminates_feasible.
Example C08_feasible_ex : let draws t := [t mod 2] in
  1 <= 2 /\ (forall t, is_draw 2 1 (draws t)) /\ fair 2 1 draws /\ 2 <= binom 2 1.
Proof.
  split; [lia|]. split; [|split; [|vm_compute; lia]].
  - exact coin_draw.
  - intros r [Hl [_ Hf]]. destruct r as [|x [|? ?]]; simpl in Hl; try lia. inversion Hf; subst.
    exists x. rewrite Nat.mod_small; auto.
Qed.
