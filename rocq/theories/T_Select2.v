(** C51: what a learner is told. *)
From Verif Require Import M_Base M_Select S_Select S_Select2 P_Select P_Select2.
From Coq Require Import List QArith.
Import ListNotations.
Local Open Scope nat_scope.

(** every selected point, apart from the best one that is put first, was chosen by the learner knowing exactly the points selected
    earlier and in this call *)
Theorem C51_informed : forall L cand mu n prev p pair_first out, (pair_first = false \/ l_pair L = None) -> select L cand mu n prev p pair_first = Ok out ->
  forall j x, nth_error out j = Some x -> (l_best L = true /\ prev = [] /\ j = 0) \/ told L prev out j x.
Proof. exact select_informed. Qed.
Print Assumptions C51_informed.
(** a learner that picks the candidate farthest from what it was told was selected: the first is the best, then the other end, then the middle *)
Definition far (P : list nat) (i : nat) : nat := fold_right Nat.min 100 (map (fun q => (q - i) + (i - q)) P).
Definition far_learner : learner := mkLearner None true false (fun _ idx P => pick_extreme Nat.ltb (fun i => Ok (far P i)) idx) None (fun l => l).
Example C51_informed_ex : select far_learner [[0#1]; [1#1]; [2#1]; [3#1]; [4#1]]%Q [0#1; 1#1; 2#1; 3#1; 4#1]%Q 3 [] PrefNone true = Ok [4; 0; 2].
Proof. vm_compute. reflexivity. Qed.
