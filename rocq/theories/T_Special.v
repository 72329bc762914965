(** Pareto fronts and best candidates of values with infinities and NaN. *)
From Coq Require Import List QArith Arith Bool Lia Sorted Permutation.
From Verif Require Import M_Base M_Select S_Select M_Special S_Special P_Special.
Import ListNotations.
Local Open Scope nat_scope.

(** infinite rewards are compared like numbers: the front is exact *)
Theorem C170_infinite (k : nat) (V : list (list xval)) (fuel : nat) : xrect k V -> Forall complete V -> length V < fuel ->
  exists l, get_pareto_x fuel V = Some l /\ StronglySorted lt l /\ forall i, In i l <-> xfront V i.
Proof. exact (xpareto_correct k V fuel). Qed.
Print Assumptions C170_infinite.
(** rows of NaN behind a complete first row are left out and change nothing *)
Theorem C170_later (k : nat) (p : list xval) (V : list (list xval)) (fuel : nat) : 1 <= k -> xrect k (p :: V) -> complete p ->
  (forall r, In r V -> complete r \/ all_nan r) -> length V + 1 < fuel ->
  exists l, get_pareto_x fuel (p :: V) = Some l /\ StronglySorted lt l /\ forall i, In i l <-> xfront (p :: V) i.
Proof. exact (nan_later k p V fuel). Qed.
Print Assumptions C170_later.
(** a first row of NaN is the whole front, whatever the others are *)
Theorem C170_first_refuted (p : list xval) (V : list (list xval)) (fuel : nat) : all_nan p -> 2 <= fuel -> get_pareto_x fuel (p :: V) = Some [0].
Proof. exact (nan_first p V fuel). Qed.
Print Assumptions C170_first_refuted.
(** a first row with some NaN removes every row that is not above it elsewhere *)
Theorem C170_lost_refuted (p : list xval) (V : list (list xval)) (j : nat) (r : list xval) (k fuel : nat) (l : list nat) : xrect k (p :: V) ->
  nth_error V j = Some r -> nowhere_above r p -> get_pareto_x fuel (p :: V) = Some l -> ~ In (S j) l.
Proof. exact (row_lost p V j r k fuel l). Qed.
Print Assumptions C170_lost_refuted.
(** the best and the worst learner always answer with a candidate *)
Theorem C170_answers (enum : nat -> list nat -> list nat) (mu : list xval) (N : nat) : (forall k, enumerates (enum k)) -> N <= length mu ->
  answers (best_greedy_x enum mu) N /\ answers (worst_greedy_x enum mu) N.
Proof. exact (x_answers enum mu N). Qed.
Print Assumptions C170_answers.
(** it is the best one when all values are numbers or infinite *)
Theorem C170_best (enum : nat -> list nat -> list nat) (mu : list xval) (k : nat) (idx P : list nat) (i : nat) : (forall k, enumerates (enum k)) ->
  best_greedy_x enum mu k idx P = Ok i -> (forall j, In j idx -> nth_error mu j <> Some XNaN) ->
  exists m, nth_error mu i = Some m /\ In i idx /\ forall j v, In j idx -> nth_error mu j = Some v -> xle v m.
Proof. exact (best_is_best enum mu k idx P i). Qed.
Print Assumptions C170_best.
Theorem C170_worst (enum : nat -> list nat -> list nat) (mu : list xval) (k : nat) (idx P : list nat) (i : nat) : (forall k, enumerates (enum k)) ->
  worst_greedy_x enum mu k idx P = Ok i -> (forall j, In j idx -> nth_error mu j <> Some XNaN) ->
  exists m, nth_error mu i = Some m /\ In i idx /\ forall j v, In j idx -> nth_error mu j = Some v -> xle m v.
Proof. exact (worst_is_worst enum mu k idx P i). Qed.
Print Assumptions C170_worst.
(** a candidate whose value is NaN is taken for the best and for the worst *)
Theorem C170_nan_refuted (enum : nat -> list nat -> list nat) (mu : list xval) (k : nat) (idx P : list nat) (i j : nat) : (forall k, enumerates (enum k)) ->
  best_greedy_x enum mu k idx P = Ok i \/ worst_greedy_x enum mu k idx P = Ok i -> In j idx -> nth_error mu j = Some XNaN -> nth_error mu i = Some XNaN.
Proof. exact (nan_taken enum mu k idx P i j). Qed.
Print Assumptions C170_nan_refuted.

(** ---- Examples ---- *)
Definition n (z : Z) : xval := XNum (inject_Z z).
Definition inf_rows : list (list xval) := [[n 1; XPInf]; [n 2; n 7]; [XNInf; XPInf]; [n 2; n 3]].
Example C170_infinite_ex : xrect 2 inf_rows /\ Forall complete inf_rows /\ get_pareto_x 5 inf_rows = Some [0; 1].
Proof. split; [repeat constructor|]. split; [repeat (constructor; [intros H; cbn in H; repeat (destruct H as [H|H]; [discriminate|]); exact H|]); constructor|]. vm_compute. reflexivity. Qed.
Example C170_later_ex : complete [n 1; n 1] /\ all_nan [XNaN; XNaN] /\ get_pareto_x 5 [[n 1; n 1]; [XNaN; XNaN]; [n 0; n 5]] = Some [0; 2].
Proof. split; [intros H; cbn in H; repeat (destruct H as [H|H]; [discriminate|]); exact H|]. split; [repeat constructor|]. vm_compute. reflexivity. Qed.
Example C170_first_ex : get_pareto_x 5 [[XNaN; XNaN]; [n 1; n 1]; [n 0; n 5]] = Some [0].
Proof. apply (C170_first_refuted [XNaN; XNaN]); [repeat constructor|lia]. Qed.
(** (0, 5) is on the front of the complete rows; it is lost behind (0, NaN), and kept when the same rows are listed in another order *)
Definition part_rows : list (list xval) := [[n 0; XNaN]; [n 0; n 5]; [n 1; n 1]].
Example C170_lost_ex : xfront part_rows 1 /\ (forall fuel l, get_pareto_x fuel part_rows = Some l -> ~ In 1 l) /\ get_pareto_x 5 part_rows = Some [2] /\ get_pareto_x 5 [[n 0; n 5]; [n 1; n 1]; [n 0; XNaN]] = Some [0; 1].
Proof.
  split; [|split; [|split; vm_compute; reflexivity]].
  - exists [n 0; n 5]. split; [reflexivity|]. split; [intros H; cbn in H; repeat (destruct H as [H|H]; [discriminate|]); exact H|]. split.
    + intros j p E H. destruct j as [|[|[|j]]]; cbn in E.
      * injection E as <-. inversion H as [|? ? ? ? A B]; subst. inversion B as [|? ? ? ? C D]; subst. destruct C.
      * injection E as <-. exact H.
      * injection E as <-. inversion H as [|? ? ? ? A B]; subst. inversion B as [|? ? ? ? C D]; subst. exfalso. revert C. unfold xle, n, Qle. cbn. lia.
      * destruct j; discriminate.
    + intros [|[|j]] p L E [H _]; try lia. cbn in E. injection E as <-. inversion H as [|? ? ? ? A B]; subst. inversion B as [|? ? ? ? C D]; subst. exact C.
  - intros fuel l H. apply (C170_lost_refuted [n 0; XNaN] [[n 0; n 5]; [n 1; n 1]] 0 [n 0; n 5] 2 fuel l); auto; [repeat constructor|]. intros [|[|j]] x y Ex Ey; cbn in *; [injection Ex as <-; injection Ey as <-; right; right; apply Qle_refl|injection Ey as <-; auto|destruct j; discriminate].
Qed.
Definition mu_ex : list xval := [n 3; XNaN; XPInf; n 7].
Example C170_select_ex : best_greedy_x (fun _ l => l) mu_ex 0 [0; 1; 2; 3] [] = Ok 1 /\ worst_greedy_x (fun _ l => l) mu_ex 0 [0; 1; 2; 3] [] = Ok 1 /\
  best_greedy_x (fun _ l => l) mu_ex 0 [0; 2; 3] [] = Ok 2 /\ worst_greedy_x (fun _ l => l) mu_ex 0 [0; 2; 3] [] = Ok 0 /\ (forall k : nat, enumerates ((fun (_ : nat) (l : list nat) => l) k)).
Proof. do 4 (split; [vm_compute; reflexivity|]). intros k l. apply Permutation_refl. Qed.
