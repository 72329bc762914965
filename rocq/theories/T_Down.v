(** C159: down-selection of the paths of a problem. *)
From Coq Require Import QArith.
From Verif Require Import M_Base M_Pareto S_Pareto M_Select M_Down S_Down P_Down.

(** the random, the hull and the mixed down-selection return exactly the configured number of paths of the problem, each at most once *)
Theorem C159_exact : forall (A : Type) (medoids : nat -> list A -> list nat) hull draw m num X,
  good_medoids medoids -> good_hull hull -> good_draw draw -> m = DUniform \/ m = DHull \/ m = DMedRand -> 2 <= num < length X ->
  exists l, down_select medoids hull draw m num X = Ok l /\ length l = num /\ subset_of X l.
Proof. intros A medoids hull draw m num X HM HH HD. exact (down_exact medoids hull draw HM HH HD m num X). Qed.
Print Assumptions C159_exact.
(** a problem with no more paths than the configured number is left alone *)
Theorem C159_small : forall (A : Type) (medoids : nat -> list A -> list nat) hull draw m num X,
  length X <= num -> down_select medoids hull draw m num X = Ok X.
Proof. exact @down_small. Qed.
Print Assumptions C159_small.
(** refuted: 'true' down-selects to the configured number; it gives 60 paths whatever the number is, and fails below 60 paths *)
Theorem C159_medoids_refuted : forall (A : Type) (medoids : nat -> list A -> list nat) hull draw num X, good_medoids medoids -> num < length X ->
  (60 <= length X -> exists l, down_select medoids hull draw DMedoids num X = Ok l /\ length l = 60 /\ subset_of X l) /\
  (length X < 60 -> down_select medoids hull draw DMedoids num X = Raise ValueError).
Proof. intros A medoids hull draw num X HM H. split; intro K; [now apply medoids_many|apply medoids_few; split; assumption]. Qed.
Print Assumptions C159_medoids_refuted.
(** refuted: the default argument down-selects; no problem is ever reduced *)
Theorem C159_default_refuted : forall (A : Type) (medoids : nat -> list A -> list nat) hull draw num X, down_select medoids hull draw DDefault num X = Ok X.
Proof. reflexivity. Qed.
Print Assumptions C159_default_refuted.
(** when the Pareto-optimal paths come first, their number as [prefer_pts] prefers exactly them *)
Theorem C159_preferred : forall dp (X : list row) n, 1 <= n -> (forall i, on_front X i <-> i < n) ->
  exists s, get_prefered_set_of_pts dp X (PrefInt (Z.of_nat n)) = Ok s /\ forall i, In i s <-> on_front X i.
Proof. exact first_preferred. Qed.
Print Assumptions C159_preferred.
(** refuted: the number still prefers Pareto-optimal paths after down-selection; here a dominated path is preferred although the optimal
    one is still there *)
Theorem C159_preferred_refuted : exists (X l : list row) (draw : nat -> nat -> list nat) s,
  (forall i, on_front X i <-> i < 1) /\ positions 3 2 (draw 3 2) /\
  down_select (fun _ _ => []) (fun _ => []) draw DUniform 2 X = Ok l /\ get_prefered_set_of_pts false l (PrefInt 1) = Ok s /\
  s = [0] /\ ~ on_front l 0 /\ on_front l 1.
Proof. exact preferred_moves. Qed.
Print Assumptions C159_preferred_refuted.

(** the hypotheses are met: medoids at the first positions, the first two rows as hull, draws of the last positions *)
Definition exMed (k : nat) (X : list nat) := seq 0 k.
Definition exHull (X : list nat) := seq 0 (min 2 (length X)).
Definition exDraw (n k : nat) := seq (n - k) k.
Example C159_exact_example : good_medoids exMed /\ good_hull exHull /\ good_draw exDraw /\
  down_select exMed exHull exDraw DUniform 3 [10; 11; 12; 13; 14] = Ok [12; 13; 14] /\
  down_select exMed exHull exDraw DHull 3 [10; 11; 12; 13; 14] = Ok [10; 11; 12] /\
  down_select exMed exHull exDraw DMedRand 3 [10; 11; 12; 13; 14] = Ok [10; 13; 14] /\
  (2 <= 3 < length [10; 11; 12; 13; 14]).
Proof.
  assert (P : forall n a k, a + k <= n -> positions n k (seq a k)).
  { intros n a k H. split; [apply seq_NoDup|]. split; [apply seq_length|]. apply Forall_forall. intros i Hi. apply in_seq in Hi. lia. }
  split; [intros k X H; apply P; lia|]. split; [intro X; unfold exHull; rewrite seq_length; apply P; lia|]. split; [intros n k H; apply P; lia|].
  repeat split; simpl; lia.
Qed.
Example C159_medoids_example : down_select exMed exHull exDraw DMedoids 50 (seq 0 55) = Raise ValueError /\
  exists l, down_select exMed exHull exDraw DMedoids 50 (seq 0 70) = Ok l /\ length l = 60.
Proof. split; [reflexivity|]. eexists. split; reflexivity. Qed.
Example C159_preferred_example : get_prefered_set_of_pts true [[1; 1]; [0; 0]; [-1; -1]]%Q (PrefInt 1) = Ok [0].
Proof. reflexivity. Qed.
