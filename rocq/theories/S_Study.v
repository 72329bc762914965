(** Specification vocabulary for the measurement of accuracies on study data. *)
From Coq Require Import Reals ZArith List.
From Verif Require Import M_Base M_RBase M_Pareto M_Pairs M_Store M_Study.
Import ListNotations.
Local Open Scope R_scope.

(** [k] elements of the list have the property *)
Inductive counts {A} (Q : A -> Prop) : list A -> nat -> Prop :=
  | counts_nil : counts Q [] 0
  | counts_yes x l k : Q x -> counts Q l k -> counts Q (x :: l) (S k)
  | counts_no x l k : ~ Q x -> counts Q l k -> counts Q (x :: l) k.
(** [i] is the first option with the largest value *)
Definition top (mu : list R) (i : nat) : Prop :=
  (i < length mu)%nat /\ (forall j, (j < length mu)%nat -> nth j mu 0 <= nth i mu 0) /\ (forall j, (j < i)%nat -> nth j mu 0 < nth i mu 0).
(** [a] is the share of the choices that the values [g] predict *)
Definition accuracy {P} (g : list P -> list R) (es : list (sample P)) (a : R) : Prop :=
  exists k, counts (fun s => top (g (rewards s)) (preferred s)) es k /\ a = INR k / INR (length es).
(** what a choice says: the chosen option is better than each of the others *)
Definition choice {P} (s : sample P) : list pair :=
  map (fun j => ((-1)%Z, preferred s, j)) (filter (fun j => negb (Nat.eqb j (preferred s))) (seq 0 (length (rewards s)))).
(** a model whose predictions are determined by the data it holds: [obs] is the data held, [f] predicts from it, [plus] adds to it,
    [empty] removes all of it *)
Record honest {M P D} (predict : M -> list P -> result (M * list R)) (madd : M -> list P -> list pair -> result M) (mreset : M -> M)
    (obs : M -> D) (f : D -> list P -> list R) (plus : D -> list P -> list pair -> D) (empty : D -> D) : Prop := {
  hp : forall m X, exists m', predict m X = Ok (m', f (obs m) X) /\ obs m' = obs m;
  ha : forall m X y, exists m', madd m X y = Ok m' /\ obs m' = plus (obs m) X y;
  hr : forall m, obs (mreset m) = empty (obs m);
  he : forall d X y, empty (plus d X y) = empty d;
  hl : forall d X, length (f d X) = length X }.
(** every sample offers something *)
Definition offers {P} (es : list (sample P)) : Prop := es <> [] /\ forall s, In s es -> rewards s <> [].
(** the data after the training choices with the given numbers *)
Fixpoint after {P D} (plus : D -> list P -> list pair -> D) (tr : list (sample P)) (d : D) (order : list nat) : D :=
  match order with
  | [] => d
  | i :: order' => match nth_error tr i with Some s => after plus tr (plus d (rewards s) (choice s)) order' | None => d end
  end.
(** the accuracies of a run: entry [k] belongs to the model that has learned from the first [k] choices of the order *)
Definition run_accuracies {P D} (f : D -> list P -> list R) (plus : D -> list P -> list pair -> D) (d0 : D) (d : srun P) (order : list nat) (row : list (option R)) : Prop :=
  length row = S (length (train d)) /\
  (forall k, (k <= length order)%nat -> exists a, nth_error row k = Some (Some a) /\ accuracy (f (after plus (train d) d0 (firstn k order))) (evals d) a) /\
  (forall k, (length order < k <= length (train d))%nat -> nth_error row k = Some None).
(** the data of a store, without the flag of the fit; a store after [add] and after [reset] *)
Definition stored (s : M_Store.store) : M_Store.store := M_Store.set_opt s false.
Definition plus_store (s : M_Store.store) (X : list M_Pareto.row) (y : list pair) : M_Store.store := stored (fst (M_Store.add s X (M_Store.LRel y))).
Definition empty_store (s : M_Store.store) : M_Store.store := M_Store.init (M_Store.sPareto s).
(** spread of the mean over the rows of a matrix of accuracies, as a spec: root of the mean squared deviation, over the root of the number of rows *)
Definition spread (acc : list (list R)) (j : nat) : R :=
  let c := map (fun r => nth j r 0) acc in
  let n := INR (length acc) in
  let mu := rsum c / n in
  sqrt (rsum (map (fun x => (x - mu) * (x - mu)) c) / n) / sqrt n.
