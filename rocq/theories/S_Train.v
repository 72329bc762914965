(** Specification vocabulary for training runs: which queries were asked and what must be on record afterwards. *)
From Verif Require Import M_Base M_Pareto M_Store S_Store.

(** a query: the rows shown, the position of the row chosen, and rows stored without being shown *)
Record query := mkQuery { q_shown : list row; q_choice : nat; q_rest : list row }.
Definition asked_points (qs : list query) : list row := concat (map (fun q => q_shown q ++ q_rest q) qs).
(** the chosen row wins against every other row shown; [off] points are stored before *)
Definition won (off : nat) (q : query) : list (Z * nat * nat) :=
  map (fun j => ((-1)%Z, off + q_choice q, off + j)) (filter (fun j => negb (Nat.eqb j (q_choice q))) (seq 0 (length (q_shown q)))).
Fixpoint asked_pairs (off : nat) (qs : list query) : list (Z * nat * nat) :=
  match qs with
  | [] => []
  | q :: qs' => won off q ++ asked_pairs (off + length (q_shown q ++ q_rest q)) qs'
  end.
(** a pair says that its first point is at least as useful as its second *)
Definition agrees (u : row -> Q) (X : list row) (p : Z * nat * nat) : Prop :=
  let '(d, a, b) := p in d = (-1)%Z /\ exists x y, nth_error X a = Some x /\ nth_error X b = Some y /\ (u y <= u x)%Q.
(** more of every objective is not worse *)
Definition respects_domination (u : row -> Q) : Prop := forall a b, dominates a b -> (u b <= u a)%Q.
(** the first position of a largest value *)
Definition first_best (u : row -> Q) (X : list row) (b : nat) : Prop :=
  exists x, nth_error X b = Some x /\ (forall y, In y X -> (u y <= u x)%Q) /\
    forall j y, j < b -> nth_error X j = Some y -> (u y < u x)%Q.
(** the answer that never errs *)
Definition never_errs (u : row -> Q) (choose : nat -> list row -> result nat) : Prop :=
  forall i X b, choose i X = Ok b -> first_best u X b.
(** selections that point into the problem and are not empty *)
Definition selects_from (select : store -> list row -> result (list nat * list nat)) : Prop :=
  forall s X, 2 <= length X -> exists sel rest, select s X = Ok (sel, rest) /\ sel <> [] /\ Forall (fun i => i < length X) sel /\ Forall (fun i => i < length X) rest.
