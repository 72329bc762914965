(** Specification vocabulary for acquisition learners. *)
From Coq Require Import List Sorted.
From Verif Require Import S_Psd.
Import ListNotations.
Local Open Scope R_scope.

(** the forms [c] whose weights cancel see a non-negative value *)
Definition conditionally_psd (n : nat) (A : nat -> nat -> R) : Prop := forall c, sumn n c = 0 -> 0 <= qform n A c.
(** average over all ordered pairs of samples *)
Definition mean_entry (n : nat) (A : nat -> nat -> R) : R := sumn n (fun i => sumn n (A i)) / (INR n * INR n).
(** the answers to every query have positive probabilities that sum to one *)
Definition answer_probabilities (M : nat) (p : nat -> nat -> nat -> R) (a b : nat) : Prop :=
  forall k, (k < M)%nat -> 0 < p k a b /\ 0 < p k b a /\ p k a b + p k b a = 1.
(** not all entries are equal *)
Definition not_constant (r : list R) : Prop := exists x y, In x r /\ In y r /\ x <> y.
(** textbook correlation coefficient of two vectors of the same length *)
Definition average (x : list R) : R := rsum x / INR (length x).
Fixpoint comoment (ma mb : R) (x y : list R) : R :=
  match x, y with a :: x', b :: y' => (a - ma) * (b - mb) + comoment ma mb x' y' | _, _ => 0 end.
Definition pearson (x y : list R) : R :=
  comoment (average x) (average y) x y / sqrt (comoment (average x) (average x) x x * comoment (average y) (average y) y y).
(** [g] keeps the strict order of the entries of [r] *)
Definition increasing_on (r : list R) (g : R -> R) : Prop := forall x y, In x r -> In y r -> x < y -> g x < g y.
(** entry of a matrix given by rows *)
Definition mentry (m : list (list R)) (i j : nat) : R := nth j (nth i m []) 0.
(** [x k] is the chance of one answer under sample k: chance of the answer, the samples after hearing it, and the alignment of two
    samples drawn after hearing it *)
Definition answer_chance (M : nat) (x : nat -> R) : R := sumn M x / INR M.
Definition posterior (M : nat) (x : nat -> R) (i : nat) : R := x i / sumn M x.
Definition posterior_alignment (M : nat) (f : nat -> nat -> R) (x : nat -> R) : R :=
  sumn M (fun i => sumn M (fun j => posterior M x i * posterior M x j * f i j)).
(** a sample that wins the pair (a, b) with chance [L a b] picks the alternative [q] of the query [Q] with a chance proportional to the
    product of its wins *)
Definition wins_all (L : nat -> nat -> R) (Q : list nat) (q : nat) : R :=
  fold_right Rmult 1 (map (fun j => L (nth q Q 0%nat) (nth j Q 0%nat)) (filter (fun j => negb (Nat.eqb j q)) (seq 0 (length Q)))).
Definition choice_chance (L : nat -> nat -> R) (Q : list nat) (q : nat) : R :=
  wins_all L Q q / sumn (length Q) (wins_all L Q).
(** representative points come from the training points, and from the candidates too while there are fewer than four *)
Definition pool {A} (X cand : list A) : list A := if Nat.ltb (length X) 4 then X ++ cand else X.
(** an ascending query of [k] points inside the environment [e], with [per] points each *)
Definition in_environment (per k e : nat) (q : list nat) : Prop :=
  length q = k /\ StronglySorted lt q /\ Forall (fun x => e * per <= x < (e + 1) * per)%nat q.
(** rows of one length, none constant *)
Definition proper_rows (d : nat) (rows : list (list R)) : Prop := forall r, In r rows -> length r = d /\ not_constant r.
(** the number of alternatives of a query of a selector that shows [num_alts] points, if it says so: at least two *)
Definition shown (num_alts : option nat) : nat := match num_alts with None => 2%nat | Some k => Nat.max 2 k end.
