(** Specification vocabulary for learners that mix rating and pair queries. *)
From Verif Require Import M_Base M_Store M_Mixed.
From Coq Require Import Reals.

(** number of answered queries since the model was last attached: a query is answered when both inner learners answer *)
Definition answered (c : scall) : bool := match c with Ask (Ok _) (Ok _) => true | _ => false end.
Fixpoint since_attach (h : list scall) : list scall :=
  match h with
  | [] => []
  | c :: h' => if existsb (fun c => match c with Attach => true | _ => false end) h' then since_attach h'
               else match c with Attach => h' | _ => h end
  end.
Definition answered_since_attach (h : list scall) : nat := length (filter answered (since_attach h)).

(** probability mass on ratings that never leaves [0,1] *)
Definition is_prob (p : R) : Prop := (0 <= p <= 1)%R.
(** parameters for which the variant is meant *)
Definition good_param (s : strategy) : Prop :=
  match s with SBase p | SRevPeak p => is_prob p | SPeak3 p => (0 <= p)%R | _ => True end.

(** no attach in a list of calls *)
Definition no_attach (h : list dcall) : Prop := forall c, In c h -> c <> DAttach.
Definition evaluation (n : nat) : Prop := n = 5 \/ n = 10 \/ n = 15.

(** two points agree in some coordinate *)
Definition share_coordinate (x y : list Q) : Prop :=
  exists i a b, nth_error x i = Some a /\ nth_error y i = Some b /\ (a == b)%Q.

(** inputs of the examples: a call in which pairs score 5 and ratings 1, and a fitted model with a pair and a rating *)
Definition ask65 : dcall := DAsk (mkIn 1 (Ok [0; 1]) (Ok [2; 3]) (Ok [4]) (Ok [4]) (Ok tt) 5 1).
Definition m66 : model := mrun (new_model true false)
  [MStore (OAdd [[1#1]; [2#1]]%Q (LRel [(1%Z, 0, 1)])); MStore (OAdd [[3#1]]%Q (LAbs [1#2]%Q)); MOptimize Fits].
(** the chance of a rating in the call after [n] answered ones, while a decision learner is undecided: the first learner starts with
    comparisons, peaks at ratings and decays, the second starts with ratings and settles at its parameter *)
Definition undecided_chance (second : bool) (p : R) (n : nat) : R :=
  (if second then match n with 0%nat => 9/10 | 1%nat => 1/10 | _ => p end
   else match n with 0%nat => 1/10 | 1%nat => 1/2 | 2%nat => 9/10 | _ => 9/10 * exp ((2 - INR n) * p) end)%R.
(** ... and in every mode: undecided, ratings, comparisons *)
Definition rating_chance (second : bool) (p : R) (n mode : nat) : R :=
  match mode with 0%nat => undecided_chance second p n | 1%nat => 95/100 | _ => 5/100 end%R.
