(** Specification vocabulary for the optimisation loops. *)
From Verif Require Import M_RBase.
Local Open Scope R_scope.

(** nearest point of an interval *)
Definition clamp (lo hi m : R) : R := Rmax lo (Rmin hi m).
Definition concave (f : R -> R) : Prop := forall x y t, 0 <= t <= 1 -> t * f x + (1 - t) * f y <= f (t * x + (1 - t) * y).
(** strictly rising up to [m] and strictly falling after it, on [lo,hi]; every strictly concave function is of this form *)
Definition unimodal (f : R -> R) (lo hi m : R) : Prop :=
  lo <= m <= hi /\ (forall x y, lo <= x -> x < y -> y <= m -> f x < f y) /\ (forall x y, m <= x -> x < y -> y <= hi -> f y < f x).
(** order of values that may be minus infinity *)
Definition ole (x y : option R) : Prop := match x, y with None, _ => True | Some _, None => False | Some a, Some b => a <= b end.

(** [v] is the value after [n] updates starting from [v0] *)
Inductive after {V} (upd : nat -> V -> result V) (v0 : V) : nat -> V -> Prop :=
| after_0 : after upd v0 0 v0
| after_S : forall n v v', after upd v0 n v -> upd n v = Ok v' -> after upd v0 (S n) v'.
(** a loop that stops: it never runs out of fuel by itself, an exception comes from an update, and a returned pair (n, v) is
    the value after n updates, before which no update was small *)
Definition stops {V} (upd : nat -> V -> result V) (far : V -> V -> bool) (v0 : V) (limit : nat) (r : result (nat * V)) : Prop :=
  match r with
  | Ok (n, v) => (n <= limit)%nat /\ after upd v0 n v /\
                 (forall i a b, (S i < n)%nat -> after upd v0 i a -> after upd v0 (S i) b -> far b a = true)
  | Raise e => exists n v, (n < limit)%nat /\ after upd v0 n v /\ upd n v = Raise e
  end.

(** state and gradients (newest first) after [n] gradient steps *)
Fixpoint steps {St} (grad : St -> list R) (move : St -> list R -> St) (n : nat) (s : St) : St * list (list R) :=
  match n with
  | O => (s, [])
  | S n' => let '(s', gs) := steps grad move n' s in (move s' (grad s'), grad s' :: gs)
  end.
(** the average of the four newest gradients is shorter than 0.3 *)
Definition settled (d : nat) (gs : list (list R)) : Prop :=
  exists a b c e rest, gs = a :: b :: c :: e :: rest /\
    rsum (map (fun i => ((nth i a 0 + nth i b 0 + nth i c 0 + nth i e 0) / 4) ^ 2) (seq 0 d)) < (3 / 10) ^ 2.
