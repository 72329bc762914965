(** Specification vocabulary for the numeric helpers. *)
From Verif Require Import M_RBase.
Local Open Scope R_scope.

(** a vector of strictly positive numbers that sum to one *)
Definition distribution (l : list R) : Prop := (forall x, In x l -> 0 < x) /\ rsum l = 1.
(** the Luce-Shepard rule: probabilities proportional to exp (p * reward) *)
Definition luce (p : R) (r out : list R) : Prop :=
  length out = length r /\ distribution out /\
  forall i j a b pa pb, nth_error r i = Some a -> nth_error r j = Some b -> nth_error out i = Some pa -> nth_error out j = Some pb ->
    pa = pb * exp (p * (a - b)).

(** one step of a Metropolis chain *)
Definition mh_step {X} (ll : X -> option R) (cur prop next : X) (u : R) : Prop :=
  match ll cur, ll prop with
  | Some a, Some b => (a <= b -> next = prop) /\ (u < exp (b - a) -> next = prop) /\ (exp (b - a) <= u -> next = cur)
  | Some _, None => next = cur
  | None, Some _ => next = prop
  | None, None => next = cur
  end.
