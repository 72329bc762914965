(** Specification vocabulary for random prior points. *)
From Verif Require Import M_Base M_Pareto.
Local Open Scope Q_scope.

(** a box with an inside *)
Definition proper_box (bounds : list (Q * Q)) : Prop := bounds <> [] /\ Forall (fun b => fst b < snd b) bounds.
Definition in_box (bounds : list (Q * Q)) (x : row) : Prop := Forall2 (fun b v => fst b <= v <= snd b) bounds x.
(** results of numpy.random.random *)
Definition unit_draws (k : nat) (draws : list row) : Prop := Forall (fun u => length u = k /\ Forall (fun x => 0 <= x < 1) u) draws.
