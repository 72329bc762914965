(** C164: [normalize_0_1] (training_utility.py) as it is computed, in double precision. *)
From Coq Require Import Reals ZArith Lra Lia List.
From Flocq Require Import Core.
From Verif Require Import M_Base M_RBase M_Float M_FloatProbit M_FloatNorm S_Float P_FloatNorm.
Import ListNotations.
Local Open Scope R_scope.

(** every output is a number in (0, 1], the order is never reversed and equal inputs get equal outputs *)
Theorem C164_range x eps : x <> [] -> (forall v, In v x -> Rabs v <= bpow radix2 900) -> bpow radix2 (-100) <= eps <= bpow radix2 900 ->
  exists f, normalize_fl b64 x eps = Ok (map (fun v => Fin (f v)) x) /\ (forall v, In v x -> 0 < f v <= 1) /\ (forall v w, In v x -> In w x -> v <= w -> f v <= f w).
Proof. exact (normalize_ok x eps). Qed.
Print Assumptions C164_range.
Example C164_range_ex : [3; -1; 3] <> [] /\ (forall v, In v [3; -1; 3] -> Rabs v <= bpow radix2 900) /\ bpow radix2 (-100) <= bpow radix2 (-13) <= bpow radix2 900.
Proof.
  split; [discriminate|]. assert (B : bpow radix2 2 <= bpow radix2 900) by (apply bpow_le; lia). change (bpow radix2 2) with 4 in B. split; [|split; apply bpow_le; lia].
  intros v [<-|[<-|[<-|[]]]]; [rewrite Rabs_right|rewrite Rabs_left|rewrite Rabs_right]; lra.
Qed.
(** the output is not strictly inside (0, 1): the largest reward can become exactly 1, whatever the margin *)
Theorem C164_inside_refuted eps : 0 < eps <= 1 -> exists o, normalize_fl b64 [0; bpow radix2 60] eps = Ok [o; Fin 1].
Proof. exact (reaches_one eps). Qed.
Print Assumptions C164_inside_refuted.
Example C164_inside_ex : 0 < / 10000 <= 1. Proof. lra. Qed.
(** different inputs can get the same output *)
Theorem C164_distinct_refuted : let eps := bpow radix2 (-13) in exists o o', 0 < bpow radix2 (-70) < 1 /\ normalize_fl b64 [0; bpow radix2 (-70); 1] eps = Ok [o; o; o'].
Proof. exact merges'. Qed.
Print Assumptions C164_distinct_refuted.
(** a range beyond the largest double makes the largest reward NaN *)
Theorem C164_finite_refuted eps : 0 < eps <= 1 -> exists o, normalize_fl b64 [- bpow radix2 1023; bpow radix2 1023] eps = Ok [o; NaN].
Proof. exact (overflows eps). Qed.
Print Assumptions C164_finite_refuted.
Example C164_finite_ex : 0 < / 10000 <= 1. Proof. lra. Qed.
