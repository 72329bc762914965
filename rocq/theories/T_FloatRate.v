(** Property C189: ratings of synthetic users in double precision. *)
From Coq Require Import Reals ZArith Lra Lia List Bool.
From Flocq Require Import Core.
From Verif Require Import M_Base M_RBase M_User M_Float M_FloatProbit M_FloatAbs M_FloatRate S_Float S_FloatAbs P_RBase P_Float P_FloatRate T_FloatAbs.
Import ListNotations.
Local Open Scope R_scope.

(** ratings are numbers between 0 and 1 in the order of the utilities, whatever the magnitudes *)
Theorem C189_order : forall k b x y, 0 <= k -> exists v w, sigmoid_fl b64 k b (Fin x) = Fin v /\ sigmoid_fl b64 k b (Fin y) = Fin w /\ 0 <= v <= 1 /\ 0 <= w <= 1 /\ (x <= y -> v <= w).
Proof. exact rating_ok. Qed.
Print Assumptions C189_order.
(** the same for noisy ratings with the same noise, also where the noise overflows *)
Theorem C189_human : forall s y y' z, exists v w, human_rate_fl b64 s y z = Fin v /\ human_rate_fl b64 s y' z = Fin w /\ 0 <= v <= 1 /\ 0 <= w <= 1 /\ (y <= y' -> v <= w).
Proof. exact human_ok. Qed.
Print Assumptions C189_human.
(** the exact value up to 2^-46 *)
Theorem C189_accurate : forall k x, exists v, sigmoid_fl b64 k 0 (Fin x) = Fin v /\ Rabs (v - sigmoid k 0 x) <= bpow radix2 (-46).
Proof. exact rating_near. Qed.
Print Assumptions C189_accurate.
(** so the ratings of both kinds of users are the exact ones up to 2^-44 *)
Theorem C189_users : forall s y z, (exists v, perfect_rate_fl b64 y = Fin v /\ Rabs (v - sigmoid 4 0 y) <= bpow radix2 (-46)) /\
  (Rabs y + Rabs (s * z) <= 60 -> exists v, human_rate_fl b64 s y z = Fin v /\ Rabs (v - sigmoid 1 0 (y + s * z)) <= bpow radix2 (-44)).
Proof. exact users_near. Qed.
Print Assumptions C189_users.
(** clearly different good options get the same rating one, which no exact rating is *)
Theorem C189_best_refuted : forall k x y, 54 <= k * x -> 54 <= k * y -> k * x < k * y ->
  sigmoid_fl b64 k 0 (Fin x) = Fin 1 /\ sigmoid_fl b64 k 0 (Fin y) = Fin 1 /\ sigmoid k 0 x < sigmoid k 0 y < 1.
Proof. exact rating_tied. Qed.
Print Assumptions C189_best_refuted.
(** bad options get the rating zero *)
Theorem C189_worst_refuted : forall k x, k * x <= -1100 -> sigmoid_fl b64 k 0 (Fin x) = Fin 0 /\ 0 < sigmoid k 0 x.
Proof. exact rating_nought. Qed.
Print Assumptions C189_worst_refuted.

(** ---- Examples ---- *)
Example C189_perfect_ex : exists v, perfect_rate_fl b64 0 = Fin v /\ Rabs (v - 1 / 2) <= bpow radix2 (-46).
Proof.
  destruct (C189_accurate 4 0) as [v [E B]]. exists v. split; [exact E|]. unfold sigmoid in B. rewrite Rmult_0_r, Rplus_0_r, Ropp_0, exp_0 in B. replace (1 / (1 + 1)) with (1 / 2) in B by field. exact B.
Qed.
Example C189_tied_ex : perfect_rate_fl b64 20 = perfect_rate_fl b64 30 /\ sigmoid 4 0 20 < sigmoid 4 0 30 /\ perfect_rate_fl b64 (-300) = Fin 0.
Proof.
  destruct (C189_best_refuted 4 20 30) as [A [B C]]; [lra|lra|lra|]. destruct (C189_worst_refuted 4 (-300)) as [D _]; [lra|]. unfold perfect_rate_fl. rewrite A, B. split; [reflexivity|]. split; [apply C|exact D].
Qed.
Example C189_human_ex : exists v w, human_rate_fl b64 (1 / 2) 1 3 = Fin v /\ human_rate_fl b64 (1 / 2) 2 3 = Fin w /\ v <= w.
Proof. destruct (C189_human (1 / 2) 1 2 3) as [v [w [A [B [_ [_ C]]]]]]. exists v, w. split; [exact A|]. split; [exact B|]. apply C. lra. Qed.
(** such ratings can be stored *)
Example C189_stored_ex : exists r, check_ratings_fl b64 (map (perfect_rate_fl b64) [-300; 0; 30]) = Ok r /\ length r = 3%nat /\ forall x, In x r -> inside x.
Proof.
  destruct (C174_stored (map (perfect_rate_fl b64) [-300; 0; 30])) as [r H]; [|exists r; exact H].
  intros x Hx. apply in_map_iff in Hx. destruct Hx as [y [<- _]]. destruct (C189_order 4 0 y y) as [v [_ [A [_ [B _]]]]]; [lra|]. exists v. split; [exact A|exact B].
Qed.
Example C189_users_ex : exists v, human_rate_fl b64 (1 / 2) 1 (-2) = Fin v /\ Rabs (v - 1 / 2) <= bpow radix2 (-44).
Proof.
  destruct (C189_users (1 / 2) 1 (-2)) as [_ H]. destruct H as [v [E B]]; [rewrite Rabs_R1; rewrite Rabs_left by lra; lra|]. exists v. split; [exact E|].
  replace (sigmoid 1 0 (1 + 1 / 2 * -2)) with (1 / 2) in B; [exact B|]. unfold sigmoid. replace (- (1 * (1 + 1 / 2 * -2) + 0)) with 0 by lra. rewrite exp_0. field.
Qed.
