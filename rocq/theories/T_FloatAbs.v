(** C174: ratings in double precision. *)
From Coq Require Import Reals ZArith Lra Lia List.
From Flocq Require Import Core.
From Verif Require Import M_Base M_RBase M_Float M_FloatProbit M_FloatAbs S_Float S_FloatProbit S_FloatAbs P_RBase P_Float P_FloatProbit P_FloatAbs T_Float.
Import ListNotations.
Local Open Scope R_scope.

(** Whatever the value of the point, both parameters of the Beta distribution are positive numbers, not below 9.7e-11 times v, and they add up to v but for one rounding. *)
Theorem C174_parameters : forall s v f, bpow radix2 (-400) <= s <= bpow radix2 400 -> bpow radix2 (-400) <= v <= bpow radix2 400 ->
  exists a b, alpha_fl b64 s v f = Fin a /\ beta_fl b64 s v f = Fin b /\ v * (97 / 1000000000000) <= a <= v /\ v * (97 / 1000000000000) <= b <= v /\ Rabs (a + b - v) <= v * bpow radix2 (-53).
Proof. exact params_ok. Qed.
Print Assumptions C174_parameters.

(** Numbers between 0 and 1 are accepted as ratings and stored strictly inside. *)
Theorem C174_stored : forall v, (forall x, In x v -> unit_fin x) -> exists r, check_ratings_fl b64 v = Ok r /\ length r = length v /\ forall x, In x r -> inside x.
Proof. exact ratings_clamped. Qed.
Print Assumptions C174_stored.
Example C174_stored_ex : exists r, check_ratings_fl b64 [Fin 0; Fin (1 / 2); Fin 1] = Ok r /\ length r = 3%nat /\ forall x, In x r -> inside x.
Proof. apply C174_stored. intros x [<-|[<-|[<-|[]]]]; eexists; (split; [reflexivity|lra]). Qed.

(** Derivatives and log likelihood of stored ratings are numbers. *)
Theorem C174_finite : forall sp s v f, regular sp -> bpow radix2 (-100) <= s <= bpow radix2 100 -> bpow radix2 (-60) <= v <= bpow radix2 60 -> (forall i, Rabs (f i) <= bpow radix2 100) ->
  forall sm y, sums b64 sm -> y <> [] -> (Z.of_nat (length y) <= 2 ^ 53)%Z -> (forall p, In p y -> inside (fst p)) ->
  let '(W, g, l) := abs_derivatives_fl b64 sm sp s v y f in (forall i j, finite (W i j)) /\ (forall i, finite (g i)) /\ finite l.
Proof. exact ratings_finite. Qed.
Print Assumptions C174_finite.

(** 70 standard deviations away from zero a rating has neither gradient nor curvature, whatever it says. *)
Theorem C174_pull_refuted : forall sp s v f, regular sp -> bpow radix2 (-100) <= s <= bpow radix2 100 -> bpow radix2 (-60) <= v <= bpow radix2 60 -> (forall i, Rabs (f i) <= bpow radix2 100) ->
  forall sm y, (forall p, In p y -> inside (fst p)) -> (forall p, In p y -> 70 * s <= Rabs (f (snd p))) ->
  let '(W, g, l) := abs_derivatives_fl b64 sm sp s v y f in (forall i j, W i j = Fin 0) /\ (forall i, g i = Fin 0).
Proof. exact ratings_flat. Qed.
Print Assumptions C174_pull_refuted.

(** Missing ratings pass the check of the data store. *)
Theorem C174_missing_stored_refuted : forall v, (forall x, In x v -> x = NaN \/ unit_fin x) -> In NaN v -> exists r, check_ratings_fl b64 v = Ok r /\ length r = length v /\ In NaN r.
Proof. exact ratings_missing. Qed.
Print Assumptions C174_missing_stored_refuted.
Example C174_missing_ex : exists r, check_ratings_fl b64 [Fin 1; NaN] = Ok r /\ length r = 2%nat /\ In NaN r.
Proof. apply C174_missing_stored_refuted; [|right; left; reflexivity]. intros x [<-|[<-|[]]]; [right; exists 1; split; [reflexivity|lra]|now left]. Qed.
(** One of them makes the gradient and the curvature of its point and the log likelihood of all ratings missing. *)
Theorem C174_missing_refuted : forall sm sp s v y i f, sums b64 sm -> regular sp ->
  let '(W, g, l) := abs_derivatives_fl b64 sm sp s v (y ++ [(NaN, i)]) f in W i i = NaN /\ g i = NaN /\ l = NaN.
Proof. exact ratings_nan. Qed.
Print Assumptions C174_missing_refuted.

(** functions of the sizes asked for: minus the inverse for digamma, the inverse for polygamma *)
Definition ex_sp : special_fl := mkSpecialFl (fun a => fneg (fdiv b64 (Fin 1) a)) (fun a => fdiv b64 (Fin 1) a) (fun x _ _ => match x with NaN => NaN | _ => Fin 0 end).
Lemma ex_inv x : bpow radix2 (-100) <= x <= bpow radix2 100 -> exists r, fdiv b64 (Fin 1) (Fin x) = Fin r /\ Rabs r <= bpow radix2 101.
Proof.
  intro H. assert (P := bpow_gt_0 radix2 (-100)). cbn [fdiv]. destruct (Req_EM_T x 0); [lra|].
  assert (I : 0 <= 1 / x <= bpow radix2 100). { split; [apply Rlt_le, Rdiv_lt_0_compat; lra|]. unfold Rdiv. rewrite Rmult_1_l. change 100%Z with (- (-100))%Z. rewrite bpow_opp. apply Rinv_le_contravar; lra. }
  destruct (rnd_scaled (1 / x) 1 100 ltac:(lia) ltac:(lia)) as [-> B]; [rewrite Rabs_right; lra|]. eexists. split; [reflexivity|]. assert (bpow radix2 100 <= bpow radix2 101) by (apply bpow_le; lia). lra.
Qed.
Example C174_regular_ex : regular ex_sp.
Proof.
  assert (M : bpow radix2 101 <= bpow radix2 201) by (apply bpow_le; lia). split; [|split; [|split]].
  - intros x H. destruct (ex_inv x H) as [r [E B]]. exists (- r). cbn [dg ex_sp]. rewrite E. split; [reflexivity|]. now rewrite Rabs_Ropp.
  - intros x H. destruct (ex_inv x H) as [r [E B]]. exists r. cbn [tg ex_sp]. rewrite E. split; [reflexivity|lra].
  - reflexivity.
  - intros x a b _ _ _. exists 0. split; [reflexivity|]. rewrite Rabs_R0. assert (Q := bpow_gt_0 radix2 201). lra.
Qed.
Lemma ex_one : bpow radix2 (-100) <= 1 <= bpow radix2 100 /\ bpow radix2 (-60) <= 80 <= bpow radix2 60 /\ 100 <= bpow radix2 100.
Proof.
  assert (A : bpow radix2 (-100) <= 1) by (change 1 with (bpow radix2 0); apply bpow_le; lia). assert (B : bpow radix2 7 <= bpow radix2 60) by (apply bpow_le; lia). assert (C : bpow radix2 60 <= bpow radix2 100) by (apply bpow_le; lia). assert (D : bpow radix2 (-60) <= 1) by (change 1 with (bpow radix2 0); apply bpow_le; lia).
  change (bpow radix2 7) with 128 in B. lra.
Qed.
Lemma ex_half : inside (Fin (1 / 2)).
Proof. exists (1 / 2). split; [reflexivity|]. assert (A : bpow radix2 (-50) <= bpow radix2 (-1)) by (apply bpow_le; lia). change (bpow radix2 (-1)) with (/ 2) in A. lra. Qed.
(** the default sigma = 1 and v = 80; the second point is rated a half although its value is -100 *)
Example C174_finite_ex : let '(W, g, l) := abs_derivatives_fl b64 right_sum ex_sp 1 80 [(Fin (1 / 2), 0%nat); (Fin (1 / 2), 1%nat)] (fun i => match i with O => 3 | _ => -100 end) in
  (forall i j, finite (W i j)) /\ (forall i, finite (g i)) /\ finite l.
Proof.
  destruct ex_one as [A [B C]]. apply C174_finite; auto using C174_regular_ex, C152_sums_example; [|discriminate|cbn; lia|intros p [<-|[<-|[]]]; apply ex_half].
  intros [|i]; [rewrite Rabs_right; lra|rewrite Rabs_left; lra].
Qed.
Example C174_pull_ex : let '(W, g, l) := abs_derivatives_fl b64 right_sum ex_sp 1 80 [(Fin (1 / 2), 1%nat)] (fun i => match i with O => 3 | _ => -100 end) in
  (forall i j, W i j = Fin 0) /\ (forall i, g i = Fin 0).
Proof.
  destruct ex_one as [A [B C]]. apply C174_pull_refuted; auto using C174_regular_ex; [|intros p [<-|[]]; apply ex_half|intros p [<-|[]]; cbn [snd]; rewrite Rabs_left; lra].
  intros [|i]; [rewrite Rabs_right; lra|rewrite Rabs_left; lra].
Qed.
Example C174_parameters_ex : exists a b, alpha_fl b64 1 80 (-100) = Fin a /\ beta_fl b64 1 80 (-100) = Fin b /\ 80 * (97 / 1000000000000) <= a <= 80 /\ 80 * (97 / 1000000000000) <= b <= 80 /\ Rabs (a + b - 80) <= 80 * bpow radix2 (-53).
Proof.
  destruct ex_one as [A [B _]]. assert (bpow radix2 (-400) <= bpow radix2 (-100)) by (apply bpow_le; lia). assert (bpow radix2 (-400) <= bpow radix2 (-60)) by (apply bpow_le; lia). assert (bpow radix2 60 <= bpow radix2 400) by (apply bpow_le; lia). assert (bpow radix2 100 <= bpow radix2 400) by (apply bpow_le; lia).
  apply C174_parameters; lra.
Qed.
