(** C163: the comparison probit in binary64 arithmetic. *)
From Coq Require Import Reals ZArith Lra Lia List.
From Flocq Require Import Core.
From Verif Require Import M_Base M_RBase M_PrefProbit M_Float M_FloatProbit S_Float S_FloatProbit P_Float P_FloatProbit P_FloatProbit2 P_FloatProbit3 T_Float.
Import ListNotations.
Local Open Scope R_scope.

(** the ratio of density and distribution function is a number for every argument, so its guards for infinity are never used *)
Theorem C163_ratio : forall z, exists r r2, ratio_fl b64 (Fin z) = (Fin r, Fin r2) /\ 0 <= r <= 4096 /\ 0 <= r2.
Proof. intro z. destruct (ratio_ok z) as [r [r2 [E [B [B2 _]]]]]. exists r, r2. repeat split; try assumption; apply B || apply B2. Qed.
Print Assumptions C163_ratio.
(** gradient, W and log likelihood of up to 2^40 comparisons are numbers, for all latent values up to 2^500 *)
Theorem C163_finite : forall sm s y f, sums b64 sm -> y <> [] -> (Z.of_nat (length y) <= 2 ^ 40)%Z -> Forall sign y ->
  bpow radix2 (-400) <= s <= bpow radix2 400 -> (forall i, Rabs (f i) <= bpow radix2 500) ->
  (forall i, finite (derv_fl b64 s y f i)) /\ (forall i j, finite (W_fl b64 s y f i j)) /\
  exists x, log_likelihood_fl b64 sm s y f = Fin x /\ -512 * INR (length y) <= x <= 0.
Proof.
  intros sm s y f SM NE HL Hy Hs Hf. split; [|split]; [intros; now apply derv_finite|intros; now apply W_finite|now apply loglik_finite].
Qed.
Print Assumptions C163_finite.
(** refuted: violated comparisons pull.  If all are violated by 1000 standard deviations, gradient and W are exactly zero *)
Theorem C163_pull_refuted : forall sm s y f, sums b64 sm -> y <> [] -> (Z.of_nat (length y) <= 2 ^ 40)%Z -> Forall sign y ->
  bpow radix2 (-400) <= s <= bpow radix2 400 -> (forall i, Rabs (f i) <= bpow radix2 500) ->
  (forall p, In p y -> dk_of p * (f (v_of p) - f (u_of p)) <= - (1000 * s)) ->
  (forall i, derv_fl b64 s y f i = Fin 0) /\ (forall i j, W_fl b64 s y f i j = Fin 0) /\ exists x, log_likelihood_fl b64 sm s y f = Fin x /\ x <= -450.
Proof.
  intros sm s y f SM NE HL Hy Hs Hf HV. split; [|split]; [intros; now apply no_pull|intros; now apply no_curvature|now apply loglik_low].
Qed.
Print Assumptions C163_pull_refuted.
(** refuted for every positive noise: the smallest one gives NaN at the starting point of equal values *)
Theorem C163_sigma_refuted : exists s, 0 < s /\ derv_fl b64 s [(1%Z, 0%nat, 1%nat)] (fun _ => 0) 0%nat = NaN.
Proof. exists (bpow radix2 (-1074)). exact tiny_sigma. Qed.
Print Assumptions C163_sigma_refuted.

(** ---- examples ---- *)
Definition ex_f (i : nat) : R := match i with O => 5000 | _ => 0 end.
Definition ex_y : list pair := [(1%Z, 0%nat, 1%nat); ((-1)%Z, 2%nat, 0%nat)].
Lemma ex_f_small i : Rabs (ex_f i) <= bpow radix2 500.
Proof. apply Rle_trans with (bpow radix2 13); [|apply bpow_le; lia]. change (bpow radix2 13) with 8192. destruct i; cbn; [rewrite Rabs_right|rewrite Rabs_R0]; lra. Qed.
Lemma ex_s : bpow radix2 (-400) <= 1 <= bpow radix2 400.
Proof. change 1 with (bpow radix2 0). split; apply bpow_le; lia. Qed.
Lemma ex_y_sign : Forall sign ex_y.
Proof. constructor; [left; reflexivity|constructor; [right; reflexivity|constructor]]. Qed.
(** two comparisons, both violated *)
Example C163_ex : exists x, log_likelihood_fl b64 right_sum 1 ex_y ex_f = Fin x /\ x <= -450 /\ forall i, derv_fl b64 1 ex_y ex_f i = Fin 0.
Proof.
  destruct (C163_pull_refuted right_sum 1 ex_y ex_f C152_sums_example ltac:(discriminate) ltac:(cbn; lia) ex_y_sign ex_s ex_f_small) as [D [_ [x [E L]]]]; [|exists x; auto].
  intros p [<-|[<-|[]]]; unfold dk_of, u_of, v_of; cbn; lra.
Qed.
