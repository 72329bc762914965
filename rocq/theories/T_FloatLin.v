(** C173: the fit of the linear model in double precision. *)
From Coq Require Import Reals ZArith Lra Lia List.
From Flocq Require Import Core.
From Verif Require Import M_Base M_RBase M_PrefProbit M_Float M_FloatProbit M_FloatLin S_Float S_FloatProbit S_FloatLin P_Float P_FloatProbit P_FloatLin T_Float.
Import ListNotations.
Local Open Scope R_scope.

(** Values at most 40 standard deviations apart: the derivative by the value of the second point of the label has the sign of the label, and is not zero. *)
Theorem C173_pull : forall s f p, bpow radix2 (-400) <= s <= bpow radix2 100 -> (forall i, Rabs (f i) <= bpow radix2 500) -> sign p ->
  Rabs (f (v_of p) - f (u_of p)) <= 40 * s -> exists x, derv_pair_fl b64 s f p = Fin x /\ 0 < dk_of p * x.
Proof. exact derv_pull. Qed.
Print Assumptions C173_pull.
Example C173_pull_ex : exists x, derv_pair_fl b64 1 (fun i => match i with O => 10 | _ => -10 end) (1%Z, 0%nat, 1%nat) = Fin x /\ 0 < dk_of (1%Z, 0%nat, 1%nat) * x.
Proof.
  assert (A : bpow radix2 (-400) <= 1) by (change 1 with (bpow radix2 0); apply bpow_le; lia). assert (B : 1 <= bpow radix2 100) by (change 1 with (bpow radix2 0); apply bpow_le; lia).
  assert (C : 10 <= bpow radix2 500) by (apply Rle_trans with (bpow radix2 4); [change (bpow radix2 4) with 16; lra|apply bpow_le; lia]).
  apply C173_pull; [lra| |now left|].
  - intros [|i]; [rewrite Rabs_right by lra; exact C|rewrite Rabs_left by lra; lra].
  - unfold v_of, u_of. cbn [fst snd]. rewrite Rabs_left by lra. lra.
Qed.

(** Every label contradicted by at least 70 standard deviations at the drawn weights: the fit is over after one round and keeps the weights. *)
Theorem C173_stuck_refuted : forall sm inv loss s y X ws f n, sums b64 sm -> rejects_zero inv -> bpow radix2 (-400) <= s <= bpow radix2 400 -> X <> [] -> ws <> [] ->
  Forall isdouble ws -> Forall sign y -> latent_fl b64 sm X (map Fin ws) = map Fin f -> (forall i, Rabs (nth i f 0) <= bpow radix2 500) ->
  contradicted (70 * s) y (fun i => nth i f 0) -> (0 < n)%nat ->
  lin_optimize_fl b64 sm inv loss s y X (map Fin ws) n = Ok (1%nat, map Fin ws).
Proof. exact lin_stuck. Qed.
Print Assumptions C173_stuck_refuted.

(** The origin is preferred to the point (c, c): from every start that can be drawn the fit keeps the weights and puts (c, c) above the origin. *)
Theorem C173_label_refuted : forall sm inv loss s c a b n, sums b64 sm -> rejects_zero inv -> bpow radix2 (-400) <= s <= bpow radix2 300 -> 141 * s <= c <= bpow radix2 400 ->
  isdouble a -> isdouble b -> 0 <= a <= 2 -> 0 <= b <= 2 -> 1 / 2 <= a \/ 1 / 2 <= b -> (0 < n)%nat ->
  lin_optimize_fl b64 sm inv loss s [((-1)%Z, 0%nat, 1%nat)] [[0; 0]; [c; c]] [Fin a; Fin b] n = Ok (1%nat, [Fin a; Fin b]) /\
  exists v, latent_fl b64 sm [[0; 0]; [c; c]] [Fin a; Fin b] = [Fin 0; Fin v] /\ 70 * s <= v.
Proof. exact never_learned. Qed.
Print Assumptions C173_label_refuted.
(** the default sigma 0.5, points (0, 0) and (100, 100), 100 rounds at most *)
Example C173_label_ex : lin_optimize_fl b64 right_sum (fun _ => None) (fun _ => Fin 0) (1 / 2) [((-1)%Z, 0%nat, 1%nat)] [[0; 0]; [100; 100]] [Fin 1; Fin 0] 100 = Ok (1%nat, [Fin 1; Fin 0]) /\
  exists v, latent_fl b64 right_sum [[0; 0]; [100; 100]] [Fin 1; Fin 0] = [Fin 0; Fin v] /\ 35 <= v.
Proof.
  assert (A : bpow radix2 (-400) <= / 2) by (change (/ 2) with (bpow radix2 (-1)); apply bpow_le; lia). assert (B : 1 <= bpow radix2 300) by (change 1 with (bpow radix2 0); apply bpow_le; lia).
  assert (C : 100 <= bpow radix2 400) by (apply Rle_trans with (bpow radix2 7); [change (bpow radix2 7) with 128; lra|apply bpow_le; lia]).
  assert (E : 1 < bpow radix2 1024) by (change 1 with (bpow radix2 0); apply bpow_lt; lia).
  assert (D1 : isdouble 1) by (split; [apply (rd_1 b64 b64_rounding)|rewrite Rabs_R1; exact E]). assert (D0 : isdouble 0) by (split; [apply (rd_0 b64 b64_rounding)|rewrite Rabs_R0; lra]).
  destruct (C173_label_refuted right_sum (fun _ => None) (fun _ => Fin 0) (1 / 2) 100 1 0 100 C152_sums_example (fun _ _ _ => eq_refl) ltac:(lra) ltac:(lra) D1 D0 ltac:(lra) ltac:(lra) ltac:(lra) ltac:(lia)) as [H [v [V L]]].
  split; [exact H|]. exists v. split; [exact V|lra].
Qed.
