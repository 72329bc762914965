(** The noise of the sampled objective favours users that are too rational. *)
From Coquelicot Require Import Coquelicot.
From Coq Require Import Reals Lra Lia List Bool.
From Verif Require Import M_Base M_RBase M_Normal M_Util M_Select M_User M_Tune S_Util S_User S_Tune P_RBase P_Tune P_Tune2 P_Tune3 P_Tune4 P_Tune5 P_Tune6 P_Tune7.
Import ListNotations.
Local Open Scope R_scope.

Definition logit (q : R) : R := ln (q / (1 - q)).
Lemma odds q : 0 < q < 1 -> 0 < q / (1 - q).
Proof. intros. apply Rdiv_lt_0_compat; lra. Qed.
Lemma logit_chance q : 0 < q < 1 -> best_chance (logit q) [0; 1] = q.
Proof.
  intros H. unfold best_chance, logit. pose proof (odds q H). cbn [fold_right hd map rsum]. rewrite (Rmax_left 1 0), (Rmax_right 0 1) by lra.
  rewrite Rmult_0_r, Rmult_1_r, exp_0, exp_ln by assumption. field. split; lra.
Qed.
Lemma logit_lt q r : 0 < q -> q < r -> r < 1 -> logit q < logit r.
Proof.
  intros. unfold logit. apply ln_increasing; [apply odds; lra|]. apply (Rmult_lt_reg_r ((1 - q) * (1 - r))); [nra|].
  replace (q / (1 - q) * ((1 - q) * (1 - r))) with (q * (1 - r)) by (field; lra). replace (r / (1 - r) * ((1 - q) * (1 - r))) with (r * (1 - q)) by (field; lra). lra.
Qed.
Lemma logit_half : logit (1 / 2) = 0.
Proof. unfold logit. replace (1 / 2 / (1 - 1 / 2)) with 1 by field. apply ln_1. Qed.
Lemma map_same {A B} (f : A -> B) x n : map f (repeat x n) = repeat (f x) n.
Proof. induction n as [|n IH]; cbn; [reflexivity|now rewrite IH]. Qed.
Lemma rsum_same x n : rsum (repeat x n) = INR n * x.
Proof. induction n as [|n IH]; [cbn; lra|]. cbn [repeat rsum]. rewrite IH, S_INR. lra. Qed.
Lemma average_same x n : (0 < n)%nat -> average (repeat x n) = x.
Proof. intros H. unfold average. rewrite rsum_same, repeat_length. field. apply not_0_INR. lia. Qed.
Lemma spread_same x n : (0 < n)%nat -> spread (repeat x n) = x * (1 - x) / INR n.
Proof. intros H. unfold spread. rewrite map_same, rsum_same, repeat_length. field. apply not_0_INR. lia. Qed.
Lemma same_queries n : (0 < n)%nat -> queries 2 (repeat [0; 1] n).
Proof. intros H. split; [destruct n; [lia|discriminate]|]. split; [lia|]. intros row Hr. apply repeat_spec in Hr. now subst. Qed.
Lemma same_mean n p q : (0 < n)%nat -> 1 / 2 <= q < 1 -> exists Phi, (forall pf, sampled_objective (logit q) p (repeat [0; 1] n) pf = Ok (Phi pf)) /\
  unit_mean n Phi ((q - p) ^ 2 + q * (1 - q) / INR n).
Proof.
  intros Hn Hq. assert (L : 0 <= logit q).
  { rewrite <- logit_half. destruct (proj1 Hq) as [H| <-]; [apply Rlt_le, logit_lt; lra|lra]. }
  destruct (sampled_mean 2 (logit q) p _ (same_queries n Hn) L) as [Phi [A [B _]]]. exists Phi. split; [exact A|].
  unfold accuracy in B. rewrite map_same, logit_chance, average_same, spread_same, repeat_length in B by (lra || exact Hn). exact B.
Qed.
Lemma too_rational n p : (0 < n)%nat -> 1 / 2 < p < 1 -> exists b c y Phi_b Phi_c M_b M_c, 0 <= b < c /\ queries 2 y /\ length y = n /\ accuracy b y = p /\ p < accuracy c y /\
  (forall pf, sampled_objective b p y pf = Ok (Phi_b pf)) /\ (forall pf, sampled_objective c p y pf = Ok (Phi_c pf)) /\ unit_mean n Phi_b M_b /\ unit_mean n Phi_c M_c /\ M_c < M_b.
Proof.
  intros Hn Hp. set (N := INR n). assert (N1 : 1 <= N) by (change 1 with (INR 1); apply le_INR; lia).
  set (d := Rmin ((2 * p - 1) / (2 * N)) ((1 - p) / 2)).
  assert (d0 : 0 < d) by (unfold d; apply Rmin_glb_lt; [apply Rdiv_lt_0_compat; lra|lra]).
  assert (d1 : d <= (2 * p - 1) / (2 * N)) by apply Rmin_l. assert (d2 : d <= (1 - p) / 2) by apply Rmin_r.
  assert (d3 : d * (2 * N) <= 2 * p - 1) by (replace (2 * p - 1) with ((2 * p - 1) / (2 * N) * (2 * N)) by (field; lra); apply Rmult_le_compat_r; lra). clearbody d.
  destruct (same_mean n p p Hn ltac:(lra)) as [Fb [Ab Bb]]. destruct (same_mean n p (p + d) Hn ltac:(lra)) as [Fc [Ac Bc]]. fold N in Bb, Bc.
  exists (logit p), (logit (p + d)), (repeat [0; 1] n), Fb, Fc, ((p - p) ^ 2 + p * (1 - p) / N), ((p + d - p) ^ 2 + (p + d) * (1 - (p + d)) / N).
  split; [split; [rewrite <- logit_half; apply Rlt_le, logit_lt; lra|apply logit_lt; lra]|]. split; [now apply same_queries|]. split; [apply repeat_length|].
  unfold accuracy. rewrite !map_same, !logit_chance, !average_same by (lra || exact Hn). split; [reflexivity|]. split; [lra|]. split; [exact Ab|]. split; [exact Ac|]. split; [exact Bb|]. split; [exact Bc|].
  apply (Rmult_lt_reg_r N); [lra|]. replace (((p + d - p) ^ 2 + (p + d) * (1 - (p + d)) / N) * N) with (d * (d * N) + (p + d) * (1 - (p + d))) by (field; lra).
  replace (((p - p) ^ 2 + p * (1 - p) / N) * N) with (p * (1 - p)) by (field; lra). assert (d * (d * N) <= d * ((2 * p - 1) / 2)) by (apply Rmult_le_compat_l; lra). nra.
Qed.
(** one query: the larger the accuracy the smaller the mean, whatever the aim above one half *)
Lemma single_greedy q b c p row v w : (0 < q)%nat -> length row = q -> 0 <= b < c -> 1 / 2 < p -> In v row -> In w row -> v <> w ->
  exists Phi_b Phi_c M_b M_c, (forall pf, sampled_objective b p [row] pf = Ok (Phi_b pf)) /\ (forall pf, sampled_objective c p [row] pf = Ok (Phi_c pf)) /\ unit_mean 1 Phi_b M_b /\ unit_mean 1 Phi_c M_c /\ M_c < M_b.
Proof.
  intros Hq Hr Hbc Hp Hv Hw Hvw. assert (Q : queries q [row]) by (split; [discriminate|split; [exact Hq|intros r [<-|[]]; exact Hr]]).
  destruct (sampled_mean q b p _ Q ltac:(lra)) as [Fb [Ab [Bb _]]]. destruct (sampled_mean q c p _ Q ltac:(lra)) as [Fc [Ac [Bc _]]].
  pose proof (accuracy_strict q b c [row] row v w Q Hbc (or_introl eq_refl) Hv Hw Hvw) as S. exists Fb, Fc. do 2 eexists. split; [exact Ab|]. split; [exact Ac|]. split; [exact Bb|]. split; [exact Bc|].
  unfold accuracy, average, spread in *. cbn [map rsum length INR] in *. set (x := best_chance b row) in *. set (z := best_chance c row) in *. clearbody x z.
  replace ((x + 0) / 1) with x in * by field. replace ((z + 0) / 1) with z in * by field. replace ((x * (1 - x) + 0) / 1 ^ 2) with (x * (1 - x)) by field. replace ((z * (1 - z) + 0) / 1 ^ 2) with (z * (1 - z)) by field. nra.
Qed.
Lemma mean_value q b p y Phi M : queries q y -> 0 <= b -> (forall pf, sampled_objective b p y pf = Ok (Phi pf)) -> unit_mean (length y) Phi M ->
  (accuracy b y - p) ^ 2 <= M <= (accuracy b y - p) ^ 2 + / (4 * INR (length y)).
Proof.
  intros Q Hb A B. destruct (sampled_mean q b p y Q Hb) as [Psi [A' [B' S]]].
  assert (E : M = (accuracy b y - p) ^ 2 + spread (map (best_chance b) y)).
  { apply (unit_mean_unique (length y) Phi); [exact B|]. apply (unit_mean_ext _ Psi); [|exact B']. intros us _ _. assert (K := A' us). rewrite A in K. congruence. }
  lra.
Qed.
Lemma near_aim q b c p y Phi_b Phi_c M_b M_c : queries q y -> 0 <= b -> 0 <= c -> (forall pf, sampled_objective b p y pf = Ok (Phi_b pf)) -> (forall pf, sampled_objective c p y pf = Ok (Phi_c pf)) ->
  unit_mean (length y) Phi_b M_b -> unit_mean (length y) Phi_c M_c -> M_c <= M_b -> (accuracy c y - p) ^ 2 <= (accuracy b y - p) ^ 2 + / (4 * INR (length y)).
Proof.
  intros Q Hb Hc Ab Ac Bb Bc L. pose proof (mean_value q b p y Phi_b M_b Q Hb Ab Bb). pose proof (mean_value q c p y Phi_c M_c Q Hc Ac Bc). lra.
Qed.
Lemma greedy_sq x z p : x < z -> 1 / 2 < p -> (z - p) ^ 2 + z * (1 - z) < (x - p) ^ 2 + x * (1 - x).
Proof. intros. nra. Qed.
Lemma single_sigma q s t p row v w : (0 < q)%nat -> length row = q -> 0 < s < t -> 1 / 2 < p -> In v row -> In w row -> v <> w ->
  exists Phi_s Phi_t M_s M_t, (forall z, length z = q -> rate_sampled_objective s p [row] [z] = Ok (Phi_s [z])) /\ (forall z, length z = q -> rate_sampled_objective t p [row] [z] = Ok (Phi_t [z])) /\
    rows_mean 1 q Phi_s M_s /\ rows_mean 1 q Phi_t M_t /\ M_s < M_t.
Proof.
  intros Hq Hr Hst Hp Hv Hw Hvw. assert (Q : queries q [row]) by (split; [discriminate|split; [exact Hq|intros r [<-|[]]; exact Hr]]).
  assert (Hne : row <> []) by (intros ->; destruct Hv).
  destruct (best_chance_ex s row ltac:(lra) Hne) as [x Hx]. destruct (best_chance_ex t row ltac:(lra) Hne) as [y Hy]. rewrite Hr in Hx, Hy.
  assert (Fx : Forall2 (fun row c => normal_chance q (picks_best s row) c) [row] [x]) by (constructor; [exact Hx|constructor]).
  assert (Fy : Forall2 (fun row c => normal_chance q (picks_best t row) c) [row] [y]) by (constructor; [exact Hy|constructor]).
  assert (L : average [y] < average [x]).
  { apply (accuracy_falls_strict q s t [row] (average [x]) (average [y]) row v w Hst Q (or_introl eq_refl) Hv Hw Hvw); [exists [x]; auto|exists [y]; auto]. }
  destruct (rate_mean_value q s p [row] [x] Q Fx) as [Ps [As [Bs _]]]. destruct (rate_mean_value q t p [row] [y] Q Fy) as [Pt [At [Bt _]]].
  exists Ps, Pt. do 2 eexists. split; [intros z Hz; apply As; [reflexivity|constructor; [exact Hz|constructor]]|]. split; [intros z Hz; apply At; [reflexivity|constructor; [exact Hz|constructor]]|].
  split; [exact Bs|]. split; [exact Bt|]. unfold average, spread in *. cbn [map rsum length INR] in *. replace ((x + 0) / 1) with x in * by field. replace ((y + 0) / 1) with y in * by field.
  replace ((x * (1 - x) + 0) / 1 ^ 2) with (x * (1 - x)) by field. replace ((y * (1 - y) + 0) / 1 ^ 2) with (y * (1 - y)) by field. now apply greedy_sq.
Qed.
