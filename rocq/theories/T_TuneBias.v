(** Property C188: the noise of the sampled tuning objectives. *)
From Coquelicot Require Import Coquelicot.
From Coq Require Import Reals Lra Lia List Bool.
From Verif Require Import M_Base M_RBase M_Tune S_Tune P_RBase P_Tune P_Tune2 P_Tune8.
Import ListNotations.
Local Open Scope R_scope.

(** the mean of the objective over the draws is the squared miss, up to one quarter of the reciprocal of the number of queries *)
Theorem C188_mean : forall q b p y Phi M, queries q y -> 0 <= b -> (forall pf, sampled_objective b p y pf = Ok (Phi pf)) -> unit_mean (length y) Phi M ->
  (accuracy b y - p) ^ 2 <= M <= (accuracy b y - p) ^ 2 + / (4 * INR (length y)).
Proof. exact mean_value. Qed.
Print Assumptions C188_mean.
(** so a rationality that looks no worse on average misses the aim by little more *)
Theorem C188_near : forall q b c p y Phi_b Phi_c M_b M_c, queries q y -> 0 <= b -> 0 <= c -> (forall pf, sampled_objective b p y pf = Ok (Phi_b pf)) -> (forall pf, sampled_objective c p y pf = Ok (Phi_c pf)) ->
  unit_mean (length y) Phi_b M_b -> unit_mean (length y) Phi_c M_c -> M_c <= M_b -> (accuracy c y - p) ^ 2 <= (accuracy b y - p) ^ 2 + / (4 * INR (length y)).
Proof. exact near_aim. Qed.
Print Assumptions C188_near.
(** for any number of queries and any aim above one half there are queries for which a user that is too rational looks better, on average, than
    one that meets the aim *)
Theorem C188_rational_refuted : forall n p, (0 < n)%nat -> 1 / 2 < p < 1 -> exists b c y Phi_b Phi_c M_b M_c, 0 <= b < c /\ queries 2 y /\ length y = n /\ accuracy b y = p /\ p < accuracy c y /\
  (forall pf, sampled_objective b p y pf = Ok (Phi_b pf)) /\ (forall pf, sampled_objective c p y pf = Ok (Phi_c pf)) /\ unit_mean n Phi_b M_b /\ unit_mean n Phi_c M_c /\ M_c < M_b.
Proof. exact too_rational. Qed.
Print Assumptions C188_rational_refuted.
(** with a single query the more rational user always looks better, however low the aim above one half *)
Theorem C188_single_refuted : forall q b c p row v w, (0 < q)%nat -> length row = q -> 0 <= b < c -> 1 / 2 < p -> In v row -> In w row -> v <> w ->
  exists Phi_b Phi_c M_b M_c, (forall pf, sampled_objective b p [row] pf = Ok (Phi_b pf)) /\ (forall pf, sampled_objective c p [row] pf = Ok (Phi_c pf)) /\ unit_mean 1 Phi_b M_b /\ unit_mean 1 Phi_c M_c /\ M_c < M_b.
Proof. exact single_greedy. Qed.
Print Assumptions C188_single_refuted.
(** likewise the smaller noise level for the rating objective *)
Theorem C188_sigma_refuted : forall q s t p row v w, (0 < q)%nat -> length row = q -> 0 < s < t -> 1 / 2 < p -> In v row -> In w row -> v <> w ->
  exists Phi_s Phi_t M_s M_t, (forall z, length z = q -> rate_sampled_objective s p [row] [z] = Ok (Phi_s [z])) /\ (forall z, length z = q -> rate_sampled_objective t p [row] [z] = Ok (Phi_t [z])) /\
    rows_mean 1 q Phi_s M_s /\ rows_mean 1 q Phi_t M_t /\ M_s < M_t.
Proof. exact single_sigma. Qed.
Print Assumptions C188_sigma_refuted.

(** ---- Examples ---- *)
Example C188_mean_ex : exists Phi M, (forall pf, sampled_objective 1 (3 / 4) [[0; 1]; [3; 2]] pf = Ok (Phi pf)) /\ unit_mean 2 Phi M /\ M <= (accuracy 1 [[0; 1]; [3; 2]] - 3 / 4) ^ 2 + 1 / 8.
Proof.
  assert (Q : queries 2 [[0; 1]; [3; 2]]) by (split; [discriminate|split; [lia|intros r [<-|[<-|[]]]; reflexivity]]).
  destruct (sampled_mean 2 1 (3 / 4) _ Q ltac:(lra)) as [Phi [A [B _]]]. exists Phi. eexists. split; [exact A|]. split; [exact B|].
  pose proof (C188_mean 2 1 (3 / 4) _ Phi _ Q ltac:(lra) A B) as K. cbn [length INR] in K. replace (/ (4 * (1 + 1))) with (1 / 8) in K by field. apply K.
Qed.
Example C188_near_ex : exists Phi_b M_b Phi_c M_c, (forall pf, sampled_objective 0 1 [[0; 1]] pf = Ok (Phi_b pf)) /\ (forall pf, sampled_objective 1 1 [[0; 1]] pf = Ok (Phi_c pf)) /\
  unit_mean 1 Phi_b M_b /\ unit_mean 1 Phi_c M_c /\ M_c <= M_b /\ (accuracy 1 [[0; 1]] - 1) ^ 2 <= (accuracy 0 [[0; 1]] - 1) ^ 2 + 1 / 4.
Proof.
  destruct (C188_single_refuted 2 0 1 1 [0; 1] 0 1) as [Fb [Fc [Mb [Mc [Ab [Ac [Bb [Bc L]]]]]]]]; [lia|reflexivity|lra|lra|now left|right; now left|lra|].
  exists Fb, Mb, Fc, Mc. split; [exact Ab|]. split; [exact Ac|]. split; [exact Bb|]. split; [exact Bc|]. split; [lra|].
  assert (Q : queries 2 [[0; 1]]) by (split; [discriminate|split; [lia|intros r [<-|[]]; reflexivity]]).
  pose proof (C188_near 2 0 1 1 [[0; 1]] Fb Fc Mb Mc Q ltac:(lra) ltac:(lra) Ab Ac Bb Bc ltac:(lra)) as K. cbn [length INR] in K. replace (/ (4 * 1)) with (1 / 4) in K by field. exact K.
Qed.
Example C188_rational_ex : exists b c y, 0 <= b < c /\ length y = 60%nat /\ accuracy b y = 9 / 10 /\ 9 / 10 < accuracy c y.
Proof. destruct (C188_rational_refuted 60 (9 / 10)) as [b [c [y [_ [_ [_ [_ [H [_ [L [A [B _]]]]]]]]]]]]; [lia|lra|]. exists b, c, y. auto. Qed.
Example C188_sigma_ex : exists Phi_s Phi_t M_s M_t, (forall z, length z = 2%nat -> rate_sampled_objective 1 (6 / 10) [[0; 1]] [z] = Ok (Phi_s [z])) /\
  (forall z, length z = 2%nat -> rate_sampled_objective 2 (6 / 10) [[0; 1]] [z] = Ok (Phi_t [z])) /\ rows_mean 1 2 Phi_s M_s /\ rows_mean 1 2 Phi_t M_t /\ M_s < M_t.
Proof. apply (C188_sigma_refuted 2 1 2 (6 / 10) [0; 1] 0 1); [lia|reflexivity|lra|lra|now left|right; now left|lra]. Qed.
