(** Property C109 with ratings: the updates of find_mode *)
From Coquelicot Require Import Coquelicot.
From Coq Require Import Reals Lra Lia List.
From Verif Require Import M_RBase M_Normal M_PrefProbit M_OrdProbit M_AbsProbit M_Acq M_GP M_Search M_Fit S_PrefProbit S_OrdProbit S_AbsProbit S_GP S_Fit S_FitAbs S_Gamma P_RBase P_Normal P_AbsProbit P_Chol P_GP P_GP3 P_Fit P_Fit2 P_Fit3 P_Fit4 P_Fit5 P_FitAbs P_Gamma T_Fit.
From Verif Require Import S_Psd P_Psd.
Local Open Scope R_scope.

(** comparisons and ratings: where no rating is convex, an update goes uphill or stands still at a stationary point *)
Theorem C109_ratings_partial : forall sp P n y K L B inv, good_probits sp P -> good_labels P n y -> y_ord y = None -> symmetric n K -> chol n K = Some L -> right_inverse n K B -> inverts_all inv ->
  forall F, length F = n -> ordinary P y (entries F) -> curved_down sp P y (entries F) -> exists e lam, 0 < lam < 15 / 10 /\
    mode_step sp P y n L inv F = Ok (map (along (entries F) e lam) (seq 0 n)) /\
    ((exists l d, has_direction (log_post sp P y n B) (entries F) e l /\ 0 < l /\ 0 < d /\ forall t, 0 < t < d -> log_post sp P y n B (entries F) < log_post sp P y n B (along (entries F) e t)) \/
     ((forall e', has_direction (log_post sp P y n B) (entries F) e' 0) /\ mode_step sp P y n L inv F = Ok F)).
Proof. exact rated_ascent. Qed.
Print Assumptions C109_ratings_partial.
Theorem C109_ratings_fixed_point : forall sp P n y K L B inv, good_probits sp P -> good_labels P n y -> y_ord y = None -> symmetric n K -> chol n K = Some L -> right_inverse n K B -> inverts_all inv ->
  forall F, length F = n -> ordinary P y (entries F) -> curved_down sp P y (entries F) ->
  (mode_step sp P y n L inv F = Ok F <-> forall e, has_direction (log_post sp P y n B) (entries F) e 0).
Proof. exact rated_fixed. Qed.
Print Assumptions C109_ratings_fixed_point.
(** that holds when no rating pulls a value towards zero, in particular when all values are zero *)
Theorem C109_outward : forall sp P y F, good_probits sp P -> outward sp P y F -> curved_down sp P y F.
Proof. exact outward_curved. Qed.
Print Assumptions C109_outward.
(** the default parameters of the rating probit and the lowest rating the data store keeps: from three quarters of the random starts' range
    on, the update moves away from the rating and lowers the objective *)
Theorem C109_rating_refuted : forall P k L inv, a_sigma (ps_a P) = 1 -> a_v (ps_a P) = 80 -> 0 < ps_eps P <= 1 / 10 -> 1 <= k -> chol 1 (fun _ _ => k) = Some L -> inverts_all inv ->
  forall f0, 3 / 4 <= f0 <= 1 ->
  exists f, mode_step true_special P (abs_only ((1 / 1000, 0%nat) :: nil)) 1 L inv (f0 :: nil) = Ok (f :: nil) /\ f0 < f /\
    log_post true_special P (abs_only ((1 / 1000, 0%nat) :: nil)) 1 (fun _ _ => 1 / k) (entries (f :: nil)) < log_post true_special P (abs_only ((1 / 1000, 0%nat) :: nil)) 1 (fun _ _ => 1 / k) (entries (f0 :: nil)).
Proof. exact rating_step_wrong. Qed.
Print Assumptions C109_rating_refuted.

(** two points, a comparison and a high rating; values where the rating pulls upwards *)
Definition ex_ra : labels := mkLabels (Some ex_r) None (Some ((3 / 4, 1%nat) :: nil)).
Lemma ex_ra_good : good_probits true_special ex_P /\ good_labels ex_P 2 ex_ra.
Proof.
  split.
  - destruct ex_good as [A [B [C [D _]]]]. split; [exact A|]. split; [exact B|]. split; [exact C|]. split; [exact D|exact true_facts].
  - split; [|split].
    + intros r H. injection H as <-. apply (proj1 ex_only). reflexivity.
    + intros o H. discriminate H.
    + intros a H. injection H as <-. split; [constructor; [intros []|constructor]|]. intros p [<- |[]]. cbn. lia.
Qed.
Example C109_ratings_ex : exists L B, chol 2 ex_K = Some L /\ right_inverse 2 ex_K B /\ outward true_special ex_P ex_ra (entries (0 :: 0 :: nil)) /\ ordinary ex_P ex_ra (entries (0 :: 0 :: nil)) /\
  (exists F', mode_step true_special ex_P ex_ra 2 L safe_inv (0 :: 0 :: nil) = Ok F').
Proof.
  destruct ex_chol as [L [B [EL EB]]]. destruct ex_ra_good as [GP GL]. exists L, B. assert (OU : outward true_special ex_P ex_ra (entries (0 :: 0 :: nil))) by (rewrite ex_entries; apply zero_outward).
  assert (O : ordinary ex_P ex_ra (entries (0 :: 0 :: nil))). { rewrite ex_entries. split; [|split]; [intros r _; apply zero_unclipped|intros o H; discriminate H|]. intros a _ p _. apply free_0. cbn. lra. }
  split; auto. split; auto. split; auto. split; auto.
  destruct (C109_ratings_partial true_special ex_P 2 ex_ra ex_K L B safe_inv GP GL eq_refl ex_sym EL EB (proj1 safe_routine) (0 :: 0 :: nil) eq_refl O (C109_outward _ _ _ _ GP OU)) as [e [lam [_ [E _]]]].
  eexists. exact E.
Qed.
Example C109_rating_refuted_ex : exists L f, chol 1 (fun _ _ => 1) = Some L /\ mode_step true_special ex_P (abs_only ((1 / 1000, 0%nat) :: nil)) 1 L safe_inv (4 / 5 :: nil) = Ok (f :: nil) /\ 4 / 5 < f.
Proof.
  destruct (chol_one 1 ltac:(lra)) as [L E]. destruct (C109_rating_refuted ex_P 1 L safe_inv eq_refl eq_refl ltac:(cbn; lra) ltac:(lra) E (proj1 safe_routine) (4 / 5) ltac:(lra)) as [f [A [B _]]]. exists L, f. auto.
Qed.
