(** C165: the selector that an experiment names is the learner that asks the questions (experiment_helper.py, single_experiment.py). *)
From Coq Require Import String List QArith Bool.
From Verif Require Import M_Base M_Config S_Config P_Config.
Import ListNotations.
Local Open Scope string_scope.
Local Open Scope list_scope.

Definition example_args (rep : string) : args := mkargs "switch" rep 2 true true (1 # 3) "pts.npy" true.

(** every selector except four gives a learner, for both types of representative questions *)
Theorem C165_built s e : In s possible_selectors -> ~ In s ["SW_MIX_PEAK2_EPIC"; "SW_MIX_PEAK2_LL"; "SW_MIX_PEAK3_EPIC"; "SW_MIX_PEAK3_LL"] ->
  g_rep e = "sampled" \/ g_rep e = "stable" -> exists l, start s e = Run (Ok l).
Proof. exact (start_built s e). Qed.
Print Assumptions C165_built.
Example C165_built_ex : In "SW_UCB_EPIC" possible_selectors /\ ~ In "SW_UCB_EPIC" ["SW_MIX_PEAK2_EPIC"; "SW_MIX_PEAK2_LL"; "SW_MIX_PEAK3_EPIC"; "SW_MIX_PEAK3_LL"] /\ g_rep (example_args "stable") = "stable".
Proof. split; [cbn; tauto|]. split; [cbn; intuition discriminate|reflexivity]. Qed.
(** four announced selectors pass the check and fail at the first question *)
Theorem C165_built_refuted s e : In s ["SW_MIX_PEAK2_EPIC"; "SW_MIX_PEAK2_LL"; "SW_MIX_PEAK3_EPIC"; "SW_MIX_PEAK3_LL"] -> In s possible_selectors /\ start s e = Run (Raise AttributeError).
Proof. exact (start_missing s e). Qed.
Print Assumptions C165_built_refuted.
Example C165_built_refuted_ex : In "SW_MIX_PEAK3_LL" ["SW_MIX_PEAK2_EPIC"; "SW_MIX_PEAK2_LL"; "SW_MIX_PEAK3_EPIC"; "SW_MIX_PEAK3_LL"]. Proof. cbn. tauto. Qed.
(** what is run comes from [get_active_learner] with the settings of the user *)
Theorem C165_run s e l : start s e = Run (Ok l) -> In s possible_selectors /\ exists e', get_active_learner s e' = Ok (Some l) /\
  g_selection e' = g_selection e /\ g_rep e' = g_rep e /\ g_scalar e' = g_scalar e /\ g_pareto e' = g_pareto e /\ g_best e' = g_best e /\ g_alpha e' = g_alpha e /\ g_file e' = g_file e.
Proof. exact (start_ok s e l). Qed.
Print Assumptions C165_run.
(** exactly the unknown names end the program before a learner is made *)
Theorem C165_unknown s e : start s e = Exit <-> ~ In s possible_selectors.
Proof. exact (start_unknown s e). Qed.
Print Assumptions C165_unknown.
Example C165_unknown_ex : ~ In "THOMPSON" possible_selectors. Proof. cbn. intuition discriminate. Qed.
Example C165_run_ex : exists l, start "SGV_UCB" (example_args "other") = Run (Ok l) /\ l_class l = GV_UCBLearner. Proof. eexists. split; reflexivity. Qed.
(** the learner that decides has the two flags of the experiment; the best path is not forced into questions for ratings *)
Theorem C165_flags s e l : get_active_learner s e = Ok (Some l) ->
  fst (l_flags l) = g_pareto e /\ (g_selection e = "rating" -> snd (l_flags l) = false) /\ (g_selection e <> "rating" -> snd (l_flags l) = g_best e).
Proof. exact (flags_kept s e l). Qed.
Print Assumptions C165_flags.
(** the ending of the name is the alignment function, in every part *)
Theorem C165_alignment s e l a : get_active_learner s e = Ok (Some l) -> ends_with (suffix a) s = true ->
  (exists x, In x (within l) /\ l_alignment x = Some a) /\ (forall x b, In x (within l) -> l_alignment x = Some b -> b = a).
Proof. exact (alignment_kept s e l a). Qed.
Print Assumptions C165_alignment.
(** the beginning of the name is the class of the learner that decides, the ending the method of an information gain *)
Theorem C165_class s e l : get_active_learner s e = Ok (Some l) -> forall p c, In (p, c) promised -> String.prefix p s = true -> l_class l = c.
Proof. exact (class_promised s e l). Qed.
Print Assumptions C165_class.
Example C165_class_ex : exists l, get_active_learner "SGV_UCB" (example_args "other") = Ok (Some l) /\ In ("SGV_UCB", GV_UCBLearner) promised /\ String.prefix "SGV_UCB" "SGV_UCB" = true.
Proof. eexists. split; [reflexivity|]. split; [cbn; tauto|reflexivity]. Qed.
Theorem C165_method s e l : get_active_learner s e = Ok (Some l) -> forall x, In x (within l) -> l_class x = BayesInfoGain ->
  (ends_with "_PROBIT" s = true /\ l_method x = Some "probit") \/ (ends_with "_999" s = true /\ l_method x = Some "999").
Proof. exact (method_promised s e l). Qed.
Print Assumptions C165_method.
Example C165_method_ex : exists l, get_active_learner "BAYES_INFO_GAIN_999" (example_args "other") = Ok (Some l) /\ l_class l = BayesInfoGain. Proof. eexists. split; reflexivity. Qed.
Theorem C165_alpha s e l : get_active_learner s e = Ok (Some l) -> String.prefix "SW_MIX_" s = true \/ String.prefix "SW_UCB_" s = true -> l_alpha l = Some (g_alpha e).
Proof. exact (alpha_promised s e l). Qed.
Print Assumptions C165_alpha.
Example C165_alpha_ex : exists l, get_active_learner "SW_MIX_PEAK3_SPEAR" (example_args "stable") = Ok (Some l) /\ String.prefix "SW_MIX_" "SW_MIX_PEAK3_SPEAR" = true. Proof. eexists. split; reflexivity. Qed.
(** the scalar of the upper confidence bound and alpha reach every part that has one *)
Theorem C165_numbers s e l : get_active_learner s e = Ok (Some l) ->
  (forall x q, In x (within l) -> l_scalar x = Some q -> q = g_scalar e) /\ (forall x q, In x (within l) -> l_alpha x = Some q -> q = g_alpha e) /\
  (forall x, In x (within l) -> l_class x = UCBLearner -> l_scalar x = Some (g_scalar e)).
Proof. exact (numbers_kept s e l). Qed.
Print Assumptions C165_numbers.
(** names that start with SW_, and only they, stand for a decision between a comparison and a rating *)
Theorem C165_switch s e l : get_active_learner s e = Ok (Some l) ->
  (String.prefix "SW_" s = true <-> l_parts l <> []) /\
  (String.prefix "SW_" s = true -> exists p a r, l_parts l = p :: a :: r /\ asks_comparison (l_class p) = true /\ (l_class a = UCBLearner \/ asks_rating (l_class a) = true)).
Proof. exact (switch_parts s e l). Qed.
Print Assumptions C165_switch.
(** the representative questions are those of the setting, for all but two selectors *)
Theorem C165_rep s e l : get_active_learner s e = Ok (Some l) -> s <> "SW_ACQ_SPEAR" -> s <> "SW_DEC_LL" ->
  forall x r, In x (within l) -> l_rep x = Some r -> (g_rep e = "sampled" /\ r = Sampled) \/ (g_rep e = "stable" /\ r = Stable (g_file e)).
Proof. exact (rep_kept s e l). Qed.
Print Assumptions C165_rep.
Example C165_learner_ex : exists l, get_active_learner "SW_CHECK_LL" (example_args "stable") = Ok (Some l) /\ l_class l = MixedComparisionEqualChecking /\
  map l_class (l_parts l) = [AcquisitionSelection; UCBLearner; AbsAcquisition] /\ map l_rep (l_parts l) = [Some (Stable "pts.npy"); None; Some (Stable "pts.npy")] /\
  ends_with (suffix LogLik) "SW_CHECK_LL" = true /\ String.prefix "SW_" "SW_CHECK_LL" = true.
Proof. eexists. repeat split. Qed.
(** for these two the setting has no effect *)
Theorem C165_rep_refuted s e : In s ["SW_ACQ_SPEAR"; "SW_DEC_LL"] -> exists l x, get_active_learner s e = Ok (Some l) /\ In x (within l) /\ l_rep x = Some ClassDefault.
Proof. exact (rep_ignored s e). Qed.
Print Assumptions C165_rep_refuted.
Example C165_rep_refuted_ex : In "SW_DEC_LL" ["SW_ACQ_SPEAR"; "SW_DEC_LL"]. Proof. cbn. tauto. Qed.
(** a selector for ratings asks comparisons *)
Theorem C165_ratings_refuted e : exists l, start "ABS_BAYES_PROBIT" e = Run (Ok l) /\ asks_comparison (l_class l) = true /\ start "ABS_BAYES_PROBIT" e = start "BAYES_INFO_GAIN_PROBIT" e.
Proof. exact (abs_bayes e). Qed.
Print Assumptions C165_ratings_refuted.
(** the other selectors for ratings ask ratings *)
Theorem C165_ratings s e l : get_active_learner s e = Ok (Some l) -> String.prefix "ABS_" s = true -> s <> "ABS_BAYES_PROBIT" -> asks_rating (l_class l) = true.
Proof. exact (abs_rates s e l). Qed.
Print Assumptions C165_ratings.
Example C165_ratings_ex : exists l, get_active_learner "ABS_ACQ_EPIC" (example_args "sampled") = Ok (Some l) /\ String.prefix "ABS_" "ABS_ACQ_EPIC" = true /\ "ABS_ACQ_EPIC" <> "ABS_BAYES_PROBIT".
Proof. eexists. repeat split. discriminate. Qed.
(** the learner that should know the true utility never gets it *)
Theorem C165_perfect_refuted e : exists l, start "MUTUAL_INFO_PERF" e = Run (Ok l) /\ l_fake l = false /\ start "MUTUAL_INFO_PERF" e = start "MUTUAL_INFO" e.
Proof. exact (perfect_none e). Qed.
Print Assumptions C165_perfect_refuted.
