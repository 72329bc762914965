(** C168: what an experiment is set up with. *)
From Coq Require Import List QArith.
From Verif Require Import M_Base M_Config M_Setup S_Setup P_Setup.
Import ListNotations.
Local Open Scope string_scope.

(** an experiment that starts has the model, the parameters, the utility and the user that the options name *)
Theorem C168_named o k tuned m f d : setup o k tuned = Ready m f d ->
  checked o /\ model_name (d_class m) = o_model o /\ parametrised o k m /\ fake_name f = o_fake o /\ (fake_alpha f = None \/ fake_alpha f = Some (o_alpha_fake o)) /\ d = k_dim k /\
  o_user o = "human_choice" /\ tuned = Ok tt /\ learned o k = Ok (d_learner m).
Proof. exact (ready_named o k tuned m f d). Qed.
Print Assumptions C168_named.
(** it starts with every combination of documented values, for the user who makes mistakes, without prior points *)
Theorem C168_starts o k l : checked o -> documented o -> o_user o = "human_choice" -> k_prior k && k_pareto k = false -> learned o k = Ok l ->
  exists m f, setup o k (Ok tt) = Ready m f (k_dim k).
Proof. exact (ready_if o k l). Qed.
Print Assumptions C168_starts.
(** a wrong selector, model, utility, type of question or flag is noticed before the folder is made *)
Theorem C168_checked o k tuned : folder_made (setup o k tuned) = true <-> checked o.
Proof. exact (folder_iff o k tuned). Qed.
Print Assumptions C168_checked.
(** another user is noticed only after the folder was made; the perfect user, who is documented, never starts *)
Theorem C168_user_refuted o k tuned l : checked o -> learned o k = Ok l -> o_hyper o = "no" \/ o_hyper o = "hyper" -> o_user o <> "human_choice" ->
  setup o k tuned = Failed (if String.eqb (o_user o) "perfect" then AttributeError else UnboundLocalError).
Proof. exact (user_unchecked o k tuned l). Qed.
Print Assumptions C168_user_refuted.
(** a misspelt --hyper ends the program with the status of success, after the folder was made *)
Theorem C168_hyper_refuted o k tuned l : checked o -> learned o k = Ok l -> o_model o = "gp" -> o_hyper o <> "no" -> o_hyper o <> "hyper" -> setup o k tuned = Exit0.
Proof. exact (hyper_unchecked o k tuned l). Qed.
Print Assumptions C168_hyper_refuted.
(** and is ignored with the linear model *)
Theorem C168_ignored_refuted o k tuned h : o_model o = "linear" ->
  setup o k tuned = setup (mkoptions (o_model o) (o_selector o) (o_rep o) (o_seltype o) (o_user o) h (o_pareto o) (o_fake o) (o_v o) (o_sabs o) (o_spair o) (o_rbf_sigma o) (o_rbf_l o) (o_alpha o) (o_alpha_fake o)) k tuned.
Proof. exact (hyper_ignored o k tuned h). Qed.
Print Assumptions C168_ignored_refuted.
(** prior points, with the configuration that gives them a meaning, end every experiment *)
Theorem C168_prior_refuted o k l : checked o -> documented o -> learned o k = Ok l -> o_user o = "human_choice" -> k_prior k = true -> k_pareto k = true -> setup o k (Ok tt) = Failed TypeError.
Proof. exact (prior_fails o k l). Qed.
Print Assumptions C168_prior_refuted.

(** ---- examples: the defaults of the program and of config.yaml ---- *)
Definition ex_options (model user hyper fake : string) : options :=
  mkoptions model "SGV_UCB" "stable" "choose1" user hyper "false" fake 80 1 1 1 (2 # 5) (1 # 2) (1 # 2).
Definition ex_cfg (prior pareto : bool) : cfg := mkcfg pareto false 1 "comparision_pts.npy" (1 # 100000) false false prior 5.
Example C168_checked_ex : checked (ex_options "gp" "human_choice" "hyper" "linear") /\ documented (ex_options "gp" "human_choice" "hyper" "linear") /\
  ~ checked (ex_options "GP" "human_choice" "hyper" "linear") /\ setup (ex_options "GP" "human_choice" "hyper" "linear") (ex_cfg false false) (Ok tt) = Refused0.
Proof.
  split; [repeat split; cbn; auto 10|]. split; [repeat split; cbn; auto|]. split; [|reflexivity]. intros (_ & _ & M & _). cbn in M. intuition discriminate.
Qed.
Example C168_starts_ex : setup (ex_options "gp" "human_choice" "hyper" "linear") (ex_cfg false false) (Ok tt) =
  Ready (mkmdesc (GPModel 1 (2 # 5) (1 # 100000) false false true) false (Some (Learner GV_UCBLearner (false, false) None None (Some 1%Q) None false None [])) 1 1 80) FLinear 5 /\
  setup (ex_options "linear" "human_choice" "no" "min_log") (ex_cfg true false) (Ok tt) =
  Ready (mkmdesc LinearModel false (Some (Learner GV_UCBLearner (false, false) None None (Some 1%Q) None false None [])) 1 1 80) (FMinLog (1 # 2)) 5.
Proof. split; reflexivity. Qed.
Example C168_user_ex : setup (ex_options "gp" "perfect" "no" "max") (ex_cfg false false) (Ok tt) = Failed AttributeError /\
  setup (ex_options "gp" "human" "no" "max") (ex_cfg false false) (Ok tt) = Failed UnboundLocalError.
Proof. split; reflexivity. Qed.
Example C168_hyper_ex : let r := setup (ex_options "gp" "human_choice" "false" "max") (ex_cfg false false) (Ok tt) in r = Exit0 /\ folder_made r = true /\ reports_error r = false.
Proof. repeat split. Qed.
Example C168_ignored_ex : exists m f, setup (ex_options "linear" "human_choice" "false" "max") (ex_cfg false false) (Ok tt) = Ready m f 5.
Proof. eexists. eexists. reflexivity. Qed.
Example C168_prior_ex : setup (ex_options "gp" "human_choice" "no" "max") (ex_cfg true true) (Ok tt) = Failed TypeError /\
  exists m f, setup (ex_options "gp" "human_choice" "no" "max") (ex_cfg true false) (Ok tt) = Ready m f 5.
Proof. split; [reflexivity|]. eexists. eexists. reflexivity. Qed.
