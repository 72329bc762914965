(** Model of how an experiment is configured: /repo/experiments/experiment_helper.py:36-362 [get_active_learner], 364-394 [get_model]
    as far as the learner is concerned, and the check of the selector in /repo/experiments/single_experiment.py:97-114, 160-162.
    A learner is described by its class and the arguments of its constructor; the constructors only store them (UCBLearner.py:38-40,
    MutualInfoLearner.py:45-49, BayesInfoGain.py:26-30, AcquisitionBase.py:52-62, RateChooseLearner.py:43-46, MixedStrategy.py:42-45 and
    the others).  Numbers of samples (M=200 everywhere) are left out; the optional package approxcdf is taken as installed. *)
From Coq Require Export String.
From Verif Require Import M_Base.
Local Open Scope string_scope.
Import ListNotations.
Local Open Scope list_scope.

(** argument [alignment_f] (AcquisitionBase.py:54) *)
Inductive alignment := Rho | LogLik | Epic | Spearman.
(** arguments [rep_Q_method], [rep_Q_data] (experiment_helper.py:46-50); [ClassDefault] when they are not passed, which samples *)
Inductive rep := ClassDefault | Sampled | Stable (filename : string).
(** the classes of /repo/src/lop/active_learning (active_learning/__init__.py) that are used *)
Inductive class := UCBLearner | GV_UCBLearner | MutualInfoLearner | RandomLearner | BayesInfoGain | AbsBayesInfo | AcquisitionSelection
  | AbsAcquisition | RateChooseLearner | MixedComparision | MixedComparisionSetFixed | MixedAlternating | AlignmentDecision
  | MixedComparisionEqualChecking | MixedStrategy | MixedStrategyPeak | MixedStrategyPeak2 | MixedStrategyPeak3 | MixedStrategyRevPeak
  | MixedDecision | MixedDecision2.
(** class, (default_to_pareto, always_select_best), alignment_f, representative questions, UCB scalar, alpha or p_abs_param, whether a fake
    function is given, p_q_B_method, [pairwise_l; abs_l; abs_comp] (experiment_helper.py:53-359) *)
Inductive learner := Learner (c : class) (flags : bool * bool) (al : option alignment) (rp : option rep) (scalar : option Q)
  (alpha : option Q) (fake : bool) (method : option string) (parts : list learner).
(** the arguments of get_active_learner and the entries of the configuration it reads (experiment_helper.py:36-50) *)
Record args := mkargs { g_selection : string; g_rep : string; g_scalar : Q; g_pareto : bool; g_best : bool; g_alpha : Q; g_file : string;
  g_fake : bool }.
(** lines 38-41 and the argument default_to_pareto *)
Definition top (e : args) : bool * bool := (g_pareto e, if String.eqb (g_selection e) "rating" then false else g_best e).
(** lines 46-50: [rep_pt_data] stays unbound for any other type *)
Definition rep_of (e : args) : result rep :=
  if String.eqb (g_rep e) "sampled" then Ok Sampled else if String.eqb (g_rep e) "stable" then Ok (Stable (g_file e)) else Raise UnboundLocalError.
(** lines 73-112: an alignment-based learner with the representative questions that are asked for *)
Definition acq (e : args) (c : class) (f : bool * bool) (a : alignment) : result learner :=
  do r <- rep_of e; Ok (Learner c f (Some a) (Some r) None None false None []).
(** lines 135-136, 231: ... without them *)
Definition acq_default (c : class) (f : bool * bool) (a : alignment) : result learner :=
  Ok (Learner c f (Some a) (Some ClassDefault) None None false None []).
(** line 149: [lop.UCBLearner(UCB_scalar)] *)
Definition ucb (e : args) (f : bool * bool) : result learner := Ok (Learner UCBLearner f None None (Some (g_scalar e)) None false None []).
(** lines 66, 140 *)
Definition plain (c : class) (f : bool * bool) : result learner := Ok (Learner c f None None None None false None []).
(** lines 68, 72, 141 *)
Definition bayes (f : bool * bool) (m : string) : result learner := Ok (Learner BayesInfoGain f None None None None false (Some m) []).
(** lines 118-359: a learner that decides between two others *)
Definition switch (c : class) (f : bool * bool) (alpha : option Q) (parts : list learner) : learner :=
  Learner c f None None None alpha false None parts.
(** lines 55-359, the branches in their order *)
Definition branches : list (string * (args -> result learner)) :=
  [
   ("UCB", fun e => Ok (Learner UCBLearner (top e) None None (Some (g_scalar e)) None false None []));   (* 55-56 *)
   ("SGV_UCB", fun e => Ok (Learner GV_UCBLearner (top e) None None (Some (g_scalar e)) None false None []));   (* 57-58 *)
   ("MUTUAL_INFO", fun e => Ok (Learner MutualInfoLearner (top e) None None None None false None []));   (* 59-60 *)
   ("MUTUAL_INFO", fun e => Ok (Learner MutualInfoLearner (top e) None None None None false None []));   (* 61-62 *)
   ("MUTUAL_INFO_PERF", fun e => Ok (Learner MutualInfoLearner (top e) None None None None (g_fake e) None []));   (* 63-64 *)
   ("RANDOM", fun e => plain RandomLearner (top e));   (* 65-66 *)
   ("BAYES_INFO_GAIN_PROBIT", fun e => bayes (top e) "probit");   (* 67-68 *)
   ("ABS_BAYES_PROBIT", fun e => bayes (top e) "probit");   (* 69-70 *)
   ("BAYES_INFO_GAIN_999", fun e => bayes (top e) "999");   (* 71-72 *)
   ("ACQ_RHO", fun e => acq e AcquisitionSelection (top e) Rho);   (* 73-77 *)
   ("ACQ_LL", fun e => acq e AcquisitionSelection (top e) LogLik);   (* 78-82 *)
   ("ACQ_EPIC", fun e => acq e AcquisitionSelection (top e) Epic);   (* 83-87 *)
   ("ACQ_SPEAR", fun e => acq e AcquisitionSelection (top e) Spearman);   (* 88-92 *)
   ("ABS_ACQ_RHO", fun e => acq e AbsAcquisition (top e) Rho);   (* 93-97 *)
   ("ABS_ACQ_LL", fun e => acq e AbsAcquisition (top e) LogLik);   (* 98-102 *)
   ("ABS_ACQ_EPIC", fun e => acq e AbsAcquisition (top e) Epic);   (* 103-107 *)
   ("ABS_ACQ_SPEAR", fun e => acq e AbsAcquisition (top e) Spearman);   (* 108-112 *)
   ("SW_ACQ_RHO", fun e => do abs_l <- acq e AbsAcquisition (false, false) Rho; do pair <- acq e AcquisitionSelection (false, false) Rho; Ok (switch RateChooseLearner (top e) None [pair; abs_l]));   (* 113-119 *)
   ("SW_ACQ_LL", fun e => do abs_l <- acq e AbsAcquisition (false, false) LogLik; do pair <- acq e AcquisitionSelection (false, false) LogLik; Ok (switch RateChooseLearner (top e) None [pair; abs_l]));   (* 120-126 *)
   ("SW_ACQ_EPIC", fun e => do abs_l <- acq e AbsAcquisition (false, false) Epic; do pair <- acq e AcquisitionSelection (false, false) Epic; Ok (switch RateChooseLearner (top e) None [pair; abs_l]));   (* 127-133 *)
   ("SW_ACQ_SPEAR", fun e => do abs_l <- acq_default AbsAcquisition (false, false) Spearman; do pair <- acq_default AcquisitionSelection (false, false) Spearman; Ok (switch RateChooseLearner (top e) None [pair; abs_l]));   (* 134-138 *)
   ("SW_BAYES_PROBIT", fun e => do abs_l <- plain AbsBayesInfo (false, false); do pair <- bayes (false, false) "probit"; Ok (switch RateChooseLearner (top e) None [pair; abs_l]));   (* 139-143 *)
   ("SW_UCB_RHO", fun e => do abs_comp <- acq e AbsAcquisition (false, false) Rho; do pair <- acq e AcquisitionSelection (false, false) Rho; do abs_l <- ucb e (false, false); Ok (switch MixedComparision (top e) (Some (g_alpha e)) [pair; abs_l; abs_comp]));   (* 144-151 *)
   ("SW_UCB_LL", fun e => do abs_comp <- acq e AbsAcquisition (false, false) LogLik; do pair <- acq e AcquisitionSelection (false, false) LogLik; do abs_l <- ucb e (false, false); Ok (switch MixedComparision (top e) (Some (g_alpha e)) [pair; abs_l; abs_comp]));   (* 152-159 *)
   ("SW_UCB_SPEAR", fun e => do abs_comp <- acq e AbsAcquisition (false, false) Spearman; do pair <- acq e AcquisitionSelection (false, false) Spearman; do abs_l <- ucb e (false, false); Ok (switch MixedComparision (top e) (Some (g_alpha e)) [pair; abs_l; abs_comp]));   (* 160-167 *)
   ("SW_UCB_EPIC", fun e => do abs_comp <- acq e AbsAcquisition (false, false) Epic; do pair <- acq e AcquisitionSelection (false, false) Epic; do abs_l <- ucb e (false, false); Ok (switch MixedComparision (top e) (Some (g_alpha e)) [pair; abs_l; abs_comp]));   (* 168-175 *)
   ("SW_FIXED_RHO", fun e => do pair <- acq e AcquisitionSelection (false, false) Rho; do abs_l <- ucb e (false, false); Ok (switch MixedComparisionSetFixed (top e) None [pair; abs_l]));   (* 176-181 *)
   ("SW_FIXED_LL", fun e => do pair <- acq e AcquisitionSelection (false, false) LogLik; do abs_l <- ucb e (false, false); Ok (switch MixedComparisionSetFixed (top e) None [pair; abs_l]));   (* 182-187 *)
   ("SW_FIXED_SPEAR", fun e => do pair <- acq e AcquisitionSelection (false, false) Spearman; do abs_l <- ucb e (false, false); Ok (switch MixedComparisionSetFixed (top e) None [pair; abs_l]));   (* 188-193 *)
   ("SW_FIXED_EPIC", fun e => do pair <- acq e AcquisitionSelection (false, false) Epic; do abs_l <- ucb e (false, false); Ok (switch MixedComparisionSetFixed (top e) None [pair; abs_l]));   (* 194-199 *)
   ("SW_ALT_RHO", fun e => do pair <- acq e AcquisitionSelection (false, false) Rho; do abs_l <- ucb e (false, false); Ok (switch MixedAlternating (top e) None [pair; abs_l]));   (* 200-205 *)
   ("SW_ALT_LL", fun e => do pair <- acq e AcquisitionSelection (false, false) LogLik; do abs_l <- ucb e (false, false); Ok (switch MixedAlternating (top e) None [pair; abs_l]));   (* 206-211 *)
   ("SW_ALT_SPEAR", fun e => do pair <- acq e AcquisitionSelection (false, false) Spearman; do abs_l <- ucb e (false, false); Ok (switch MixedAlternating (top e) None [pair; abs_l]));   (* 212-217 *)
   ("SW_ALT_EPIC", fun e => do pair <- acq e AcquisitionSelection (false, false) Epic; do abs_l <- ucb e (false, false); Ok (switch MixedAlternating (top e) None [pair; abs_l]));   (* 218-223 *)
   ("SW_DEC_RHO", fun e => do pair <- acq e AcquisitionSelection (false, false) Rho; do abs_l <- ucb e (false, false); Ok (switch AlignmentDecision (top e) None [pair; abs_l]));   (* 224-229 *)
   ("SW_DEC_LL", fun e => do pair <- acq_default AcquisitionSelection (false, false) LogLik; do abs_l <- ucb e (false, false); Ok (switch AlignmentDecision (top e) None [pair; abs_l]));   (* 230-234 *)
   ("SW_DEC_SPEAR", fun e => do pair <- acq e AcquisitionSelection (false, false) Spearman; do abs_l <- ucb e (false, false); Ok (switch AlignmentDecision (top e) None [pair; abs_l]));   (* 235-240 *)
   ("SW_DEC_EPIC", fun e => do pair <- acq e AcquisitionSelection (false, false) Epic; do abs_l <- ucb e (false, false); Ok (switch AlignmentDecision (top e) None [pair; abs_l]));   (* 241-246 *)
   ("SW_CHECK_RHO", fun e => do abs_comp <- acq e AbsAcquisition (false, false) Rho; do pair <- acq e AcquisitionSelection (false, false) Rho; do abs_l <- ucb e (false, false); Ok (switch MixedComparisionEqualChecking (top e) None [pair; abs_l; abs_comp]));   (* 247-254 *)
   ("SW_CHECK_LL", fun e => do abs_comp <- acq e AbsAcquisition (false, false) LogLik; do pair <- acq e AcquisitionSelection (false, false) LogLik; do abs_l <- ucb e (false, false); Ok (switch MixedComparisionEqualChecking (top e) None [pair; abs_l; abs_comp]));   (* 255-262 *)
   ("SW_CHECK_SPEAR", fun e => do abs_comp <- acq e AbsAcquisition (false, false) Spearman; do pair <- acq e AcquisitionSelection (false, false) Spearman; do abs_l <- ucb e (false, false); Ok (switch MixedComparisionEqualChecking (top e) None [pair; abs_l; abs_comp]));   (* 263-270 *)
   ("SW_CHECK_EPIC", fun e => do abs_comp <- acq e AbsAcquisition (false, false) Epic; do pair <- acq e AcquisitionSelection (false, false) Epic; do abs_l <- ucb e (false, false); Ok (switch MixedComparisionEqualChecking (top e) None [pair; abs_l; abs_comp]));   (* 271-278 *)
   ("SW_MIX_RHO", fun e => do pair <- acq e AcquisitionSelection (false, false) Rho; do abs_l <- ucb e (false, false); Ok (switch MixedStrategy (top e) (Some (g_alpha e)) [pair; abs_l]));   (* 279-284 *)
   ("SW_MIX_LL", fun e => do pair <- acq e AcquisitionSelection (false, false) LogLik; do abs_l <- ucb e (false, false); Ok (switch MixedStrategy (top e) (Some (g_alpha e)) [pair; abs_l]));   (* 285-290 *)
   ("SW_MIX_SPEAR", fun e => do pair <- acq e AcquisitionSelection (false, false) Spearman; do abs_l <- ucb e (false, false); Ok (switch MixedStrategy (top e) (Some (g_alpha e)) [pair; abs_l]));   (* 291-296 *)
   ("SW_MIX_EPIC", fun e => do pair <- acq e AcquisitionSelection (false, false) Epic; do abs_l <- ucb e (false, false); Ok (switch MixedStrategy (top e) (Some (g_alpha e)) [pair; abs_l]));   (* 297-302 *)
   ("SW_MIX_PEAK_RHO", fun e => do pair <- acq e AcquisitionSelection (false, false) Rho; do abs_l <- ucb e (false, false); Ok (switch MixedStrategyPeak (top e) (Some (g_alpha e)) [pair; abs_l]));   (* 303-308 *)
   ("SW_MIX_PEAK_LL", fun e => do pair <- acq e AcquisitionSelection (false, false) LogLik; do abs_l <- ucb e (false, false); Ok (switch MixedStrategyPeak (top e) (Some (g_alpha e)) [pair; abs_l]));   (* 309-314 *)
   ("SW_MIX_PEAK_SPEAR", fun e => do pair <- acq e AcquisitionSelection (false, false) Spearman; do abs_l <- ucb e (false, false); Ok (switch MixedStrategyPeak (top e) (Some (g_alpha e)) [pair; abs_l]));   (* 315-320 *)
   ("SW_MIX_PEAK_EPIC", fun e => do pair <- acq e AcquisitionSelection (false, false) Epic; do abs_l <- ucb e (false, false); Ok (switch MixedStrategyPeak (top e) (Some (g_alpha e)) [pair; abs_l]));   (* 321-326 *)
   ("SW_MIX_PEAK2_SPEAR", fun e => do pair <- acq e AcquisitionSelection (false, false) Spearman; do abs_l <- ucb e (false, false); Ok (switch MixedStrategyPeak2 (top e) (Some (g_alpha e)) [pair; abs_l]));   (* 327-332 *)
   ("SW_MIX_PEAK3_SPEAR", fun e => do pair <- acq e AcquisitionSelection (false, false) Spearman; do abs_l <- ucb e (false, false); Ok (switch MixedStrategyPeak3 (top e) (Some (g_alpha e)) [pair; abs_l]));   (* 333-338 *)
   ("SW_MIX_REV_PEAK_SPEAR", fun e => do pair <- acq e AcquisitionSelection (false, false) Spearman; do abs_l <- ucb e (false, false); Ok (switch MixedStrategyRevPeak (top e) (Some (g_alpha e)) [pair; abs_l]));   (* 339-344 *)
   ("SW_MIX_DEC_SPEAR", fun e => do pair <- acq e AcquisitionSelection (false, false) Spearman; do abs_comp <- acq e AbsAcquisition (false, false) Spearman; do abs_l <- ucb e (false, false); Ok (switch MixedDecision (top e) (Some (g_alpha e)) [pair; abs_l; abs_comp]));   (* 345-352 *)
   ("SW_MIX_DEC2_SPEAR", fun e => do pair <- acq e AcquisitionSelection (false, false) Spearman; do abs_comp <- acq e AbsAcquisition (false, false) Spearman; do abs_l <- ucb e (false, false); Ok (switch MixedDecision2 (top e) (Some (g_alpha e)) [pair; abs_l; abs_comp]))   (* 353-360 *)
  ].
(** an if-elif chain (experiment_helper.py:55-359) *)
Fixpoint find_branch (s : string) (l : list (string * (args -> result learner))) : option (args -> result learner) :=
  match l with [] => None | (n, b) :: l' => if String.eqb s n then Some b else find_branch s l' end.
(** get_active_learner: [None] when no branch matches (line 54) *)
Definition get_active_learner (selector : string) (e : args) : result (option learner) :=
  match find_branch selector branches with Some b => do l <- b e; Ok (Some l) | None => Ok None end.
(** single_experiment.py:97-114 *)
Definition possible_selectors : list string :=
  ["UCB"; "SGV_UCB"; "RANDOM"; "MUTUAL_INFO"; "MUTUAL_INFO_PERF"; "BAYES_INFO_GAIN_PROBIT"; "BAYES_INFO_GAIN_999"; "ACQ_RHO";
   "ACQ_LL"; "ACQ_EPIC"; "ACQ_SPEAR"; "SW_BAYES_PROBIT"; "SW_ACQ_RHO"; "SW_ACQ_EPIC"; "SW_ACQ_LL"; "SW_ACQ_SPEAR"; "SW_UCB_RHO";
   "SW_UCB_EPIC"; "SW_UCB_LL"; "SW_UCB_SPEAR"; "SW_FIXED_RHO"; "SW_FIXED_EPIC"; "SW_FIXED_LL"; "SW_FIXED_SPEAR"; "SW_ALT_RHO";
   "SW_ALT_EPIC"; "SW_ALT_LL"; "SW_ALT_SPEAR"; "SW_DEC_RHO"; "SW_DEC_EPIC"; "SW_DEC_LL"; "SW_DEC_SPEAR"; "SW_CHECK_RHO";
   "SW_CHECK_EPIC"; "SW_CHECK_LL"; "SW_CHECK_SPEAR"; "SW_MIX_RHO"; "SW_MIX_EPIC"; "SW_MIX_LL"; "SW_MIX_SPEAR"; "SW_MIX_PEAK_RHO";
   "SW_MIX_PEAK_EPIC"; "SW_MIX_PEAK_LL"; "SW_MIX_PEAK_SPEAR"; "SW_MIX_PEAK2_SPEAR"; "SW_MIX_PEAK2_EPIC"; "SW_MIX_PEAK2_LL";
   "SW_MIX_PEAK2_SPEAR"; "SW_MIX_PEAK3_SPEAR"; "SW_MIX_PEAK3_EPIC"; "SW_MIX_PEAK3_LL"; "SW_MIX_PEAK3_SPEAR"; "SW_MIX_DEC_SPEAR";
   "SW_MIX_DEC2_SPEAR"; "SW_MIX_REV_PEAK_SPEAR"; "ABS_ACQ_RHO"; "ABS_ACQ_LL"; "ABS_ACQ_EPIC"; "ABS_ACQ_SPEAR"; "ABS_BAYES_PROBIT"].
(** the learner that a model asks for queries: [model.active_learner.select] of None fails (models/Model.py:131-132) *)
Definition asked (l : option learner) : result learner := match l with Some l => Ok l | None => Raise AttributeError end.
(** single_experiment.py:160-162 (an unknown selector ends the program), then experiment_helper.py:535, where no fake function is passed,
    and the first question *)
Inductive outcome := Exit | Run (r : result learner).
Definition start (selector : string) (e : args) : outcome :=
  if existsb (String.eqb selector) possible_selectors
  then Run (do l <- get_active_learner selector (mkargs (g_selection e) (g_rep e) (g_scalar e) (g_pareto e) (g_best e) (g_alpha e) (g_file e) false); asked l)
  else Exit.
