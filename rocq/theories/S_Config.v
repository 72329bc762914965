(** What the name of a selector promises, and what a learner consists of. *)
From Coq Require Import String List QArith.
From Verif Require Import M_Config.
Import ListNotations.

Definition ends_with (t s : string) : bool := String.eqb (String.substring (String.length s - String.length t) (String.length t) s) t.
(** the ending of a name that stands for an alignment function *)
Definition suffix (a : alignment) : string :=
  match a with Rho => "_RHO" | LogLik => "_LL" | Epic => "_EPIC" | Spearman => "_SPEAR" end%string.
(** the fields *)
Definition l_class (l : learner) : class := let '(Learner c _ _ _ _ _ _ _ _) := l in c.
Definition l_flags (l : learner) : bool * bool := let '(Learner _ f _ _ _ _ _ _ _) := l in f.
Definition l_alignment (l : learner) : option alignment := let '(Learner _ _ a _ _ _ _ _ _) := l in a.
Definition l_rep (l : learner) : option rep := let '(Learner _ _ _ r _ _ _ _ _) := l in r.
Definition l_scalar (l : learner) : option Q := let '(Learner _ _ _ _ s _ _ _ _) := l in s.
Definition l_alpha (l : learner) : option Q := let '(Learner _ _ _ _ _ a _ _ _) := l in a.
Definition l_fake (l : learner) : bool := let '(Learner _ _ _ _ _ _ f _ _) := l in f.
Definition l_parts (l : learner) : list learner := let '(Learner _ _ _ _ _ _ _ _ p) := l in p.
(** a learner and everything it uses *)
Definition within (l : learner) : list learner := l :: l_parts l.
(** the learner asks for a rating of one path / for a comparison *)
Definition asks_rating (c : class) : bool := match c with AbsAcquisition | AbsBayesInfo => true | _ => false end.
Definition asks_comparison (c : class) : bool := match c with AcquisitionSelection | BayesInfoGain => true | _ => false end.
(** the method of a learner that has one *)
Definition l_method (l : learner) : option string := let '(Learner _ _ _ _ _ _ _ m _) := l in m.
(** the beginning of a name stands for the class of the learner that decides *)
Definition promised : list (string * class) :=
  [("UCB", UCBLearner); ("SGV_UCB", GV_UCBLearner); ("MUTUAL_INFO", MutualInfoLearner); ("RANDOM", RandomLearner); ("BAYES_INFO_GAIN", BayesInfoGain);
   ("ACQ_", AcquisitionSelection); ("ABS_ACQ_", AbsAcquisition); ("SW_ACQ_", RateChooseLearner); ("SW_BAYES_", RateChooseLearner);
   ("SW_UCB_", MixedComparision); ("SW_FIXED_", MixedComparisionSetFixed); ("SW_ALT_", MixedAlternating); ("SW_DEC_", AlignmentDecision);
   ("SW_CHECK_", MixedComparisionEqualChecking); ("SW_MIX_RHO", MixedStrategy); ("SW_MIX_LL", MixedStrategy); ("SW_MIX_EPIC", MixedStrategy);
   ("SW_MIX_SPEAR", MixedStrategy); ("SW_MIX_PEAK_", MixedStrategyPeak); ("SW_MIX_PEAK2_", MixedStrategyPeak2); ("SW_MIX_PEAK3_", MixedStrategyPeak3);
   ("SW_MIX_REV_PEAK_", MixedStrategyRevPeak); ("SW_MIX_DEC_", MixedDecision); ("SW_MIX_DEC2_", MixedDecision2)]%string.
