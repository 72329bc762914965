(** What the options of an experiment promise. *)
From Coq Require Import String List QArith.
From Verif Require Import M_Base M_Config M_Setup.
Import ListNotations.
Local Open Scope string_scope.

(** the name of a utility function *)
Definition fake_name (f : fclass) : string :=
  match f with FLinear => "linear" | FSquared => "squared" | FLogistic => "logistic" | FSinExp => "sin_exp" | FMin => "min" | FMax => "max"
  | FSquaredMinMax => "squared_min_max" | FMinLog _ => "min_log" end.
Definition fake_alpha (f : fclass) : option Q := match f with FMinLog a => Some a | _ => None end.
Definition model_name (c : mclass) : string := match c with GPModel _ _ _ _ _ _ => "gp" | LinearModel => "linear" end.
(** whether hyper-parameters are optimised, in the words of the option *)
Definition hyper_name (h : bool) : string := if h then "hyper" else "no".
(** the model has the parameters of the options and of the configuration *)
Definition parametrised (o : options) (k : cfg) (m : mdesc) : Prop :=
  d_pareto m = k_pareto k /\ d_spair m = o_spair o /\ d_sabs m = o_sabs o /\ d_v m = o_v o /\
  match d_class m with
  | GPModel s l n a p h => s = o_rbf_sigma o /\ l = o_rbf_l o /\ n = k_noise k /\ a = k_norm k /\ p = k_normpos k /\ hyper_name h = o_hyper o
  | LinearModel => True
  end.
(** no folder is made *)
Definition folder_made (r : setup_end) : bool := match r with Refused0 => false | _ => true end.
(** the program ends with an error status *)
Definition reports_error (r : setup_end) : bool := match r with Failed _ => true | _ => false end.
(** the options whose values are checked before the folder is made have one of their values *)
Definition checked (o : options) : Prop :=
  In (o_selector o) possible_selectors /\
  In (o_fake o) ["linear"; "squared"; "logistic"; "sin_exp"; "max"; "min"; "squared_min_max"; "min_log"] /\ In (o_model o) ["gp"; "linear"] /\
  In (o_seltype o) ["choose1"; "ranking"; "rating"; "switch"] /\ (o_pareto o = "true" \/ o_pareto o = "false").
(** the values that the help texts give for the other options (single_experiment.py:130, 134, 135) *)
Definition documented (o : options) : Prop :=
  (o_rep o = "sampled" \/ o_rep o = "stable") /\ (o_user o = "perfect" \/ o_user o = "human_choice") /\ (o_hyper o = "hyper" \/ o_hyper o = "no").
(** the learner that the options name (experiment_helper.py:535) *)
Definition learned (o : options) (k : cfg) : result (option learner) :=
  get_active_learner (o_selector o) (mkargs (o_seltype o) (o_rep o) (k_scalar k) (String.eqb (o_pareto o) "true") (k_best k) (o_alpha o) (k_file k) false).
