(** Model of how an experiment is set up: the checks of /repo/experiments/single_experiment.py:158-199 and, in
    /repo/experiments/experiment_helper.py, [get_model] (365-395), [get_synth_user] (397-403), [get_fake_func] (405-423) and lines 524-656
    of [train_and_eval].  A model is described by its class, the arguments of its constructor and the parameters of its probits.  The
    files are taken as readable, the results folder as new; the point of lines 653-656 is left out (it is a call of [add], [M_Store]). *)
From Coq Require Export String.
From Verif Require Import M_Base M_Config.
Local Open Scope string_scope.
Import ListNotations.
Local Open Scope list_scope.

(** the arguments of the program (single_experiment.py:125-149) that name or parametrise a part of the experiment *)
Record options := mkoptions { o_model : string; o_selector : string; o_rep : string; o_seltype : string; o_user : string; o_hyper : string;
  o_pareto : string; o_fake : string; o_v : Q; o_sabs : Q; o_spair : Q; o_rbf_sigma : Q; o_rbf_l : Q; o_alpha : Q; o_alpha_fake : Q }.
(** the configuration file (config.yaml), as far as lines 524-656 read it; [k_dim] is [dim_rewards] of the data (line 518) *)
Record cfg := mkcfg { k_pareto : bool; k_best : bool; k_scalar : Q; k_file : string; k_noise : Q; k_norm : bool; k_normpos : bool;
  k_prior : bool; k_dim : nat }.
(** lines 379-389: PreferenceGP with RBF_kern(sigma, l, sigma_noise) and its flags (normalize_gp, normalize_positive,
    use_hyper_optimization), or PreferenceLinear *)
Inductive mclass := GPModel (rbf_sigma rbf_l noise : Q) (norm normpos hyper : bool) | LinearModel.
(** ... with pareto_pairs and the active learner, and lines 391-393: sigma of the comparison probit, sigma and v of the rating probit *)
Record mdesc := mkmdesc { d_class : mclass; d_pareto : bool; d_learner : option learner; d_spair : Q; d_sabs : Q; d_v : Q }.
(** lines 405-423: the classes of utilities/FakeFunction.py, with their dimension *)
Inductive fclass := FLinear | FSquared | FLogistic | FSinExp | FMin | FMax | FSquaredMinMax | FMinLog (alpha : Q).
(** how the program goes on: it ends at once with status 0; or it ends with status 0 or an exception after the folder of line 195 was
    made; or it arrives at line 658 *)
Inductive setup_end := Refused0 | Exit0 | Failed (e : exn) | Ready (m : mdesc) (f : fclass) (dim : nat).
(** a step that may leave the program *)
Inductive step (A : Type) := Next (a : A) | Stop (r : setup_end).
Arguments Next {A} a. Arguments Stop {A} r.
(** sequencing *)
Definition andthen {A} (s : step A) (f : A -> setup_end) : setup_end := match s with Next a => f a | Stop r => r end.
Definition step_of {A} (r : result A) : step A := match r with Ok a => Next a | Raise e => Stop (Failed e) end.
(** lines 365-395 [get_model]; an unknown model leaves None, whose [probits] fail *)
Definition get_model (o : options) (k : cfg) (l : option learner) : step mdesc :=
  let finish c := Next (mkmdesc c (k_pareto k) l (o_spair o) (o_sabs o) (o_v o)) in
  if String.eqb (o_model o) "gp" then
    (if String.eqb (o_hyper o) "no" then finish (GPModel (o_rbf_sigma o) (o_rbf_l o) (k_noise k) (k_norm k) (k_normpos k) false)
     else if String.eqb (o_hyper o) "hyper" then finish (GPModel (o_rbf_sigma o) (o_rbf_l o) (k_noise k) (k_norm k) (k_normpos k) true)
     else Stop Exit0)                                                                        (* line 377 *)
  else if String.eqb (o_model o) "linear" then finish LinearModel
  else Stop (Failed AttributeError).                                                         (* line 391 *)
(** lines 406-421, the branches in their order *)
Definition fake_branches (alpha : Q) : list (string * fclass) :=
  [("linear", FLinear); ("squared", FSquared); ("logistic", FLogistic); ("sin_exp", FSinExp); ("min", FMin); ("max", FMax);
   ("squared_min_max", FSquaredMinMax); ("min_log", FMinLog alpha)].
(** lines 405-423 [get_fake_func]; [func] stays unbound for any other name *)
Definition get_fake_func (o : options) : step fclass :=
  match find (fun b => String.eqb (o_fake o) (fst b)) (fake_branches (o_alpha_fake o)) with Some b => Next (snd b) | None => Stop (Failed UnboundLocalError) end.
(** lines 397-403 [get_synth_user] and 563 [learn_beta], which PerfectUser does not have (synthetic_user.py:54-74); [tuned] is its
    outcome for the other user *)
Definition get_user (o : options) (tuned : result unit) : step unit :=
  if String.eqb (o_user o) "perfect" then Stop (Failed AttributeError)
  else if String.eqb (o_user o) "human_choice" then step_of tuned
  else Stop (Failed UnboundLocalError).
(** lines 651-652 [add_prior]: without pareto_pairs it returns (PreferenceModel.py:77-79), else [bounds[:,1]] of a list from the
    configuration fails (line 81) *)
Definition prior_step (k : cfg) : step unit := if k_prior k && k_pareto k then Stop (Failed TypeError) else Next tt.
(** lines 524-656 *)
Definition prepare (o : options) (k : cfg) (def_pareto : bool) (tuned : result unit) : setup_end :=
  andthen (step_of (get_active_learner (o_selector o) (mkargs (o_seltype o) (o_rep o) (k_scalar k) def_pareto (k_best k) (o_alpha o) (k_file k) false)))
    (fun l => andthen (get_model o k l) (fun m => andthen (get_fake_func o) (fun f => andthen (get_user o tuned) (fun _ =>
      andthen (prior_step k) (fun _ => Ready m f (k_dim k)))))).
(** single_experiment.py:113-115 *)
Definition possible_selection_types : list string := ["choose1"; "ranking"; "rating"; "switch"].
Definition possible_fake_funcs : list string := ["linear"; "squared"; "logistic"; "sin_exp"; "max"; "min"; "squared_min_max"; "min_log"].
Definition possible_models : list string := ["gp"; "linear"].
Definition is_in (s : string) (l : list string) : bool := existsb (String.eqb s) l.
(** single_experiment.py:160-199: the checks, then the folder is made (line 195) and the first run starts *)
Definition setup (o : options) (k : cfg) (tuned : result unit) : setup_end :=
  if negb (is_in (o_selector o) possible_selectors) then Refused0
  else if negb (is_in (o_fake o) possible_fake_funcs) then Refused0
  else if negb (is_in (o_model o) possible_models) then Refused0
  else if negb (is_in (o_seltype o) possible_selection_types) then Refused0
  else if String.eqb (o_pareto o) "true" then prepare o k true tuned
  else if String.eqb (o_pareto o) "false" then prepare o k false tuned
  else Refused0.
