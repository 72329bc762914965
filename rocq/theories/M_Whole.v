(** Model of a whole PreferenceGP object (/repo/src/lop/models/PreferenceGP.py and PreferenceModel.py): the data store of M_Store, the
    fit of M_Mode and the prediction of M_GP put together, with the defaults normalize_gp=False and use_hyper_optimization=False
    (PreferenceGP.py:70-73). *)
From Coq Require Import QArith Qreals.
From Verif Require Import M_RBase M_Pareto M_Store M_Kernel M_GP M_Mode.
Local Open Scope R_scope.

(** the arguments of the constructor (PreferenceGP.py:70-73) and the attributes set in lines 87-88 and PreferenceModel.py:47.
    [c_inv] is self.invert_function where it may fail (line 253, newton_update catches the exception), [c_inv'] the same function where
    it must not (line 138) *)
Record gp_config := mkConfig {
  c_sp : special; c_k : kern; c_P : probit_set;
  c_inv : nat -> (nat -> nat -> R) -> option (nat -> nat -> R); c_inv' : nat -> (nat -> nat -> R) -> nat -> nat -> R;
  c_delta_f : R; c_maxloops : nat }.
(** self.F, self.W, self.K and self.n_loops (PreferenceGP.py:221, 280-285) *)
Record gp_fit := mkFit { f_F : list R; f_W : matrix; f_K : matrix; f_loops : nat }.
Record gp_object := mkObject { o_S : store; o_fit : option gp_fit }.
(** PreferenceGP.py:70-88: nothing stored, nothing fitted *)
Definition new_object (pareto_pairs : bool) : gp_object := mkObject (init pareto_pairs) None.

(** the stored points and labels as the numbers used by the fit: PreferenceModel.py:191-252 stores them in numpy arrays *)
Definition train_pts (s : store) : list point := map (map Q2R) (pts_of s).
Definition train_labels (s : store) : M_Fit.labels :=
  mkLabels (sRel s)
           (option_map (fun o => combine (map Z.to_nat (fst o)) (snd o)) (sOrd s))
           (option_map (fun a => combine (map Q2R (fst a)) (snd a)) (sAbs s)).
(** PreferenceGP.py:218-288 [find_mode] on all stored data (line 337); [draw] are the numbers returned by numpy.random.random (line 223) *)
Definition fit_object (c : gp_config) (s : store) (draw : nat -> R) : result gp_fit :=
  let X := train_pts s in
  let n := length X in
  let y := train_labels s in
  do K <- kcov (c_k c) X X;
  do r <- fit_mode (c_sp c) (c_P c) y n (mat_at K) (c_inv c) (c_delta_f c) (c_maxloops c) (map draw (seq 0 n));
  do d <- derivatives (c_sp c) (c_P c) y (entries (snd r));
  Ok (mkFit (snd r) (map (fun i => map (fst (fst d) i) (seq 0 n)) (seq 0 n)) K (fst r)).
(** PreferenceGP.py:110-149: predict with the fitted attributes.  Without them an AttributeError is raised; line 134 multiplies a matrix
    with one column per stored point by a vector with one entry per fitted point *)
Definition use_fit (c : gp_config) (o : gp_object) (X : list point) : result (list R * list R) :=
  match o_fit o with
  | None => Raise AttributeError
  | Some f =>
      if Nat.eqb (length (f_F f)) (length (train_pts (o_S o)))
      then pgp_predict (c_inv' c) (c_k c) (Some (Build_pgp_data (train_pts (o_S o)) (f_F f) (f_W f) (f_K f))) X
      else Raise ValueError
  end.
(** PreferenceGP.py:97-149 [predict].  When the fit raises, self.optimized stays False (line 338), so that whatever find_mode has left in
    the attributes is replaced before the next use; the old attributes are kept here *)
Definition obj_predict (c : gp_config) (o : gp_object) (X : list point) (draw : nat -> R) : gp_object * result (list R * list R) :=
  match sX (o_S o) with
  | None => (o, pgp_predict (c_inv' c) (c_k c) None X)
  | Some _ =>
      if sOpt (o_S o) then (o, use_fit c o X)
      else match fit_object c (o_S o) draw with
           | Ok f => let o' := mkObject (set_opt (o_S o) true) (Some f) in (o', use_fit c o' X)
           | Raise e => (o, Raise e)
           end
  end.

(** the calls of a user: add, add_prior, remove_without_reference, reset (PreferenceModel.py:75-279) and predict *)
Inductive call := CStore (o : op) | CPredict (X : list point) (draw : nat -> R).
Definition obj_step (c : gp_config) (o : gp_object) (k : call) : gp_object :=
  match k with
  | CStore s => mkObject (fst (step (o_S o) s)) (o_fit o)
  | CPredict X draw => fst (obj_predict c o X draw)
  end.
Definition obj_run (c : gp_config) (o : gp_object) (l : list call) : gp_object := fold_left (obj_step c) l o.
