(** Model of the objective of the hyper-parameter search and of its gradient: [likli_f_hyper], [grad_likli_f_hyper],
    [hyperparameter_obj] and [hyperparamter_obj_grad] of /repo/src/lop/models/PreferenceGP.py. *)
From Verif Require Export M_Fit M_GP.
From Verif Require Import M_Fake M_Acq.
From Verif Require M_Hyper.
Local Open Scope R_scope.

(** the columns that are left when column [j] is removed *)
Definition skip (j c : nat) : nat := if Nat.ltb c j then c else S c.
(** [np.linalg.det] (PreferenceGP.py:617): expansion along the first row *)
Fixpoint det (n : nat) (A : nat -> nat -> R) : R :=
  match n with
  | O => 1
  | S m => sum_to (S m) (fun j => (-1) ^ j * A O j * det m (fun r c => A (S r) (skip j c)))
  end.
(** matrix product, [np.eye(n) + K @ W] (lines 531 and 616), [np.trace] *)
Definition mprod (n : nat) (A B : nat -> nat -> R) : nat -> nat -> R := fun i j => sum_to n (fun a => A i a * B a j).
Definition eye_plus (n : nat) (K W : nat -> nat -> R) : nat -> nat -> R := fun i j => (if Nat.eqb i j then 1 else 0) + mprod n K W i j.
Definition trace (n : nat) (A : nat -> nat -> R) : R := sum_to n (fun i => A i i).

(** PreferenceGP.py:602-622 [likli_f_hyper] with [K] of line 603; [None] stands for minus infinity, and for the NaN or infinity
    that the logarithm of a determinant gives that is not positive *)
Definition likli_f_hyper (sp : special) (P : probit_set) (y : labels) (n : nat) (K : nat -> nat -> R) (F : nat -> R) : result (option R) :=
  do d <- derivatives sp P y F;                                                            (* line 609 *)
  match chol n K with
  | None => Raise LinAlgError                                                              (* line 611 *)
  | Some L =>
      let term1 := 5 / 10 * sum_to n (fun i => F i * cho_solve n L F i) in
      let tmp := det n (eye_plus n K (fst (fst d))) in
      Ok (if Rltb 0 tmp then option_map (fun log_py_f => log_py_f - term1 - 5 / 10 * ln tmp) (snd d) else None)
  end.

(** lines 535-542: [None] when there are no labels; the ordinal probit has no calc_W_dF (ProbitBase.py:129-130) *)
Definition all_W_dF (sp : special) (P : probit_set) (y : labels) (F : nat -> R) : result (option (nat -> nat -> nat -> R)) :=
  let d1 := option_map (fun r => calc_W_dF (p_sigma (ps_p P)) r F) (y_rel y) in
  match y_ord y with
  | Some _ => Raise NotImplementedError
  | None =>
      Ok match d1, y_abs y with
         | _, None => d1
         | None, Some a => Some (abs_W_dF sp (ps_a P) (ps_eps P) a F)
         | Some D, Some a => Some (fun i j k => D i j k + abs_W_dF sp (ps_a P) (ps_eps P) a F i j k)
         end
  end.
(** lines 549-559: one parameter of the covariance function.  The trace of line 557 is taken for every first index of dW_f *)
Definition cov_entry (n : nat) (K B_inv W : nat -> nat -> R) (alpha_K grad_ll : nat -> R) (dW_f : nat -> nat -> nat -> R) (dK : nat -> nat -> R) : R :=
  let termA_1 := 5 / 10 * sum_to n (fun j => sum_to n (fun i => alpha_K i * dK i j) * alpha_K j) in
  let termA_2 := 5 / 10 * trace n (mprod n (mprod n B_inv dK) W) in
  let termB_2 i := sum_to n (fun j => mprod n B_inv dK i j * grad_ll j) in
  let termB_1 i := 5 / 10 * trace n (mprod n (mprod n B_inv K) (dW_f i)) in
  termA_1 - termA_2 + sum_to n (fun i => termB_2 i - termB_1 i).
(** lines 566-576: one parameter of a probit *)
Definition probit_entry (n : nat) (K B_inv : nat -> nat -> R) (grad_theta : R) (dW : nat -> nat -> R) : R :=
  grad_theta - 5 / 10 * trace n (mprod n (mprod n B_inv K) dW).
(** PreferenceGP.py:522-591 [grad_likli_f_hyper] with [K] and [dKs] of lines 523-524; [inv] is self.invert_function; [None] is the
    value None of grad_hyper in line 585.  A dW_f that is None cannot be multiplied in line 557. *)
Definition grad_likli_f_hyper (sp : special) (P : probit_set) (y : labels) (only_probit : bool) (inv : nat -> (nat -> nat -> R) -> nat -> nat -> R)
  (n : nat) (K : nat -> nat -> R) (dKs : list (nat -> nat -> R)) (F : nat -> R) : result (option (list R)) :=
  do d <- derivatives sp P y F;                                                            (* line 526 *)
  match chol n K with
  | None => Raise LinAlgError                                                              (* line 528 *)
  | Some L =>
      let alpha_K := cho_solve n L F in
      let W := fst (fst d) in
      let B_inv := inv n (eye_plus n K W) in
      do dW_f <- all_W_dF sp P y F;
      do dL_cov_f <- match dKs, dW_f with
                     | [], _ => Ok []
                     | _, None => Raise ValueError
                     | _, Some D => Ok (map (cov_entry n K B_inv W alpha_K (snd (fst d)) D) dKs)
                     end;
      let g_rel := match y_rel y with
                   | Some r => if p_opt (ps_p P)
                               then Some [probit_entry n K B_inv (grad_hyper (p_sigma (ps_p P)) r F) (calc_W_dHyper (p_sigma (ps_p P)) r F)]
                               else None
                   | None => None
                   end in
      let g_abs := match y_abs y with
                   | Some a => if a_opt (ps_a P)
                               then Some (zipw (probit_entry n K B_inv) (abs_grad_hyper sp (ps_a P) (ps_eps P) a F)
                                               (abs_W_dHyper sp (ps_a P) (ps_eps P) a F))
                               else None
                   | None => None
                   end in
      let probits := match g_rel, g_abs with Some g, Some h => Some (g ++ h) | Some g, None => Some g | None, o => o end in   (* lines 578-583 *)
      Ok (if only_probit then probits else Some (match probits with Some g => g ++ dL_cov_f | None => dL_cov_f end))
  end.

(** ---- the functions called by [hyperparameter_search] (lines 346-366) ---- *)
(** the state left by [find_mode] on the training part: X_train, self.F, self.K (the covariance at the former parameters), y_train *)
Record fold := mkFold { fo_X : list point; fo_F : list R; fo_K : matrix; fo_y : labels }.
Definition to_matrix (n : nat) (A : nat -> nat -> R) : matrix := map (fun i => map (A i) (seq 0 n)) (seq 0 n).
Definition probits_of (eps : R) (m : M_Hyper.hmodel) : probit_set := mkProbits (M_Hyper.h_p m) (M_Hyper.h_o m) (M_Hyper.h_a m) eps.
(** lines 350-351 and 361-362: the values predicted for the validation points; [m] is the model after set_hyper *)
Definition predicted (sp : special) (eps : R) (inv : nat -> (nat -> nat -> R) -> nat -> nat -> R) (m : M_Hyper.hmodel) (k : kern) (f : fold)
  (X_valid : list point) : result (list R) :=
  do d <- derivatives sp (probits_of eps m) (fo_y f) (entries (fo_F f));
  let st := {| pX := fo_X f; pF := fo_F f; pW := to_matrix (length (fo_F f)) (fst (fst d)); pK := fo_K f |} in
  do r <- pgp_predict inv k (Some st) X_valid;
  Ok (fst r).
(** PreferenceGP.py:346-356 [hyperparameter_obj]; [g] is the gamma function of the priors *)
Definition hyperparameter_obj (sp : special) (g : R -> R) (eps : R) (inv : nat -> (nat -> nat -> R) -> nat -> nat -> R) (m : M_Hyper.hmodel)
  (f : fold) (X_valid : list point) (y_valid : labels) (x : list R) : result (option R) :=
  do m' <- M_Hyper.set_hyper m x;
  match M_Hyper.h_kern m' with
  | None => Raise AttributeError
  | Some k =>
      do F <- predicted sp eps inv m' k f X_valid;
      do K <- kcov k X_valid X_valid;
      do l <- likli_f_hyper sp (probits_of eps m') y_valid (length X_valid) (mat_at K) (entries F);
      Ok (option_map Ropp (M_Fit.oplus l (M_Hyper.hyper_likelihood g m')))
  end.
(** [-a - b] for two vectors (line 364); vectors of different lengths do not broadcast, unless one of them has length one *)
Definition minus_both (a b : list R) : result (list R) :=
  if Nat.eqb (length a) (length b) then Ok (zipw (fun x y => - x - y) a b)
  else match a, b with
       | [x], _ => Ok (map (fun y => - x - y) b)
       | _, [y] => Ok (map (fun x => - x - y) a)
       | _, _ => Raise ValueError
       end.
(** PreferenceGP.py:358-366 [hyperparamter_obj_grad] *)
Definition hyperparamter_obj_grad (sp : special) (eps : R) (inv : nat -> (nat -> nat -> R) -> nat -> nat -> R) (m : M_Hyper.hmodel)
  (f : fold) (X_valid : list point) (y_valid : labels) (x : list R) : result (list R) :=
  do m' <- M_Hyper.set_hyper m x;
  match M_Hyper.h_kern m' with
  | None => Raise AttributeError
  | Some k =>
      do F <- predicted sp eps inv m' k f X_valid;
      do K <- kcov k X_valid X_valid;                                                      (* line 523 *)
      do dK <- kcov_grad k X_valid X_valid;
      do gr <- grad_likli_f_hyper sp (probits_of eps m') y_valid (M_Hyper.h_only_probit m') inv (length X_valid) (mat_at K)
                 (map mat_at (mats dK)) (entries F);
      match gr with
      | None => Raise TypeError                                                            (* minus None *)
      | Some gr => minus_both gr (M_Hyper.grad_hyper_likelihood m')
      end
  end.
