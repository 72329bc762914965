(** Model of the objective that the preference models fit and of its derivatives: [log_likelyhood_training] of
    /repo/src/lop/models/PreferenceModel.py, [derivatives], [likli_f] and the body of [find_mode] in PreferenceGP.py, and
    PreferenceLinear.py.  Matrices and vectors are given by their entries. *)
From Verif Require Export M_PrefProbit M_OrdProbit M_AbsProbit M_Search.
From Verif Require Import M_Acq M_GP.
Local Open Scope R_scope.

(** PreferenceModel.py:47 [self.probits]; [ps_eps] is eps of the ordinal and the rating probit (OrdinalProbit.py:55, AbsBoundProbit.py:126) *)
Record probit_set := mkProbits { ps_p : pref_probit; ps_o : ord_probit; ps_a : abs_probit; ps_eps : R }.
(** PreferenceModel.py:55 [self.y_train]: one entry per probit, [None] when there are no labels of the kind *)
Record labels := mkLabels { y_rel : option (list pair); y_ord : option (list (nat * nat)); y_abs : option (list (R * nat)) }.

(** sum of log likelihoods, [None] being minus infinity *)
Definition oplus (a b : option R) : option R := match a, b with Some x, Some y => Some (x + y) | _, _ => None end.
(** PreferenceModel.py:286-301 [log_likelyhood_training] for a latent vector of length [n]; an exception of a probit is caught by the
    debugger (lines 293-297), here it is passed on *)
Definition log_likelyhood_training (sp : special) (P : probit_set) (y : labels) (n : nat) (F : nat -> R) : result (option R) :=
  let p0 := match y_rel y with None => Some 0 | Some r => Some (0 + log_likelihood (p_sigma (ps_p P)) r F) end in
  do p1 <- match y_ord y with None => Ok p0 | Some o => do l <- ord_log_likelihood (ps_o P) o F; Ok (oplus p0 l) end;
  Ok match y_abs y with None => p1 | Some a => oplus p1 (Some (abs_log_likelihood sp (ps_a P) (ps_eps P) a n F)) end.

(** W, gradient and log likelihood *)
Definition derivs : Type := (nat -> nat -> R) * (nat -> R) * option R.
Definition derivs_add (a b : derivs) : derivs :=
  (fun i j => fst (fst a) i j + fst (fst b) i j, fun i => snd (fst a) i + snd (fst b) i, oplus (snd a) (snd b)).
(** PreferenceGP.py:192-207 [derivatives]; PreferenceProbit.py:290-295 for the pairs *)
Definition derivatives (sp : special) (P : probit_set) (y : labels) (F : nat -> R) : result derivs :=
  let d0 : derivs := (fun _ _ => 0, fun _ => 0, Some 0) in
  let d1 := match y_rel y with
            | None => d0
            | Some r => let s := p_sigma (ps_p P) in derivs_add d0 (calc_W s r F, derv_log_likelyhood s r F, Some (log_likelihood s r F))
            end in
  do d2 <- match y_ord y with None => Ok d1 | Some o => do d <- ord_derivatives (ps_o P) (ps_eps P) o F; Ok (derivs_add d1 d) end;
  Ok match y_abs y with
     | None => d2
     | Some a => let d := abs_derivatives sp (ps_a P) (ps_eps P) a F in derivs_add d2 (fst (fst d), snd (fst d), Some (snd d))
     end.

(** PreferenceGP.py:633-655 [likli_f]: [L] is the Cholesky factor of the covariance *)
Definition likli_f (sp : special) (P : probit_set) (y : labels) (n : nat) (L : nat -> nat -> R) (F : nat -> R) : result (option R) :=
  do log_py_f <- log_likelyhood_training sp P y n F;
  let term1 := 5 / 10 * sum_to n (fun i => F i * cho_solve n L F i) in
  let term2 := sum_to n (fun i => ln (L i i)) in
  let term3 := 5 / 10 * INR n * ln (2 * PI) in
  Ok (option_map (fun l => l - term1 - term2 - term3) log_py_f).

(** PreferenceGP.py:231 [np.linalg.inv(L)] of a triangular matrix: column [j] solves L x = e_j *)
Definition inv_lower (n : nat) (L : nat -> nat -> R) : nat -> nat -> R := fun a j => fwd n L (fun i => if Nat.eqb i j then 1 else 0) a.
(** line 232 [L_inv.T @ L_inv] *)
Definition k_inv (n : nat) (L : nat -> nat -> R) : nat -> nat -> R :=
  fun i j => sum_to n (fun a => inv_lower n L a i * inv_lower n L a j).
(** line 243 and line 246 *)
Definition mode_gradient (n : nat) (L : nat -> nat -> R) (grad_ll F : nat -> R) : nat -> R := fun i => grad_ll i - cho_solve n L F i.
Definition mode_hess (n : nat) (L W : nat -> nat -> R) : nat -> nat -> R := fun i j => - W i j - k_inv n L i j.
(** PreferenceModel.py:397-400: [gradient @ invert_function(hess)], the gradient itself when the inversion fails ([None]).
    [inv] is self.invert_function for PreferenceGP (PreferenceGP.py:253, numpy.linalg.pinv unless the user chooses another), and the
    default numpy.linalg.inv for PreferenceLinear, which does not pass its mat_inv (PreferenceLinear.py:90-95) *)
Definition descent (inv : nat -> (nat -> nat -> R) -> option (nat -> nat -> R)) (n : nat) (g : nat -> R) (H : nat -> nat -> R) : list R :=
  match inv n H with
  | Some B => map (fun j => sum_to n (fun i => g i * B i j)) (seq 0 n)
  | None => map g (seq 0 n)
  end.
Definition entries (F : list R) : nat -> R := fun i => nth i F 0.
(** the objective for the line search; labels for which a probit raises are excluded by the data store *)
Definition objective (loss : (nat -> R) -> result (option R)) (F : list R) : option R :=
  match loss (entries F) with Ok v => v | Raise _ => None end.
(** PreferenceGP.py:240-254: the body of the loop of [find_mode] without the normalisation *)
Definition mode_step (sp : special) (P : probit_set) (y : labels) (n : nat) (L : nat -> nat -> R)
  (inv : nat -> (nat -> nat -> R) -> option (nat -> nat -> R)) (F : list R) : result (list R) :=
  do d <- derivatives sp P y (entries F);
  let g := mode_gradient n L (snd (fst d)) (entries F) in
  let H := mode_hess n L (fst (fst d)) in
  newton_update F (descent inv n g H) (objective (likli_f sp P y n L)) Binary 3.

(** ---- PreferenceLinear.py; [X] is the matrix of the [n] training points with [d] features ---- *)
(** lines 61, 124 and 152: [x @ w] *)
Definition lin_F (d : nat) (X : nat -> nat -> R) (w : nat -> R) : nat -> R := fun i => sum_to d (fun a => X i a * w a).
(** PreferenceLinear.py:49-63 [predict]: [dims] is len(X.shape); [w] the weights of the optimised model; without data, random weights
    [rand] in [0, 1) (lines 58-60) *)
Definition lin_predict (dims : nat) (data : bool) (d : nat) (X : nat -> nat -> R) (rand w : nat -> R) : result (nat -> R) :=
  if data then Ok (lin_F d X w) else if Nat.eqb dims 1 then Raise GenericException else Ok (lin_F d X rand).
(** PreferenceLinear.py:123-142 [derivatives]; line 130 tests self.y_train, which is the argument y in line 85 *)
Definition lin_derivatives (sp : special) (P : probit_set) (y : labels) (n d : nat) (X : nat -> nat -> R) (w : nat -> R) : result derivs :=
  do r <- derivatives sp P y (lin_F d X w);
  let grad_ll := snd (fst r) in
  let W := fst (fst r) in
  Ok (fun a b => sum_to n (fun j => sum_to n (fun i => X i a * W i j) * X j b), fun a => sum_to n (fun i => grad_ll i * X i a), snd r).
(** PreferenceLinear.py:148-153 [loss_func] of a model with data *)
Definition lin_loss (sp : special) (P : probit_set) (y : labels) (n d : nat) (X : nat -> nat -> R) (w : nat -> R) : result (option R) :=
  log_likelyhood_training sp P y n (lin_F d X w).
(** PreferenceLinear.py:85-95: one update of [optimize] *)
Definition lin_step (sp : special) (P : probit_set) (y : labels) (n d : nat) (X : nat -> nat -> R)
  (inv : nat -> (nat -> nat -> R) -> option (nat -> nat -> R)) (w : list R) : result (list R) :=
  do r <- lin_derivatives sp P y n d X (entries w);
  let H := fun a b => - fst (fst r) a b in
  newton_update w (descent inv d (snd (fst r)) H) (objective (lin_loss sp P y n d X)) Binary 5.
(** PreferenceLinear.py:83-104 [optimize] from the weights [w0] (random, lines 72-73); [far] is w_err > delta_f *)
Definition lin_optimize (sp : special) (P : probit_set) (y : labels) (n d : nat) (X : nat -> nat -> R)
  (inv : nat -> (nat -> nat -> R) -> option (nat -> nat -> R)) (far : list R -> list R -> bool) (w0 : list R) (maxloops fuel : nat)
  : result (nat * list R) :=
  linear_optimize (fun _ => lin_step sp P y n d X inv) far w0 maxloops fuel.
