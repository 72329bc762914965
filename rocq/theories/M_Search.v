(** Model of the optimisation loops: line searches and Newton update of /repo/src/lop/models/PreferenceModel.py, the loops
    of PreferenceGP.py (find_mode, optimize, hyperparameter_search) and PreferenceLinear.py (optimize).
    Values of the objective are [option R], [None] being minus infinity.  NaN is modelled only where stated. *)
From Verif Require Import M_RBase.
Local Open Scope R_scope.

(** [x > y] for objective values *)
Definition ogtb (x y : option R) : bool :=
  match x, y with None, _ => false | Some _, None => true | Some a, Some b => Rltb b a end.

(** PreferenceModel.py:426-448 [binary_line_search]; [phi lam] is loss_func(F - lam*descent) *)
Fixpoint binary_line_search (phi : R -> option R) (min_lambda max_lambda : R) (max_itr : nat) : R :=
  match max_itr with
  | O => 5 / 10 * (min_lambda + max_lambda)
  | S n =>
      let lam_dis := max_lambda - min_lambda in
      let mid_lambda := lam_dis * (5 / 10) + min_lambda in
      let lam_1 := lam_dis * (25 / 100) + min_lambda in
      let lam_2 := lam_dis * (75 / 100) + min_lambda in
      if ogtb (phi lam_1) (phi lam_2) then binary_line_search phi min_lambda mid_lambda n
      else binary_line_search phi mid_lambda max_lambda n
  end.

(** PreferenceModel.py:458 [np.arange(min, max, (max-min)/max_itr)]: max_itr points (in exact arithmetic) *)
Definition arange (min_lambda max_lambda : R) (max_itr : nat) : list R :=
  map (fun i => min_lambda + INR i * ((max_lambda - min_lambda) / INR max_itr)) (seq 0 max_itr).
(** PreferenceModel.py:462-466, the loop *)
Fixpoint iter_loop (phi : R -> option R) (pts : list R) (best_lamb : R) (best_loss : option R) : R :=
  match pts with
  | [] => best_lamb
  | lamb :: pts' => if ogtb (phi lamb) best_loss then iter_loop phi pts' lamb (phi lamb) else iter_loop phi pts' best_lamb best_loss
  end.
(** PreferenceModel.py:457-471 [iterative_line_search]; no iterations: division by zero in line 458 *)
Definition iterative_line_search (phi : R -> option R) (min_lambda max_lambda : R) (max_itr : nat) : result R :=
  match max_itr with
  | O => Raise ZeroDivisionError
  | _ => let best_lamb := iter_loop phi (arange min_lambda max_lambda max_itr) (-1) None in
         if Req_EM_T best_lamb (-1) then Raise GenericException else Ok best_lamb
  end.

(** F - lam * descent *)
Definition step_from (F descent : list R) (lam : R) : list R := map (fun fd => fst fd - lam * snd fd) (combine F descent).
Inductive lambda_type := Static | Binary | Iter | Other.
(** PreferenceModel.py:386-413 [newton_update]; [descent] is gradient @ inverse(hess), or the gradient when the inversion fails
    (lines 397-400).  The attribute lambda_gp of line 408 is set nowhere in the package. *)
Definition newton_update (F descent : list R) (loss : list R -> option R) (t : lambda_type) (max_itr : nat) : result (list R) :=
  do lamb <- match t with
             | Binary => Ok (binary_line_search (fun lam => loss (step_from F descent lam)) 0 (15 / 10) max_itr)
             | Iter => iterative_line_search (fun lam => loss (step_from F descent lam)) (1 / 100) (15 / 10) max_itr
             | Static => Raise AttributeError
             | Other => Raise ValueError
             end;
  Ok (step_from F descent lamb).

(** ---- normalisation of the mode, PreferenceGP.py:257-266; [None] is a vector of NaN (division by zero) ---- *)
Definition scale_down (c : R) (F : list R) : option (list R) := if Req_EM_T c 0 then None else Some (map (fun x => x / c) F).
(** infinity norm *)
Definition norm_inf (F : list R) : R := fold_right (fun x acc => Rmax (Rabs x) acc) 0 F.
(** [normalize] is self.normalize_gp, [positive] self.normalize_positive; np.amin of an empty vector raises *)
Definition normalise (normalize positive : bool) (F : list R) : result (option (list R)) :=
  if normalize then
    if positive then (do mn <- np_min F; let F1 := map (fun x => x - mn) F in do mx <- np_max F1; Ok (scale_down mx F1))
    else Ok (scale_down (norm_inf F) F)
  else Ok (Some F).

(** ---- loops: [upd n v] is the n-th update of the loop body (derivatives, Newton update, normalisation), [far v' v] says
    f_err > delta_f, false when f_err is NaN; [V] is the type of latent vectors ---- *)
(** PreferenceGP.py:239-278, from line 239 with [n] loops done *)
Fixpoint mode_loop {V} (upd : nat -> V -> result V) (far : V -> V -> bool) (maxloops fuel n : nat) (F : V) : result (nat * V) :=
  match fuel with
  | O => Raise OutOfFuel
  | S fuel =>
      do F_new <- upd n F;
      if Nat.ltb maxloops (S n) then Ok (S n, F_new)                      (* line 276-278: break *)
      else if far F_new F then mode_loop upd far maxloops fuel (S n) F_new
      else Ok (S n, F_new)
  end.
(** PreferenceGP.py:218-288 [find_mode]: number of loops and final F; [chol] is the success of the Cholesky factorisation
    of line 230; f_err starts above delta_f, so the body runs at least once *)
Definition find_mode {V} (upd : nat -> V -> result V) (far : V -> V -> bool) (chol : bool) (F0 : V) (maxloops fuel : nat) : result (nat * V) :=
  if chol then mode_loop upd far maxloops fuel 0 F0 else Ok (0%nat, F0).
(** PreferenceLinear.py:83-104; [go] is w_err > delta_f *)
Fixpoint linear_loop {V} (upd : nat -> V -> result V) (far : V -> V -> bool) (maxloops fuel n : nat) (go : bool) (w : V) : result (nat * V) :=
  match fuel with
  | O => Raise OutOfFuel
  | S fuel =>
      if (go && Nat.ltb n maxloops)%bool then (do w_new <- upd n w; linear_loop upd far maxloops fuel (S n) (far w_new w) w_new)
      else Ok (n, w)
  end.
Definition linear_optimize {V} (upd : nat -> V -> result V) (far : V -> V -> bool) (w0 : V) (maxloops fuel : nat) : result (nat * V) :=
  linear_loop upd far maxloops fuel 0 true w0.

(** ---- hyper-parameter search ---- *)
(** PreferenceGP.py:435-437: the window of recent gradients, newest first *)
Definition push_grad {G} (avg : nat) (prev : list G) (g : G) : list G :=
  let p := g :: prev in if Nat.ltb avg (length p) then removelast p else p.
(** component-wise mean of vectors of length [d]; np.linalg.norm(.., ord=2) *)
Definition mean_vec (d : nat) (gs : list (list R)) : list R := map (fun i => rsum (map (fun g => nth i g 0) gs) / INR (length gs)) (seq 0 d).
Definition norm2 (v : list R) : R := sqrt (rsum (map (fun x => x * x) v)).
(** PreferenceGP.py:440-446: hyper_grad_avg = 4, hyper_grad_tol = 0.3 (lines 84-85) *)
Definition is_converged (d : nat) (prev : list (list R)) : bool :=
  (Nat.eqb (length prev) 4 && Rltb (norm2 (mean_vec d prev)) (3 / 10))%bool.
(** one call of hyperparameter_search on state [s]: [grad s] is the gradient, [move s g] the new state (lines 392-429) *)
Definition search_step {St} (d : nat) (grad : St -> list R) (move : St -> list R -> St) (s : St) (prev : list (list R)) : St * list (list R) * bool :=
  let g := grad s in let prev' := push_grad 4 prev g in (move s g, prev', is_converged d prev').
(** PreferenceGP.py:303-327: one k-fold pass; [calls] counts the searches *)
Fixpoint fold_pass {St} (d : nat) (grad : St -> list R) (move : St -> list R -> St) (k : nat) (s : St) (prev : list (list R)) (calls : nat) : St * list (list R) * nat * bool :=
  match k with
  | O => (s, prev, calls, false)
  | S k' => let '(s', prev', conv) := search_step d grad move s prev in
            if conv then (s', prev', S calls, true) else fold_pass d grad move k' s' prev' (S calls)
  end.
(** PreferenceGP.py:300-330; [splits j] says that k_fold_x_y returned a partition in round [j] *)
Fixpoint rounds {St} (d : nat) (grad : St -> list R) (move : St -> list R -> St) (k : nat) (splits : nat -> bool) (n j : nat) (s : St) (prev : list (list R)) (calls : nat) : St * list (list R) * nat * bool :=
  match n with
  | O => (s, prev, calls, false)
  | S n' =>
      if splits j then
        let '(s', prev', calls', conv) := fold_pass d grad move k s prev calls in
        if conv then (s', prev', calls', true) else rounds d grad move k splits n' (S j) s' prev' calls'
      else rounds d grad move k splits n' (S j) s prev calls
  end.
(** PreferenceGP.py:290-332 [optimize] with hyper-parameters: k_fold = min(N//2, 4), ceil(600/k_fold) rounds *)
Definition hyper_optimize {St} (d : nat) (grad : St -> list R) (move : St -> list R -> St) (splits : nat -> bool) (N : nat) (s : St) : St * list (list R) * nat * bool :=
  let k := Nat.min (N / 2) 4 in
  if Nat.ltb 1 k then rounds d grad move k splits ((600 + k - 1) / k) 0 s [] 0 else (s, [], 0%nat, false).
