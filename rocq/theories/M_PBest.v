(** Model of the chances of being the best candidate and of the learners that use sampled linear models:
    /repo/src/lop/active_learning/ActiveLearner.py (p_B_pref_gp, p_B_pref_linear), BayesInfoGain.py (get_p_B_probit), GV_UCBLearner.py,
    UCBLearner.py, AcquisitionBase.py (get_samples_from_model) and /repo/src/lop/utilities/probability_utility.py (calc_cdf).
    Random draws are arguments; numbers are real. *)
From Verif Require Export M_HyperGrad.
From Verif Require Import M_Base M_RBase M_Select M_Normal M_GP M_Acq M_UCB.
Local Open Scope R_scope.

(** ---- calc_cdf ---- *)
(** the argument [method] of probability_utility.py:28 *)
Inductive cdf_method := CdfAuto | CdfFull | CdfIndependent | CdfSwitch | CdfMvn | CdfOther.
(** the routines of other packages: [ext_full mu cov] is multivariate_normal(mu, cov).cdf(0) (lines 33-37 and 64-65), which raises for
    covariances that are not positive definite; [ext_mvn x cov] is approxcdf.mvn_cdf(x, cov) (line 80) *)
Record cdf_ext := mkExt { ext_full : list R -> matrix -> result R; ext_mvn : list R -> matrix -> result R }.
(** probability_utility.py:39-41: the argument of ndtr is divided by the diagonal entry *)
Definition cdf_independent (mu : list R) (cov : matrix) : R :=
  rprod (map (fun im => ndtr ((0 - snd im) / mat_at cov (fst im) (fst im))) (enumerate mu)).
(** [np.argmax] of the flattened matrix of absolute off-diagonal entries (lines 49-53); zero on the diagonal *)
Definition mod_cov (n : nat) (cov : matrix) : list R :=
  concat (map (fun i => map (fun j => if Nat.eqb i j then 0 else Rabs (mat_at cov i j)) (seq 0 n)) (seq 0 n)).
(** [np.delete(_, (i, j), axis)] *)
Definition del_two {A} (i j : nat) (l : list A) : list A :=
  map snd (filter (fun kx => negb (Nat.eqb (fst kx) i || Nat.eqb (fst kx) j)) (enumerate l)).
(** lines 44-77: the method 'switch'; [fuel] bounds the number of rounds, every round removes at least one row *)
Fixpoint cdf_switch (ext : cdf_ext) (fuel : nat) (p : R) (mu : list R) (cov : matrix) : result R :=
  let n := length cov in
  if Nat.ltb 1 n then
    match fuel with
    | O => Raise OutOfFuel
    | S fuel' =>
        do k <- argmax Rltb (mod_cov n cov);                                                     (* line 53 *)
        let i := (k / n)%nat in let j := (k mod n)%nat in
        let small_cov := [[mat_at cov i i; mat_at cov i j]; [mat_at cov j i; mat_at cov j j]] in  (* lines 57-58 *)
        do q <- ext_full ext [nth i mu 0; nth j mu 0] small_cov;                                 (* lines 60-65 *)
        cdf_switch ext fuel' (p * q) (del_two i j mu) (map (del_two i j) (del_two i j cov))      (* lines 67-72 *)
    end
  else match cov with
       | [row] => Ok (p * ndtr ((0 - nth 0 mu 0) / nth 0 row 0))                                 (* lines 74-75 *)
       | _ => Ok p
       end.
(** probability_utility.py:28-80 [calc_cdf]; [None] is the value None of an unknown method *)
Definition calc_cdf (ext : cdf_ext) (m : cdf_method) (mu : list R) (cov : matrix) : result (option R) :=
  match m with
  | CdfFull => do p <- ext_full ext mu cov; Ok (Some p)
  | CdfIndependent => Ok (Some (cdf_independent mu cov))
  | CdfSwitch => do p <- cdf_switch ext (length cov) 1 mu cov; Ok (Some p)
  | CdfAuto | CdfMvn => do p <- ext_mvn ext (map Ropp mu) cov; Ok (Some p)
  | CdfOther => Ok None
  end.

(** ---- chances of being the best ---- *)
(** ActiveLearner.py:319-320 [idx_i.remove(i)] *)
Definition others (n i : nat) : list nat := filter (fun j => negb (Nat.eqb j i)) (seq 0 n).
(** ActiveLearner.py:316-326: covariance of the differences to candidate [i] *)
Definition K_star (K : matrix) (n i : nat) : matrix :=
  map (fun a => map (fun b => mat_at K i i + mat_at K a b - mat_at K i a - mat_at K i b) (others n i)) (others n i).
(** ActiveLearner.py:333 *)
Definition mu_star (mu : list R) (n i : nat) : list R := map (fun a => nth a mu 0 - nth i mu 0) (others n i).
(** ActiveLearner.py:310-341 [p_B_pref_gp] for [n] candidates; assigning None to an entry of a float array gives nan, an exception
    here *)
Definition p_B_pref_gp (ext : cdf_ext) (m : cdf_method) (n : nat) (mu : list R) (K : matrix) : result (list R) :=
  do p <- mapM (fun i => do q <- calc_cdf ext m (mu_star mu n i) (K_star K n i); match q with Some q => Ok q | None => Raise TypeError end) (seq 0 n);
  Ok (map (fun q => q / rsum p) p).
(** [(pts @ w_samples.T).T]: one row per sampled weight vector (ActiveLearner.py:360, UCBLearner.py:62, GV_UCBLearner.py:51,
    AcquisitionBase.py:291-292) *)
Definition dot_pw (x w : list R) : R := rsum (map (fun ab : R * R => fst ab * snd ab) (combine x w)).
Definition sampled_values (pts ws : list (list R)) : list (list R) := map (fun w => map (fun x => dot_pw x w) pts) ws.
(** [p[s] += 1] (ActiveLearner.py:364-365) *)
Definition bump (p : list R) (s : nat) : list R := map (fun ix => if Nat.eqb (fst ix) s then snd ix + 1 else snd ix) (enumerate p).
(** ActiveLearner.py:348-369 [p_B_pref_linear] with the sampled weights [ws] of line 355 *)
Definition p_B_pref_linear (pts ws : list (list R)) : result (list R) :=
  do largest <- mapM (argmax Rltb) (sampled_values pts ws);                                      (* line 363 *)
  let p := fold_left bump largest (map (fun _ => 0) pts) in
  Ok (map (fun q => q / rsum p) p).                                                              (* line 368 *)
(** the class of the model *)
Inductive model_kind := KindPrefGP | KindPrefLinear | KindGP.
(** BayesInfoGain.py:93-116 [get_p_B_probit], first call of a selection.  Line 107 passes three arguments to a method of two; for
    any other model [p_B] of line 109 is unbound. *)
Definition get_p_B_probit (ext : cdf_ext) (kind : model_kind) (sigma : R) (n : nat) (mu : list R) (K : matrix) : result (list R * (nat -> nat -> R)) :=
  match kind with
  | KindPrefGP => do p_B <- p_B_pref_gp ext CdfAuto n mu K; Ok (p_B, likelihood_all_pairs sigma (fun i => nth i mu 0))
  | KindPrefLinear => Raise TypeError
  | KindGP => Raise UnboundLocalError
  end.

(** ---- generalised variance ---- *)
(** [det ** exp_v] (GV_UCBLearner.py:64) for a determinant >= 0 (theorem C123_defined); 0 to a positive power is 0 *)
Definition real_power (d e : R) : R := if Rltb 0 d then Rpower d e else 0.
(** [cov[np.ix_(S, S)]] *)
Definition sub_matrix (cov : nat -> nat -> R) (sel : list nat) : nat -> nat -> R := fun i j => cov (nth i sel O) (nth j sel O).
(** GV_UCBLearner.py:60-66: the score of candidate [idx] after the selection [prev] *)
Definition gv_score (alpha : R) (mu : nat -> R) (cov : nat -> nat -> R) (prev : list nat) (idx : nat) : R :=
  mu idx + alpha * real_power (det (S (length prev)) (sub_matrix cov (prev ++ [idx]))) (1 / (INR (length prev) + 1)).
(** GV_UCBLearner.py:57-71 for the enumerations [indicies] and [prev] of the two sets *)
Definition gv_greedy (alpha : R) (mu : nat -> R) (cov : nat -> nat -> R) (indicies prev : list nat) : result nat :=
  do best <- argmax Rltb (map (gv_score alpha mu cov prev) indicies);
  getitem indicies best.
(** [np.mean], [np.var(all_w, axis=0)] (UCBLearner.py:64) and [np.cov(all_w.T)] (GV_UCBLearner.py:53) of sampled values *)
Definition col_mean (all_w : list (list R)) (i : nat) : R := rsum (map (fun r => nth i r 0) all_w) / INR (length all_w).
Definition col_var (all_w : list (list R)) (i : nat) : R :=
  rsum (map (fun r => (nth i r 0 - col_mean all_w i) ^ 2) all_w) / INR (length all_w).
Definition col_cov (all_w : list (list R)) (i j : nat) : R :=
  rsum (map (fun r => (nth i r 0 - col_mean all_w i) * (nth j r 0 - col_mean all_w j)) all_w) / (INR (length all_w) - 1).
(** UCBLearner.py:56-72 for a linear model with sampled weights [ws] *)
Definition ucb_linear (alpha : R) (mu : list R) (pts ws : list (list R)) (indicies : list nat) : result nat :=
  let all_w := sampled_values pts ws in
  do scores <- mapM (ucb_score alpha mu (map (col_var all_w) (seq 0 (length pts)))) indicies;
  do best <- argmax Rltb scores;
  getitem indicies best.

(** ---- samples for the acquisition functions ---- *)
(** what AcquisitionBase.py:251-257 [set_samples] stored: [all_rep], [all_Q] *)
Definition stored : Type := option (list (list R) * list (list R)).
(** AcquisitionBase.py:259-298 [get_samples_from_model] returns (all_rep, all_Q); [gauss] is the matrix drawn in line 285, of one row
    per sample and one column per point, [ws] are the weights of line 289; [x_rep = None] has no points *)
Definition get_samples_from_model (kind : option model_kind) (s : stored) (gauss : list (list R)) (ws : list (list R)) (cand : list (list R))
  (x_rep : option (list (list R))) (indicies : option (list nat)) : result (list (list R) * list (list R)) :=
  match s with
  | Some (all_rep, all_Q) =>
      match indicies with
      | Some idx => do Q <- mapM (fun row => mapM (getitem row) idx) all_Q; Ok (all_rep, Q)
      | None => Ok (all_rep, all_Q)
      end
  | None =>
      let rep := match x_rep with Some x => x | None => [] end in
      match kind with
      | Some KindPrefLinear => Ok (sampled_values rep ws, sampled_values cand ws)
      | Some _ => Ok (map (skipn (length cand)) gauss, map (firstn (length cand)) gauss)         (* lines 286-287 *)
      | None => Raise ValueError
      end
  end.
