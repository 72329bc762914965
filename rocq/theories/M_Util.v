(** Model of the numeric helpers of /repo/src/lop/utilities: normalize_0_1 (training_utility.py), the human choice model
    (human_choice_model.py), the Metropolis-Hastings sampler (mcmc_sampling.py) and the gamma prior (gamma_dist.py).
    Floats are exact reals; minus infinity is [None] where the code produces it. *)
From Verif Require Import M_RBase.
Local Open Scope R_scope.

(** training_utility.py:145-149 [normalize_0_1] of a vector *)
Definition normalize_0_1 (x : list R) (eps : R) : result (list R) :=
  do mx <- np_max x; do mn <- np_min x;
  let slope := 1 / (mx - mn + 2 * eps) in                               (* line 146 *)
  let intercept := mn in                                                (* line 147 *)
  Ok (map (fun v => (v - intercept + eps) * slope) x).                  (* line 149 *)

(** human_choice_model.py:43-50 [p_human_choice], vector branch *)
Definition p_human_choice (r : list R) (p : R) : result (list R) :=
  do mx <- np_max r;                                                    (* line 44 *)
  let e := map (fun v => exp ((v - mx) * p)) r in                       (* line 45 *)
  Ok (map (fun v => v / rsum e) e).                                     (* line 50 *)
(** human_choice_model.py:43-50, matrix branch: the maximum is taken over the whole matrix *)
Definition p_human_choice_rows (r : list (list R)) (p : R) : result (list (list R)) :=
  do mx <- np_max (concat r);                                           (* line 44 *)
  let e := map (map (fun v => exp ((v - mx) * p))) r in                 (* line 45 *)
  Ok (map (fun row => map (fun v => v / rsum row) row) e).              (* lines 47-48 *)

(** [np.random.choice(xk, p=pdf)], used in human_choice_model.py:70: numpy computes the cumulative sum, divides it by
    its last entry and returns the number of entries <= the uniform draw (searchsorted, side='right'); the cumulative sum of
    non-negative numbers is sorted, so the count is that of the leading entries *)
Fixpoint searchsorted_right (cdf : list R) (u : R) : nat :=
  match cdf with [] => 0%nat | c :: cdf' => if Rleb c u then S (searchsorted_right cdf' u) else 0%nat end.
Definition np_choice (pdf : list R) (u : R) : nat :=
  let cdf := cumsum 0 pdf in searchsorted_right (map (fun c => c / last cdf 0) cdf) u.
(** human_choice_model.py:63-72 [sample_human_choice]; [u] is the uniform draw, [us] the draws for [samples] *)
Definition sample_human_choice (r : list R) (p u : R) : result nat :=
  do pdf <- p_human_choice r p;
  getitem (seq 0 (length r)) (np_choice pdf u).
Definition sample_human_choices (r : list R) (p : R) (us : list R) : result (list nat) :=
  do pdf <- p_human_choice r p;
  mapM (fun u => getitem (seq 0 (length r)) (np_choice pdf u)) us.

(** mcmc_sampling.py:49-79 [metropolis_hastings].  [x0] is the initial state (line 57), [prop i] the i-th call of the proposal
    distribution, [thr i] the i-th threshold (line 69); likelihoods may be minus infinity. *)
Definition accept (prop_ll cur_ll : option R) (thr : R) : bool :=       (* lines 66, 72 *)
  match prop_ll, cur_ll with
  | Some b, Some a => Rltb thr (exp (b - a))
  | None, Some _ => Rltb thr 0                                          (* exp(-inf) = 0 *)
  | Some _, None => true                                                (* exp(inf) = inf *)
  | None, None => false                                                 (* nan > thr is False *)
  end.
Fixpoint mh_loop {X} (ll : X -> option R) (prop : nat -> X -> X) (thr : nat -> R) (burn : nat) (n i : nat) (cur : X) (cur_ll : option R)
  : list X :=
  match n with
  | 0%nat => []
  | S n' =>
      let prop_x := prop i cur in                                       (* line 63 *)
      let prop_ll := ll prop_x in                                       (* line 65 *)
      let '(cur', cur_ll') := if accept prop_ll cur_ll (thr i) then (prop_x, prop_ll) else (cur, cur_ll) in
      (if Nat.leb burn i then [cur'] else []) ++                        (* lines 77-78 *)
      mh_loop ll prop thr burn n' (S i) cur' cur_ll'
  end.
Definition metropolis_hastings {X} (ll : X -> option R) (prop : nat -> X -> X) (thr : nat -> R) (x0 : X) (num_samples num_to_burn : nat)
  : list X := mh_loop ll prop thr num_to_burn (num_samples + num_to_burn) 0 x0 (ll x0).

(** gamma_dist.py:38-41 [pdf_gamma]; [g] is scipy's gamma function *)
Definition pdf_gamma (g : R -> R) (x k theta : R) : R :=
  1 / (g k * Rpower theta k) * Rpower x (k - 1) * exp (- x / theta).
Definition gamma_clip (x : R) : R := if Rltb x (1 / 1000000) then 1 / 1000000 else x.
(** gamma_dist.py:50-57 [log_pdf_gamma] *)
Definition log_pdf_gamma (g : R -> R) (x k theta : R) : option R :=
  let term1 := 1 / (g k * Rpower theta k) in
  let gam := ln term1 + (k - 1) * ln (gamma_clip x) - gamma_clip x / theta in
  if Rltb x 0 then None else Some gam.
(** gamma_dist.py:66-68 [d_log_pdf_gamma] *)
Definition d_log_pdf_gamma (x k theta : R) : R := (k - 1) / gamma_clip x - 1 / theta.
