(** Model of the information-gain learners: /repo/src/lop/active_learning/MutualInfoLearner.py and BayesInfoGain.py.
    Probabilities and rewards are real numbers; random draws, the sampled rewards and the probabilities [p_B] are arguments. *)
From Verif Require Import M_Base M_RBase M_Util M_Select M_Fake M_OrdProbit.
Local Open Scope R_scope.

(** ---- MutualInfoLearner ---- *)
(** [np.log2] (MutualInfoLearner.py:112) *)
Definition log2 (x : R) : R := ln x / ln 2.
(** [all_w[:,Q]] (MutualInfoLearner.py:107) *)
Definition take_cols (all_w : list (list R)) (Q : list nat) : result (list (list R)) := mapM (fun r => mapM (getitem r) Q) all_w.
(** [np.sum(p, axis=0)] of a matrix with [n] columns (MutualInfoLearner.py:109, BayesInfoGain.py:64) *)
Definition col_sums (n : nat) (p : list (list R)) : list R := map (fun i => rsum (map (fun r => nth i r 0) p)) (seq 0 n).
(** MutualInfoLearner.py:105-114 [calc_info_gain]; [M] is the field self.M *)
Definition calc_info_gain (M : nat) (peakiness : R) (Q : list nat) (all_w : list (list R)) : result R :=
  do sub <- take_cols all_w Q;
  do p <- p_human_choice_rows sub peakiness;                             (* line 107 *)
  let sum_p_over_w := col_sums (length Q) p in                           (* line 109 *)
  Ok (rsum (map (fun row => rsum (zipw (fun x s => x * log2 (INR M * x / s)) row sum_p_over_w)) p) / INR M).
(** MutualInfoLearner.py:63-92 [select_greedy] from the sampled rewards on, without the scaling by [fake_func] (lines 80-85);
    [indicies] and [prev] are the enumerations of the two sets.  Returns the chosen index and [sel_metric]. *)
Definition mutual_greedy (M : nat) (peakiness : R) (all_w : list (list R)) (indicies prev : list nat) : result (nat * R) :=
  do info_gain <- mapM (fun idx => calc_info_gain M peakiness (prev ++ [idx]) all_w) indicies;   (* line 88 *)
  do best <- argmax Rltb info_gain;
  do m <- getitem info_gain best;
  do i <- getitem indicies best; Ok (i, m).

(** ---- BayesInfoGain ---- *)
(** the option [p_q_B_method] (BayesInfoGain.py:25-31); [MethodOther]: any other string *)
Inductive pqb_method := MethodProbit | Method999 | Method99 | MethodOther.
(** [np.where(p < MIN_LOG_VALUE, 0, p * np.log(p))] of one entry (BayesInfoGain.py:81, 145, 190, 237); MIN_LOG_VALUE = 1e-17 *)
Definition plogp (p : R) : R := if Rltb p (/ 10 ^ 17) then 0 else p * ln p.
(** minus the sum of these entries (BayesInfoGain.py:81, 145, 190, 237) *)
Definition code_entropy (p : list R) : R := - rsum (map plogp p).
(** [np.delete(Q, i)] (BayesInfoGain.py:44) *)
Definition del_nth {A} (i : nat) (l : list A) : list A := firstn i l ++ skipn (S i) l.
(** [probit_mat[q_i, Q_subi]] (BayesInfoGain.py:45) *)
Definition sub_probit (P : list (list R)) (q : nat) (Qs : list nat) : result (list R) := do row <- getitem P q; mapM (getitem row) Qs.
(** [np.where(q_i == B_i, c, sub_probit)] (BayesInfoGain.py:59, 61) *)
Definition where_best (c : R) (q B : nat) (sub : list R) : list R := map (fun x => if Nat.eqb q B then c else x) sub.
(** one entry [p_q_B[i, B_i]] before normalisation (BayesInfoGain.py:49-61); in the branch 'probit' (lines 54-57) the
    array [sub_probit_w] is computed and not used *)
Definition p_q_B_entry (m : pqb_method) (Q : list nat) (q : nat) (sub : list R) (B : nat) : R :=
  if negb (mem B Q) then rprod sub
  else match m with
       | MethodProbit => rprod sub
       | Method999 => rprod (where_best (999 / 1000) q B sub)
       | Method99 => rprod (where_best (99 / 100) q B sub)
       | MethodOther => 1
       end.
(** BayesInfoGain.py:35-91 [calc_H_B_Q]; divisions by zero are not modelled (theorems assume positive likelihoods) *)
Definition calc_H_B_Q (m : pqb_method) (Q : list nat) (p_B : list R) (P : list (list R)) : result R :=
  let N := length p_B in
  do subs <- mapM (fun iq => sub_probit P (snd iq) (del_nth (fst iq) Q)) (enumerate Q);          (* lines 42-45 *)
  let p_q0 := map rprod subs in                                                                  (* line 46 *)
  let p_q_B0 := map (fun qs => map (p_q_B_entry m Q (fst qs) (snd qs)) (seq 0 N)) (combine Q subs) in
  let p_q := map (fun x => x / rsum p_q0) p_q0 in                                                (* line 63 *)
  let p_q_B := map (fun row => zipw Rdiv row (col_sums N p_q_B0)) p_q_B0 in                      (* line 64 *)
  let p_B_q0 := zipw (fun row pq => zipw (fun x b => x * b / pq) row p_B) p_q_B p_q in           (* line 73 *)
  let p_B_q := map (fun row => map (fun x => x / rsum row) row) p_B_q0 in                        (* line 74 *)
  Ok (rsum (zipw (fun pq row => pq * code_entropy row) p_q p_B_q)).                              (* lines 81, 86 *)
(** BayesInfoGain.py:127-173 [select_greedy] of a trained model, from [p_B] and [probit_mat] on: index and [sel_metric] ([None]: the
    field is not assigned); [draw] is the raw random number of line 160 *)
Definition bayes_greedy (m : pqb_method) (p_B : list R) (P : list (list R)) (indicies prev : list nat) (draw : nat)
  : result (nat * option R) :=
  match prev, indicies with
  | [], _ :: _ => do i <- getitem indicies (draw mod length indicies); Ok (i, None)              (* lines 158-160 *)
  | _, _ =>
      do info_gain <- mapM (fun Q_i => do h <- calc_H_B_Q m (prev ++ [Q_i]) p_B P; Ok (code_entropy p_B - h)) indicies;
      do best <- argmax Rltb info_gain;
      do g <- getitem info_gain best;
      do i <- getitem indicies best; Ok (i, Some g)
  end.

(** BayesInfoGain.py:200-215: the entry [p_q_B[a,b,c]] after the loop, which writes, for i = 0, 1, ..., the entries [i,:,i],
    then [:,i,i], then [i,i,:] = 0.5 *)
Definition pair_q_B (m : pqb_method) (p_q : nat -> nat -> R) (a b c : nat) : R :=
  if Nat.eqb a b then 1 / 2
  else if Nat.eqb a c then match m with MethodProbit => Rmax (p_q a b) (p_q b a) | Method999 => 999 / 1000 | Method99 => 99 / 100 | MethodOther => p_q a b end
  else if Nat.eqb b c then match m with MethodProbit => Rmin (p_q b a) (p_q a b) | Method999 => 1 / 1000 | Method99 => 1 / 100 | MethodOther => p_q a b end
  else p_q a b.
(** BayesInfoGain.py:223-253: the posterior of the best candidate after the answer [a] in the pair (a, b), its entropy, and the
    matrix [info_gain] handed to [pick_pair_from_metric] *)
Definition pair_posterior (m : pqb_method) (p_B : list R) (p_q : nat -> nat -> R) (a b : nat) : list R :=
  let row := map (fun cb => pair_q_B m p_q a b (fst cb) * snd cb / p_q a b) (enumerate p_B) in
  map (fun x => x / rsum row) row.
Definition pair_info_gain (m : pqb_method) (p_B : list R) (p_q : nat -> nat -> R) (i j : nat) : R :=
  code_entropy p_B -
  (p_q i j * code_entropy (pair_posterior m p_B p_q i j) + p_q j i * code_entropy (pair_posterior m p_B p_q j i)).
(** BayesInfoGain.py:180-182: the pair of an untrained model; [d1], [d2] are the raw random numbers of [np.random.choice(list, 2)],
    which draws with replacement *)
Definition bayes_pair_untrained (indicies : list nat) (d1 d2 : nat) : result (nat * nat) :=
  match indicies with
  | [] => Raise ValueError
  | _ => do a <- getitem indicies (d1 mod length indicies); do b <- getitem indicies (d2 mod length indicies); Ok (a, b)
  end.
