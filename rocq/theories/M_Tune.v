(** Model of the tuning objectives of /repo/src/lop/utilities/synthetic_user.py.  The utilities of the sampled queries, one row for each
    query, and the random draws are arguments. *)
From Verif Require Import M_Base M_RBase M_Util M_Select.
Local Open Scope R_scope.

(** [np.sum] of a boolean array *)
Definition num_true (l : list bool) : R := rsum (map (fun b : bool => if b then 1 else 0) l).
(** synthetic_user.py:121-131 [sampled_objective]: [pf] are the uniform draws of line 126; line 129 divides by the number of queries, which
    is the number of rows of [y] (line 238) *)
Definition sampled_objective (b desired_p : R) (y : list (list R)) (pf : list R) : result R :=
  do p <- p_human_choice_rows y b;                                          (* line 122 *)
  do p_max <- mapM np_max p;                                                (* line 124 *)
  let count := num_true (map (fun up => Rleb (fst up) (snd up)) (combine pf p_max)) in (* line 128 *)
  let p_samp := count / INR (length y) in                                   (* line 129 *)
  Ok ((p_samp - desired_p) ^ 2).                                            (* line 131 *)

(** synthetic_user.py:149-156 [rate_sampled_objective]: [z] are the standard normal draws behind [np.random.normal(y, scale=sigma)] *)
Definition rate_sampled_objective (sigma desired_p : R) (y z : list (list R)) : result R :=
  let rating := map (fun yz => map (fun p => fst p + sigma * snd p) (combine (fst yz) (snd yz))) (combine y z) in (* line 151 *)
  do best <- mapM (argmax Rltb) rating;                                     (* line 153 *)
  do right <- mapM (argmax Rltb) y;                                         (* line 153 *)
  let num_correct := num_true (map (fun p => Nat.eqb (fst p) (snd p)) (combine best right)) in (* line 153 *)
  let p_samp := num_correct / INR (length y) in                             (* line 154 *)
  Ok ((p_samp - desired_p) ^ 2).                                            (* line 156 *)

(** synthetic_user.py:106-107, the two calls of [np.where] *)
Definition where_clip (p : R) : R :=
  let p1 := if Rltb (999999 / 1000000) p then 999999 / 1000000 else p in
  if Rltb p1 (1 / 1000000) then 1 / 1000000 else p1.
(** synthetic_user.py:110 and 116; [p] and [q] between 0 and 1, so that no logarithm is undefined *)
Definition kl (p q : R) : R := p * ln (p / q) + (1 - p) * ln ((1 - p) / (1 - q)).
(** synthetic_user.py:97-118 [kl_objective] from the scaled utilities [y] of line 98 *)
Definition kl_objective (b desired_p : R) (y : list (list R)) : result R :=
  do p <- p_human_choice_rows y b;                                          (* line 99 *)
  do p_max <- mapM np_max p;                                                (* line 103 *)
  let c := map where_clip p_max in                                          (* lines 106-107 *)
  let terms := map (fun q => kl q desired_p + kl desired_p q) c in          (* lines 110-116: line 112-114 exchange the arguments *)
  Ok (rsum terms / INR (length terms)).                                     (* line 118 *)
