(** Floating-point model of the choice rule and of what is computed from it: /repo/src/lop/utilities/human_choice_model.py,
    synthetic_user.py:121-131 and /repo/src/lop/active_learning/MutualInfoLearner.py.  Every operation is the exact one followed by the
    rounding of a format, which is an argument, as is the order in which [np.sum] adds.  Zeros have no sign here (every divisor below is
    a sum of numbers that are not negative).  Rewards and parameters are finite. *)
From Verif Require Import M_Base M_RBase M_Fake M_Util M_Select M_Info M_Tune.
Local Open Scope R_scope.

(** IEEE 754 values, as numpy uses them everywhere (human_choice_model.py:43-50) *)
Inductive fval := NaN | PInf | NInf | Fin (x : R).
(** a format: rounding to a number of the format, and the bound from which on a rounded result is infinite (human_choice_model.py:43-50) *)
Record fmt := mkfmt { rd : R -> R; huge : R }.
(** the result of an operation with the exact value [x] (human_choice_model.py:44-50) *)
Definition rnd (F : fmt) (x : R) : fval := if Rleb (huge F) (rd F x) then PInf else if Rleb (rd F x) (- huge F) then NInf else Fin (rd F x).
(** infinity with the sign of [x], NaN for 0: infinity times [x] (MutualInfoLearner.py:112) *)
Definition inf_times (x : R) : fval := if Rltb 0 x then PInf else if Rltb x 0 then NInf else NaN.
(** minus infinity times [x] (MutualInfoLearner.py:112) *)
Definition ninf_times (x : R) : fval := if Rltb 0 x then NInf else if Rltb x 0 then PInf else NaN.
(** addition (human_choice_model.py:47, 50) *)
Definition fadd (F : fmt) (a b : fval) : fval :=
  match a, b with
  | NaN, _ | _, NaN => NaN
  | PInf, NInf | NInf, PInf => NaN
  | PInf, _ | _, PInf => PInf
  | NInf, _ | _, NInf => NInf
  | Fin x, Fin y => rnd F (x + y)
  end.
(** multiplication (human_choice_model.py:45) *)
Definition fmul (F : fmt) (a b : fval) : fval :=
  match a, b with
  | NaN, _ | _, NaN => NaN
  | PInf, PInf | NInf, NInf => PInf
  | PInf, NInf | NInf, PInf => NInf
  | PInf, Fin x | Fin x, PInf => inf_times x
  | NInf, Fin x | Fin x, NInf => ninf_times x
  | Fin x, Fin y => rnd F (x * y)
  end.
(** division (human_choice_model.py:48, 50) *)
Definition fdiv (F : fmt) (a b : fval) : fval :=
  match a, b with
  | NaN, _ | _, NaN => NaN
  | PInf, PInf | NInf, NInf | PInf, NInf | NInf, PInf => NaN
  | PInf, Fin y => if Rltb y 0 then NInf else PInf
  | NInf, Fin y => if Rltb y 0 then PInf else NInf
  | Fin _, PInf | Fin _, NInf => Fin 0
  | Fin x, Fin y => if Req_EM_T y 0 then inf_times x else rnd F (x / y)
  end.
(** [np.exp] (human_choice_model.py:45) *)
Definition fexp (F : fmt) (a : fval) : fval :=
  match a with NaN => NaN | PInf => PInf | NInf => Fin 0 | Fin x => rnd F (exp x) end.
(** [np.log2] (MutualInfoLearner.py:112) *)
Definition flog2 (F : fmt) (a : fval) : fval :=
  match a with NaN | NInf => NaN | PInf => PInf | Fin x => if Rltb x 0 then NaN else if Req_EM_T x 0 then NInf else rnd F (log2 x) end.
(** comparisons are False when one side is NaN (synthetic_user.py:128) *)
Definition fleb (a b : fval) : bool :=
  match a, b with
  | NaN, _ | _, NaN => false
  | NInf, _ | _, PInf => true
  | PInf, _ | _, NInf => false
  | Fin x, Fin y => Rleb x y
  end.
(** strict comparison (MutualInfoLearner.py:90) *)
Definition fltb (a b : fval) : bool := match a, b with NaN, _ | _, NaN => false | _, _ => negb (fleb b a) end.
(** the maximum of two values, NaN if one of them is (synthetic_user.py:124) *)
Definition fmax (a b : fval) : fval := match a, b with NaN, _ | _, NaN => NaN | _, _ => if fleb a b then b else a end.

(** human_choice_model.py:44-45, one entry: [exp((r - max) * p)] *)
Definition fweight (F : fmt) (p mx v : R) : fval := fexp F (fmul F (rnd F (v - mx)) (Fin p)).
(** human_choice_model.py:43-50, vector branch; [sm] is [np.sum] *)
Definition choice_fl (F : fmt) (sm : list fval -> fval) (r : list R) (p : R) : result (list fval) :=
  do mx <- np_max r;                                                        (* line 44 *)
  let e := map (fweight F p mx) r in                                        (* line 45 *)
  Ok (map (fun v => fdiv F v (sm e)) e).                                    (* line 50 *)
(** human_choice_model.py:43-50, matrix branch *)
Definition choice_rows_fl (F : fmt) (sm : list fval -> fval) (r : list (list R)) (p : R) : result (list (list fval)) :=
  do mx <- np_max (concat r);                                               (* line 44: over the whole matrix *)
  let e := map (map (fweight F p mx)) r in                                  (* line 45 *)
  Ok (map (fun row => map (fun v => fdiv F v (sm row)) row) e).             (* lines 47-48 *)

(** synthetic_user.py:122-128: the count of queries answered correctly *)
Definition sampled_count_fl (F : fmt) (sm : list fval -> fval) (b : R) (y : list (list R)) (pf : list R) : result R :=
  do p <- choice_rows_fl F sm y b;                                          (* line 122 *)
  let p_max := map (fun row => fold_right fmax NInf row) p in               (* line 124 *)
  Ok (num_true (map (fun up => fleb (Fin (fst up)) (snd up)) (combine pf p_max))). (* line 128 *)

(** MutualInfoLearner.py:112, one term *)
Definition gain_term (F : fmt) (M : nat) (x s : fval) : fval := fmul F x (flog2 F (fdiv F (fmul F (Fin (INR M)) x) s)).
(** MutualInfoLearner.py:105-114 [calc_info_gain] *)
Definition info_gain_fl (F : fmt) (sm : list fval -> fval) (M : nat) (peakiness : R) (Q : list nat) (all_w : list (list R)) : result fval :=
  do sub <- take_cols all_w Q;
  do p <- choice_rows_fl F sm sub peakiness;                                (* line 107 *)
  let sum_p_over_w := map (fun i => sm (map (fun r => nth i r NaN) p)) (seq 0 (length Q)) in (* line 109 *)
  Ok (fdiv F (sm (concat (map (fun row => zipw (gain_term F M) row sum_p_over_w) p))) (Fin (INR M))). (* line 112 *)
(** [np.argmax]: the first NaN if there is one (MutualInfoLearner.py:90) *)
Fixpoint first_nan (i : nat) (l : list fval) : option nat :=
  match l with [] => None | NaN :: _ => Some i | _ :: l' => first_nan (S i) l' end.
(** see [first_nan] (MutualInfoLearner.py:90) *)
Definition argmax_fl (l : list fval) : result nat := match first_nan 0 l with Some i => Ok i | None => argmax fltb l end.
(** MutualInfoLearner.py:63-92 [select_greedy] from the sampled rewards on *)
Definition mutual_greedy_fl (F : fmt) (sm : list fval -> fval) (M : nat) (peakiness : R) (all_w : list (list R)) (indicies prev : list nat) : result (nat * fval) :=
  do info_gain <- mapM (fun idx => info_gain_fl F sm M peakiness (prev ++ [idx]) all_w) indicies; (* line 88 *)
  do best <- argmax_fl info_gain;                                           (* line 90 *)
  do m <- getitem info_gain best;                                           (* line 91 *)
  do i <- getitem indicies best; Ok (i, m).                                 (* line 92 *)
