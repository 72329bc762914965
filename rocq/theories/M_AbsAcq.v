(** Model of [AbsAcquisition.select_greedy] in /repo/src/lop/active_learning/AbsAcquisition.py.
    [None] for the representative points stands for [x_rep is None]; the rewards of the sampled models ([all_Q], C125) and the alignment
    matrix ([alignment], C94-C97) are arguments; printing is left out. *)
From Coq Require Import Reals List Arith.
From Verif Require Export M_Acq M_AbsProbit.
From Verif Require Import M_RBase M_Select M_Info.
Import ListNotations.
Local Open Scope R_scope.

(** AbsAcquisition.py:44-55 [pq_integrand] with [beta.pdf(q, aa, bb)] of line 47, for one candidate; [s k] is its reward [all_Q[k, Q]]
    under sample k, line 129 gives the parameters *)
Definition abs_integrand (sp : special) (a : abs_probit) (eps : R) (M : nat) (f : nat -> nat -> R) (s : nat -> R) (q : R) : R :=
  pq_integrand M f (fun k => exp (beta_logpdf sp q (alpha a eps (s k)) (beta a eps (s k)))).
(** AbsAcquisition.py:139: the limits of the integral *)
Definition q_lo : R := 1 / 10000.
Definition q_hi : R := 9999 / 10000.
(** AbsAcquisition.py:108-148 [select_greedy]; [align] is what [alignment] returns, [all_Q k c] the reward of the c-th of the given
    indices under sample k, [quad] stands for scipy's [quad_vec], which integrates all candidates at once, [draw] is the raw random number *)
Definition abs_greedy (sp : special) (a : abs_probit) (eps : R) (M : nat) (quad : list (R -> R) -> list R) (rep : bool)
    (align : option (list (list R))) (all_Q : nat -> nat -> R) (indicies : list nat) (draw : nat) : result (nat * R) :=
  if negb rep then
    match indicies with
    | [] => Raise ValueError
    | _ => do i <- getitem indicies (draw mod length indicies); Ok (i, 0)                       (* lines 118-120 *)
    end
  else
    match align with
    | None => Raise AttributeError                                                              (* line 49: f.shape of None *)
    | Some m =>
        let f i j := nth j (nth i m []) 0 in
        let align_Q := quad (map (fun c => abs_integrand sp a eps M f (fun k => all_Q k c)) (seq 0 (length indicies))) in
        do best <- argmax Rltb align_Q;                                                         (* line 146 *)
        do v <- getitem align_Q best;
        do i <- getitem indicies best; Ok (i, v)
    end.
