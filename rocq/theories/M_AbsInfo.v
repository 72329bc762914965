(** Model of [AbsBayesInfo.select_greedy] in /repo/src/lop/active_learning/AbsBayesInfo.py.
    The chances of being the best ([p_B_pref_gp], [p_B_pref_linear], M_PBest) and the sampled values ([all_Q] of lines 36 and 43) are
    arguments; [p_q_f_B_unorm] stops in the debugger at line 82, [continues] tells whether the program goes on from there each time,
    otherwise bdb.BdbQuit is raised.  A nan is [None]. *)
From Coq Require Import Reals List Arith Bool.
From Verif Require Export M_AbsProbit M_Base.
From Verif Require Import M_RBase M_Select.
Import ListNotations.
Local Open Scope R_scope.

(** AbsBayesInfo.py:79-84 [p_q_f_B_unorm] for one sample and candidate (parameters [aa], [bb]) and one possible best candidate with mean
    link [mlB] *)
Definition p_q_f_B_unorm (sp : special) (aa bb mlB q : R) : R := if Rltb mlB q then exp (beta_logpdf sp q aa bb) else 0.
(** AbsBayesInfo.py:63-75 [integrand], one entry; [Z] is the entry of [integ_p_q_f_B]; where the density vanishes 0 * log 0 is nan, which
    line 74 replaces by 0 *)
Definition info_integrand (sp : special) (pb aa bb mlB Z q : R) : R :=
  let p := p_q_f_B_unorm sp aa bb mlB q / Z in
  if Req_EM_T p 0 then 0 else p * ln (p * pb / exp (beta_logpdf sp q aa bb)).
(** entry B of [p_b] after numpy broadcasting: a single chance stands for all *)
Definition chance_of (p_b : list R) (B : nat) : R := match p_b with [p] => p | _ => nth B p_b 0 end.
(** lines 120-127: the entry of [E_over_samples] for candidate [c] and best candidate [B]; [integ] stands for quad_vec from 0 to 1 *)
Definition over_samples (integ : (R -> R) -> R) (sp : special) (a : abs_probit) (eps : R) (M : nat) (p_b : list R) (all_f : nat -> nat -> R) (c B : nat) : R :=
  rsum (map (fun k =>
    let aa := alpha a eps (all_f k c) in let bb := beta a eps (all_f k c) in let mlB := mean_link a eps (all_f k B) in
    let Z := integ (p_q_f_B_unorm sp aa bb mlB) in
    integ (info_integrand sp (chance_of p_b B) aa bb mlB Z)) (seq 0 M)) / INR M.
(** lines 129-132; a chance of 0 makes [-p_b * np.log(p_b)] and with it all scores nan *)
Definition abs_info_gain (integ : (R -> R) -> R) (sp : special) (a : abs_probit) (eps : R) (M N : nat) (p_b : list R) (all_f : nat -> nat -> R) (c : nat) : option R :=
  if existsb (fun p => if Req_EM_T p 0 then true else false) p_b then None
  else
    let E_q_H_B := rsum (map (fun B => - chance_of p_b B * over_samples integ sp a eps M p_b all_f c B) (seq 0 N)) in
    let H_B := rsum (map (fun p => - p * ln p) p_b) in
    Some (H_B - E_q_H_B).
(** [np.argmax] stops at the first nan *)
Definition nan_ltb (x y : option R) : bool := match x, y with Some u, Some v => Rltb u v | Some _, None => true | None, _ => false end.
(** AbsBayesInfo.py:107-136 [select_greedy]; [all_f] has [M] rows and [N] columns; [p_b] and [all_f] have to be broadcast together in
    lines 71 and 129 (an empty [indicies] is not passed by [select]) *)
Definition abs_info_select (continues : bool) (integ : (R -> R) -> R) (sp : special) (a : abs_probit) (eps : R) (M N : nat) (trained : bool)
    (p_b : list R) (all_f : nat -> nat -> R) (indicies : list nat) (draw : nat) : result (nat * option R) :=
  if negb trained then
    match indicies with
    | [] => Raise ValueError
    | _ => do i <- getitem indicies (draw mod length indicies); Ok (i, None)                    (* lines 112-113 *)
    end
  else if negb continues then Raise GenericException                                            (* line 82 *)
  else if negb (Nat.eqb (length p_b) N || Nat.eqb (length p_b) 1) then Raise ValueError         (* line 71 *)
  else
    let info_gain := map (abs_info_gain integ sp a eps M N p_b all_f) (seq 0 N) in
    do best <- argmax nan_ltb info_gain;
    do v <- getitem info_gain best;
    do i <- getitem indicies best; Ok (i, v).
(** lines 28-55 [calc_one_time] and line 118 for a GP: the chances belong to the first [length indicies] candidates, since the
    covariance and [mu] are those of all candidates, and the samples to all [N] candidates.  [pB n] is [p_B_pref_gp] for n candidates *)
Definition abs_info_gp (continues : bool) (integ : (R -> R) -> R) (sp : special) (a : abs_probit) (eps : R) (M N : nat)
    (pB : nat -> result (list R)) (all_f : nat -> nat -> R) (indicies : list nat) (draw : nat) : result (nat * option R) :=
  do p_b <- pB (length indicies);
  abs_info_select continues integ sp a eps M N true p_b all_f indicies draw.
