(** Floating-point model of /repo/src/lop/probits/OrdinalProbit.py.  As in M_FloatProbit every operation and every library function is the
    exact one followed by the rounding of a format; the orders in which [np.sum] adds and [np.prod] multiplies are arguments.  The
    breakpoints, sigma and the latent values are numbers of the format. *)
From Verif Require Import M_Base M_RBase M_Normal M_Hyper M_OrdProbit M_Float M_FloatProbit.
Local Open Scope R_scope.

(** OrdinalProbit.py:94-97 [set_sigma] *)
Definition isigma_fl (F : fmt) (o : ord_probit) : fval := fdiv F (Fin 1) (Fin (o_sigma o)).
Definition ivar_fl (F : fmt) (o : ord_probit) : fval := fmul F (isigma_fl F o) (isigma_fl F o).
(** OrdinalProbit.py:119 [z_k], lines 138, 155 *)
Definition oz_fl (F : fmt) (o : ord_probit) (k : nat) (f : R) : fval := fmul F (isigma_fl F o) (fsub F (Fin (breakpoint o k)) (Fin f)).
(** OrdinalProbit.py:135-139 [norm_pdf] of a single label *)
Definition norm_pdf_fl (F : fmt) (o : ord_probit) (k : nat) (f : R) : fval :=
  if Nat.eqb k 0 || Nat.eqb k (o_n o) then Fin 0 else pdf_fl F (oz_fl F o k f).
(** OrdinalProbit.py:142-157 [norm_cdf], one label, var_x = 0 *)
Definition norm_cdf_fl (F : fmt) (o : ord_probit) (k : nat) (f : R) : result fval :=
  if Nat.eqb k (o_n o) then Ok (Fin 1)
  else if Nat.eqb k 0 then Ok (Fin 0)
  else if Nat.ltb (o_n o) k then Raise IndexError
  else Ok (cdf_fl F (oz_fl F o k f)).
(** OrdinalProbit.py:215-220 [likelihood_each] *)
Definition like_one_fl (F : fmt) (o : ord_probit) (f : nat -> R) (y : nat * nat) : result fval :=
  do a <- norm_cdf_fl F o (fst y) (f (snd y));
  do b <- norm_cdf_fl F o (fst y - 1) (f (snd y));
  Ok (fsub F a b).
Definition like_each_fl (F : fmt) (o : ord_probit) (y : list (nat * nat)) (f : nat -> R) : result (list fval) :=
  if existsb (fun ku => Nat.eqb (fst ku) 0) y then Raise GenericException else mapM (like_one_fl F o f) y.
(** [np.log] (OrdinalProbit.py:173, ProbitBase.py:172) *)
Definition fln (F : fmt) (a : fval) : fval :=
  match a with NaN | NInf => NaN | PInf => PInf | Fin x => if Rltb x 0 then NaN else if Req_EM_T x 0 then NInf else rnd F (ln x) end.
(** OrdinalProbit.py:179-200, the loop body: first and second derivative *)
Definition eps_branch_fl (F : fmt) (o : ord_probit) (k : nat) (f : R) : fval * fval :=
  if Nat.eqb k 1 then (fmul F (isigma_fl F o) (oz_fl F o k f), fneg (ivar_fl F o))                       (* lines 186-188 *)
  else if Nat.eqb k (o_n o) then (fmul F (isigma_fl F o) (oz_fl F o (k - 1) f), fneg (ivar_fl F o))      (* lines 189-191 *)
  else let z1 := oz_fl F o k f in let z2 := oz_fl F o (k - 1) f in
       let ep := fexp F (fmul F (Fin (- (1 / 2))) (fsub F (fmul F z1 z1) (fmul F z2 z2))) in             (* line 195 *)
       let d := fdiv F (fmul F (isigma_fl F o) (fsub F (fmul F z1 ep) z2)) (fsub F ep (Fin 1)) in        (* line 196 *)
       (d, fneg (fadd F (fmul F (ivar_fl F o) (fsub F (Fin 1) (fdiv F (fsub F (fmul F (fmul F z1 z1) ep) (fmul F z2 z2)) (fsub F ep (Fin 1))))) (fmul F d d))).
Definition ord_derv_fl (F : fmt) (o : ord_probit) (eps : R) (k : nat) (f : R) (l : fval) : fval * fval :=
  if fltb l (Fin eps) then eps_branch_fl F o k f
  else let g := fsub F (norm_pdf_fl F o k f) (norm_pdf_fl F o (k - 1) f) in
       let d := fdiv F (fmul F (fneg (isigma_fl F o)) g) l in                                            (* line 199 *)
       (d, fneg (fadd F (fmul F d d) (fdiv F (fmul F (ivar_fl F o) g) l))).                              (* line 200 *)
(** the third result of [derivatives], the sum of the logarithms (OrdinalProbit.py:172-173, 212) *)
Definition ord_sum_fl (F : fmt) (sm : list fval -> fval) (o : ord_probit) (y : list (nat * nat)) (f : nat -> R) : result fval :=
  do l <- like_each_fl F o y f; Ok (sm (map (fln F) l)).
(** OrdinalProbit.py:229-230 [likelihood] and ProbitBase.py:171-172 [log_likelihood], the logarithm of the product *)
Definition ord_loglik_fl (F : fmt) (pr : list fval -> fval) (o : ord_probit) (y : list (nat * nat)) (f : nat -> R) : result fval :=
  do l <- like_each_fl F o y f; Ok (fln F (pr l)).
