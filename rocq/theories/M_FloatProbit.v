(** Floating-point model of the comparison probit: /repo/src/lop/probits/ProbitBase.py:33-63 and PreferenceProbit.py.  As in M_Float every
    operation and every library function is the exact one followed by the rounding of a format; the order in which [np.sum] adds is an
    argument.  Zeros have no sign. *)
From Verif Require Import M_Base M_RBase M_Normal M_PrefProbit M_Float.
Local Open Scope R_scope.

(** negation (ProbitBase.py:37, PreferenceProbit.py:125) *)
Definition fneg (a : fval) : fval := match a with NaN => NaN | PInf => NInf | NInf => PInf | Fin x => Fin (- x) end.
(** subtraction (PreferenceProbit.py:107) *)
Definition fsub (F : fmt) (a b : fval) : fval := fadd F a (fneg b).
(** np.isinf (ProbitBase.py:61, PreferenceProbit.py:187) *)
Definition fisinf (a : fval) : bool := match a with PInf | NInf => true | _ => false end.
(** comparison with zero by == (ProbitBase.py:57) *)
Definition feq0 (a : fval) : bool := match a with Fin x => if Req_EM_T x 0 then true else false | _ => false end.
(** np.clip, which keeps NaN (ProbitBase.py:42, PreferenceProbit.py:328) *)
Definition fclip (lo hi : R) (a : fval) : fval := match a with NaN => NaN | PInf => Fin hi | NInf => Fin lo | Fin x => Fin (rclip lo hi x) end.
(** ProbitBase.py:33 [_sqrt_2pi]; doubling is exact, the rounding after it changes nothing *)
Definition s2pi_fl (F : fmt) : R := rd F (sqrt (rd F (2 * rd F PI))).
(** ProbitBase.py:34-37 [std_norm_pdf] *)
Definition pdf_fl (F : fmt) (x : fval) : fval := fdiv F (fexp F (fdiv F (fneg (fmul F x x)) (Fin 2))) (Fin (s2pi_fl F)).
(** ProbitBase.py:40-43 [std_norm_cdf]; [spec.ndtr] *)
Definition cdf_fl (F : fmt) (x : fval) : fval := match fclip (-30) 100 x with Fin c => rnd F (ndtr c) | _ => NaN end.
(** ProbitBase.py:48-63 [calc_pdf_cdf_ratio] with its guards *)
Definition ratio_fl (F : fmt) (z : fval) : fval * fval :=
  let pdf_z := pdf_fl F z in
  let cdf_z := cdf_fl F z in
  let r := if feq0 cdf_z then (if fltb pdf_z (Fin (1 / 2)) then PInf else Fin 0) else fdiv F pdf_z cdf_z in (* lines 57-59 *)
  (r, if fisinf r then Fin 0 else fmul F r r).                              (* line 61 *)
(** PreferenceProbit.py:88-91 [set_sigma] *)
Definition isqrt_fl (F : fmt) (s : R) : fval := fdiv F (Fin 1) (fmul F (Fin s) (Fin (rd F (sqrt 2)))).
Definition i2var_fl (F : fmt) (s : R) : fval := fmul F (isqrt_fl F s) (isqrt_fl F s).
(** PreferenceProbit.py:106-107 [z_k], one row *)
Definition z_fl (F : fmt) (s : R) (f : nat -> R) (p : pair) : fval :=
  fmul F (fmul F (isqrt_fl F s) (Fin (dk_of p))) (fsub F (Fin (f (v_of p))) (Fin (f (u_of p)))).
(** PreferenceProbit.py:359-363 [add_up_vec] and 347-351 [add_up_mat], see M_PrefProbit *)
Definition add_vec_fl (F : fmt) (M : nat -> fval) (iv : nat * fval) : nat -> fval := fun a => if Nat.eqb a (fst iv) then fadd F (M a) (snd iv) else M a.
Definition add_up_vec_fl (F : fmt) (idx : list nat) (v : list fval) (M : nat -> fval) : nat -> fval := fold_left (add_vec_fl F) (combine idx v) M.
Definition add_mat_fl (F : fmt) (M : nat -> nat -> fval) (e : (nat * nat) * fval) : nat -> nat -> fval :=
  fun a b => if Nat.eqb a (fst (fst e)) && Nat.eqb b (snd (fst e)) then fadd F (M a b) (snd e) else M a b.
Definition add_up_mat_fl (F : fmt) (idx : list (nat * nat)) (v : list fval) (M : nat -> nat -> fval) : nat -> nat -> fval := fold_left (add_mat_fl F) (combine idx v) M.
(** PreferenceProbit.py:119-132 [derv_log_likelyhood] *)
Definition derv_pair_fl (F : fmt) (s : R) (f : nat -> R) (p : pair) : fval := fmul F (fmul F (Fin (dk_of p)) (fst (ratio_fl F (z_fl F s f p)))) (isqrt_fl F s).
Definition derv_fl (F : fmt) (s : R) (y : list pair) (f : nat -> R) : nat -> fval :=
  let d := map (derv_pair_fl F s f) y in
  add_up_vec_fl F (map v_of y) d (add_up_vec_fl F (map u_of y) (map fneg d) (fun _ => Fin 0)).
(** PreferenceProbit.py:183-204 [calc_W] *)
Definition paren_fl (F : fmt) (z : fval) : fval :=
  let (r, r2) := ratio_fl F z in if fltb z (Fin 0) && fisinf r then Fin 0 else fadd F (fmul F z r) r2. (* lines 187-188 *)
Definition W_pair_fl (F : fmt) (s : R) (f : nat -> R) (p : pair) : fval :=
  fmul F (fmul F (Fin (- (dk_of p * dk_of p))) (paren_fl F (z_fl F s f p))) (i2var_fl F s). (* line 189 *)
Definition W_fl (F : fmt) (s : R) (y : list pair) (f : nat -> R) : nat -> nat -> fval :=
  let d := map (W_pair_fl F s f) y in
  add_up_mat_fl F (map (fun p => (v_of p, v_of p)) y) (map fneg d)
    (add_up_mat_fl F (map (fun p => (v_of p, u_of p)) y) d
      (add_up_mat_fl F (map (fun p => (u_of p, v_of p)) y) d
        (add_up_mat_fl F (map (fun p => (u_of p, u_of p)) y) (map fneg d) (fun _ _ => Fin 0)))).
(** PreferenceProbit.py:326-329 [log_likelihood]; [spec.log_ndtr], which is accurate in the tail *)
Definition log_ndtr_fl (F : fmt) (a : fval) : fval := match a with Fin c => rnd F (log_ndtr c) | _ => NaN end.
Definition log_likelihood_fl (F : fmt) (sm : list fval -> fval) (s : R) (y : list pair) (f : nat -> R) : fval :=
  sm (map (fun p => log_ndtr_fl F (fclip (-30) 100 (z_fl F s f p))) y).
