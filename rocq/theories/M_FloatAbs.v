(** Floating-point model of the rating probit: /repo/src/lop/probits/AbsBoundProbit.py:186-313.  As in M_Float every operation is the exact
    one followed by the rounding of a format; [digamma], [polygamma(1, .)] and [beta.logpdf] of scipy are arguments.  Zeros have no sign. *)
From Verif Require Import M_Base M_RBase M_Normal M_Float M_FloatProbit M_FloatOrd.
Local Open Scope R_scope.

(** scipy.special.digamma, polygamma(1, .) and scipy.stats.beta.logpdf (AbsBoundProbit.py:37-39) *)
Record special_fl := mkSpecialFl { dg : fval -> fval; tg : fval -> fval; lpdf : fval -> fval -> fval -> fval }.
(** line 126: eps = 1e-10; line 239: 1.0 - eps *)
Definition eps_fl (F : fmt) : R := rd F (1 / 10000000000).
Definition hi_fl (F : fmt) : R := rd F (1 - eps_fl F).
(** AbsBoundProbit.py:237-240 [mean_link] of one value; set_sigma (lines 216-219) is that of the comparison probit *)
Definition link_fl (F : fmt) (s f : R) : fval := fclip (eps_fl F) (hi_fl F) (cdf_fl F (fmul F (Fin f) (isqrt_fl F s))).
(** AbsBoundProbit.py:252-255 [get_alpha_beta_ml] *)
Definition alpha_fl (F : fmt) (s v f : R) : fval := fmul F (Fin v) (link_fl F s f).
Definition beta_fl (F : fmt) (s v f : R) : fval := fsub F (Fin v) (alpha_fl F s v f).
(** lines 275-279: v * isqrt2sig * pdf, and the bracket with the logarithms *)
Definition slope_fl (F : fmt) (s v f : R) : fval := fmul F (fmul F (Fin v) (isqrt_fl F s)) (pdf_fl F (fmul F (Fin f) (isqrt_fl F s))).
Definition tmp_fl (F : fmt) (sp : special_fl) (s v : R) (x : fval) (f : R) : fval :=
  fadd F (fsub F (fsub F (fln F x) (fln F (fsub F (Fin 1) x))) (dg sp (alpha_fl F s v f))) (dg sp (beta_fl F s v f)).
(** AbsBoundProbit.py:275: the gradient of the rating [x] of a point with the value [f] *)
Definition abs_dpy_fl (F : fmt) (sp : special_fl) (s v : R) (x : fval) (f : R) : fval := fmul F (slope_fl F s v f) (tmp_fl F sp s v x f).
(** AbsBoundProbit.py:277-279; a minus sign commutes with rounding *)
Definition abs_Wdiag_fl (F : fmt) (sp : special_fl) (s v : R) (x : fval) (f : R) : fval :=
  fmul F (fneg (slope_fl F s v f))
    (fadd F (fmul F (fmul F (Fin f) (i2var_fl F s)) (tmp_fl F sp s v x f))
            (fmul F (slope_fl F s v f) (fadd F (tg sp (alpha_fl F s v f)) (tg sp (beta_fl F s v f))))).
(** AbsBoundProbit.py:283 and 309 *)
Definition abs_py_fl (F : fmt) (sp : special_fl) (s v : R) (x : fval) (f : R) : fval := lpdf sp x (alpha_fl F s v f) (beta_fl F s v f).
(** PreferenceModel.py:243-246: ratings outside [0, 1] raise, the others are moved into [0.001, 0.999]; comparisons with NaN are false *)
Definition check_ratings_fl (F : fmt) (v : list fval) : result (list fval) :=
  if existsb (fun x => fltb x (Fin 0)) v || existsb (fun x => fltb (Fin 1) x) v then Raise ValueError
  else Ok (map (fun x => if fltb (Fin (rd F (999 / 1000))) x then Fin (rd F (999 / 1000)) else x)
            (map (fun x => if fltb x (Fin (rd F (1 / 1000))) then Fin (rd F (1 / 1000)) else x) v)).
(** AbsBoundProbit.py:267-292 [derivatives]: diagonal of the first matrix, gradient and log likelihood; an entry that is assigned twice
    keeps the last value, an entry without rating is zero (minus zero in the matrix) *)
Fixpoint put_fl (y : list (fval * nat)) (g : fval -> fval) (i : nat) (d : fval) : fval :=
  match y with [] => d | (x, j) :: y' => put_fl y' g i (if Nat.eqb i j then g x else d) end.
Definition abs_derivatives_fl (F : fmt) (sm : list fval -> fval) (sp : special_fl) (s v : R) (y : list (fval * nat)) (f : nat -> R) : (nat -> nat -> fval) * (nat -> fval) * fval :=
  (fun i j => fneg (if Nat.eqb i j then put_fl y (fun x => abs_Wdiag_fl F sp s v x (f i)) i (Fin 0) else Fin 0),
   fun i => put_fl y (fun x => abs_dpy_fl F sp s v x (f i)) i (Fin 0),
   sm (map (fun p => abs_py_fl F sp s v (fst p) (f (snd p))) y)).
