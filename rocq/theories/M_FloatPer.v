(** Floating-point model of the periodic and the linear kernel: /repo/src/lop/kernels/PeriodicKern.py:71-89 and LinearKern.py:108-123.
    As in M_FloatKern every operation is the exact one followed by the rounding of a format, and the order in which [np.sum] adds is an
    argument; points and parameters are finite. *)
From Verif Require Import M_Base M_RBase M_Kernel M_Float M_FloatProbit.
Local Open Scope R_scope.

(** [np.abs] (PeriodicKern.py:83) *)
Definition fabs (a : fval) : fval := match a with NaN => NaN | PInf | NInf => PInf | Fin x => Fin (Rabs x) end.
(** [np.sin] (PeriodicKern.py:85), correctly rounded, NaN for infinities *)
Definition fsin (F : fmt) (a : fval) : fval := match a with Fin x => rnd F (sin x) | _ => NaN end.
(** [np.pi], the constant of the library (PeriodicKern.py:85) *)
Definition np_pi : R := 884279719003555 / 281474976710656.
(** PeriodicKern.py:82-83: [np.sum(np.abs(diff), axis=2)] *)
Definition l1_fl (F : fmt) (sm : list fval -> fval) (u v : point) : fval :=
  sm (map (fun ab : R * R => fabs (fsub F (Fin (fst ab)) (Fin (snd ab)))) (combine u v)).
(** PeriodicKern.py:85: [np.pi*uv_norm / self.p] *)
Definition phase_fl (F : fmt) (sm : list fval -> fval) (p : R) (u v : point) : fval := fdiv F (fmul F (Fin np_pi) (l1_fl F sm u v)) (Fin p).
(** PeriodicKern.py:85-86: [-2 * sin_tmp * sin_tmp / (self.l * self.l)] *)
Definition exponent_fl (F : fmt) (l : R) (phase : fval) : fval :=
  let sin_tmp := fsin F phase in fdiv F (fmul F (fmul F (Fin (-2)) sin_tmp) sin_tmp) (fmul F (Fin l) (Fin l)).
(** PeriodicKern.py:88: [self.sigma * self.sigma * np.exp(exp_tmp)] *)
Definition per_fl (F : fmt) (sm : list fval -> fval) (s l p : R) (u v : point) : fval :=
  fmul F (fmul F (Fin s) (Fin s)) (fexp F (exponent_fl F l (phase_fl F sm p u v))).
(** LinearKern.py:120-122; squares are products.  A square that is too large is infinite, as for numpy scalars; for Python floats [**] raises OverflowError instead *)
Definition lin_fl (F : fmt) (sm : list fval -> fval) (s sb c : R) (u v : point) : fval :=
  fadd F (fmul F (Fin sb) (Fin sb))
    (fmul F (fmul F (Fin s) (Fin s))
       (sm (map (fun ab : R * R => fmul F (fsub F (Fin (fst ab)) (Fin c)) (fsub F (Fin (snd ab)) (Fin c))) (combine u v)))).
