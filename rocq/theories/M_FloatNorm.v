(** Floating-point model of [normalize_0_1]: /repo/src/lop/utilities/training_utility.py:145-149, as in M_Float. *)
From Verif Require Import M_Base M_RBase M_Float M_FloatProbit.
Local Open Scope R_scope.

(** line 146: [1 / (np.max(x) - np.min(x) + (2*eps))] *)
Definition slope_fl (F : fmt) (mx mn eps : R) : fval := fdiv F (Fin 1) (fadd F (fsub F (Fin mx) (Fin mn)) (fmul F (Fin 2) (Fin eps))).
(** training_utility.py:145-149 [normalize_0_1] of a vector of finite numbers *)
Definition normalize_fl (F : fmt) (x : list R) (eps : R) : result (list fval) :=
  do mx <- np_max x; do mn <- np_min x;
  Ok (map (fun v => fmul F (fadd F (fsub F (Fin v) (Fin mn)) (Fin eps)) (slope_fl F mx mn eps)) x). (* line 149 *)
