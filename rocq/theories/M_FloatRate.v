(** Floating-point model of the ratings of synthetic users: /repo/src/lop/utilities/synthetic_user.py:16-17, 71-74 and 257-261.  As in M_Float
    every operation is the exact one followed by the rounding of a format; zeros have no sign. *)
From Verif Require Import M_Base M_RBase M_Float M_FloatProbit.
From Coq Require Import Reals.
Local Open Scope R_scope.

(** synthetic_user.py:17: from the exponent on *)
Definition logistic_fl (F : fmt) (t : fval) : fval := fdiv F (Fin 1) (fadd F (Fin 1) (fexp F (fneg t))).
(** synthetic_user.py:16-17 [sigmoid] *)
Definition sigmoid_fl (F : fmt) (k b : R) (x : fval) : fval := logistic_fl F (fadd F (fmul F (Fin k) x) (Fin b)).
(** synthetic_user.py:71-74 [PerfectUser.rate] of one option with the utility [y]: the default steepness of line 16 *)
Definition perfect_rate_fl (F : fmt) (y : R) : fval := sigmoid_fl F 4 0 (Fin y).
(** synthetic_user.py:257-261 [HumanChoiceUser.rate] of one option: [y] is the utility after line 258, [z] the standard normal draw behind
    [np.random.normal(loc=y, scale=sigma)], which numpy computes as loc + scale * z *)
Definition human_rate_fl (F : fmt) (sigma y z : R) : fval := sigmoid_fl F 1 0 (fadd F (Fin y) (fmul F (Fin sigma) (Fin z))).
