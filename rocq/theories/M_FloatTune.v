(** Floating-point model of the two tuning objectives of /repo/src/lop/utilities/HumanChoiceUser2.py:28-49.  As in M_Float every operation
    is the exact one followed by the rounding of a format, and the order in which [np.sum] adds is an argument; differences and
    parameters are finite. *)
From Verif Require Import M_Base M_RBase M_Normal M_Float M_FloatProbit M_FloatPer.
From Coq Require Import Reals List.
Import ListNotations.
Local Open Scope R_scope.

(** np.isnan (HumanChoiceUser2.py:32) *)
Definition fisnan (a : fval) : bool := match a with NaN => true | _ => false end.
(** HumanChoiceUser2.py:29-32: the chance of the better of two options, one where the quotient is NaN *)
Definition chance_fl (F : fmt) (b d : R) : fval :=
  let eb := fexp F (fmul F (fabs (Fin d)) (Fin b)) in
  let l := fdiv F eb (fadd F (Fin 1) eb) in
  if fisnan l then Fin 1 else l.
(** HumanChoiceUser2.py:33: NaN below the threshold, a literal of the program *)
Definition kept_fl (F : fmt) (b d : R) : fval :=
  let l := chance_fl F b d in if fltb l (rnd F (50000001 / 100000000)) then NaN else l.
(** [np.nanmean] (HumanChoiceUser2.py:35, 47): NaN are replaced by zero, the sum is divided by the number of the others *)
Definition nanmean_fl (F : fmt) (sm : list fval -> fval) (l : list fval) : fval :=
  fdiv F (sm (map (fun v => if fisnan v then Fin 0 else v) l)) (Fin (INR (length (filter (fun v => negb (fisnan v)) l)))).
(** HumanChoiceUser2.py:37, 49: the squared distance from the target *)
Definition miss_fl (F : fmt) (m : fval) (p : R) : fval := let e := fsub F m (Fin p) in fmul F e e.
(** HumanChoiceUser2.py:28-37 [obj] *)
Definition obj_fl (F : fmt) (sm : list fval -> fval) (b : R) (diffs : list R) (p : R) : fval :=
  miss_fl F (nanmean_fl F sm (map (kept_fl F b) diffs)) p.
(** [spec.ndtr] without clipping (HumanChoiceUser2.py:44) *)
Definition ndtr_fl (F : fmt) (x : fval) : fval :=
  match x with NaN => NaN | PInf => Fin 1 | NInf => Fin 0 | Fin z => rnd F (ndtr z) end.
(** HumanChoiceUser2.py:40-46: one entry; [np.sqrt(2)] is a constant *)
Definition rated_fl (F : fmt) (sigma d : R) : fval :=
  let sig_scalar := fdiv F (Fin 1) (fmul F (rnd F (sqrt 2)) (Fin sigma)) in
  let v := ndtr_fl F (fmul F (fabs (Fin d)) sig_scalar) in
  if Req_EM_T (Rabs d) 0 then NaN else v.
(** HumanChoiceUser2.py:39-49 [rate_obj] *)
Definition rate_obj_fl (F : fmt) (sm : list fval -> fval) (sigma : R) (diffs : list R) (p : R) : fval :=
  miss_fl F (nanmean_fl F sm (map (rated_fl F sigma) diffs)) p.
