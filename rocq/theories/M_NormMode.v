(** Model of [find_mode] in /repo/src/lop/models/PreferenceGP.py with normalisation (normalize_gp=True). *)
From Verif Require Export M_Mode.
From Verif Require Import M_RBase M_Base M_GP M_Fit M_Search.
Local Open Scope R_scope.

(** PreferenceGP.py:240-266: derivatives, Newton update, normalisation; [None] is a vector of NaN, which stays NaN *)
Definition norm_step (positive : bool) (sp : special) (P : probit_set) (y : labels) (n : nat) (L : nat -> nat -> R)
  (inv : nat -> (nat -> nat -> R) -> option (nat -> nat -> R)) (v : option (list R)) : result (option (list R)) :=
  match v with
  | Some F => do F_new <- mode_step sp P y n L inv F; normalise true positive F_new
  | None => Ok None
  end.
(** lines 269 and 239: f_err > delta_f, false for NaN *)
Definition still_far (delta_f : R) (v_new v : option (list R)) : bool :=
  match v_new, v with Some F_new, Some F => Rltb delta_f (f_err F_new F) | _, _ => false end.
(** PreferenceGP.py:218-283 with self.normalize_gp True: number of loops and self.F; [positive] is self.normalize_positive *)
Definition fit_normalised (positive : bool) (sp : special) (P : probit_set) (y : labels) (n : nat) (K : nat -> nat -> R)
  (inv : nat -> (nat -> nat -> R) -> option (nat -> nat -> R)) (delta_f : R) (maxloops : nat) (F0 : list R) : result (nat * option (list R)) :=
  match chol n K with
  | Some L => find_mode (fun _ => norm_step positive sp P y n L inv) (still_far delta_f) true (Some F0) maxloops (S maxloops)
  | None => find_mode (fun _ => norm_step positive sp P y n (fun _ _ => 0) inv) (still_far delta_f) false (Some F0) maxloops (S maxloops)
  end.
