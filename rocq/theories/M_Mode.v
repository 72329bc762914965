(** Model of the whole of [find_mode] in /repo/src/lop/models/PreferenceGP.py for a given start, without normalisation. *)
From Verif Require Export M_Fit.
From Verif Require Import M_RBase M_GP M_Search.
Local Open Scope R_scope.

(** PreferenceGP.py:269 [np.linalg.norm((F_new - F), ord=np.inf)] *)
Definition f_err (F_new F : list R) : R := norm_inf (map (fun p => fst p - snd p) (combine F_new F)).
(** PreferenceGP.py:218-283 with self.normalize_gp False (the default, line 70): number of loops and self.F.  [K] is the covariance
    (line 221), [F0] the random start (line 223), [delta_f] and [maxloops] the attributes (lines 87-88); a failing Cholesky factorisation
    leaves the random start (lines 229-236) *)
Definition fit_mode (sp : special) (P : probit_set) (y : labels) (n : nat) (K : nat -> nat -> R)
  (inv : nat -> (nat -> nat -> R) -> option (nat -> nat -> R)) (delta_f : R) (maxloops : nat) (F0 : list R) : result (nat * list R) :=
  match chol n K with
  | Some L => find_mode (fun _ => mode_step sp P y n L inv) (fun F_new F => Rltb delta_f (f_err F_new F)) true F0 maxloops (S maxloops)
  | None => find_mode (fun _ => mode_step sp P y n (fun _ _ => 0) inv) (fun F_new F => Rltb delta_f (f_err F_new F)) false F0 maxloops (S maxloops)
  end.
