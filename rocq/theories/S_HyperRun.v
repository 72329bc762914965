(** Specification: hyper-parameters in their domain. *)
From Verif Require Import M_RBase M_Kernel M_Hyper.
Local Open Scope R_scope.

(** gamma draws are positive *)
Definition positive_draws (d : draws) : Prop := 0 < d_p d /\ 0 < d_as d /\ 0 < d_av d /\ Forall (fun x => 0 < x) (d_k d).
(** the noise of comparisons is positive, the spread and the precision of ratings and all kernel parameters are not negative;
    only parameters which are searched for are looked at *)
Definition in_domain (m : hmodel) : Prop :=
  (h_rel m = true -> p_opt (h_p m) = true -> 0 < p_sigma (h_p m)) /\
  (h_abs m = true -> a_opt (h_a m) = true -> 0 <= a_v (h_a m) /\ (a_v_only (h_a m) = false -> 0 <= a_sigma (h_a m))) /\
  (h_only_probit m = false -> forall k, h_kern m = Some k -> Forall (fun x => 0 <= x) (kparam k)).
(** ... and all of them positive *)
Definition in_interior (m : hmodel) : Prop :=
  (h_rel m = true -> p_opt (h_p m) = true -> 0 < p_sigma (h_p m)) /\
  (h_abs m = true -> a_opt (h_a m) = true -> 0 < a_v (h_a m) /\ (a_v_only (h_a m) = false -> 0 < a_sigma (h_a m))) /\
  (h_only_probit m = false -> forall k, h_kern m = Some k -> Forall (fun x => 0 < x) (kparam k)).
