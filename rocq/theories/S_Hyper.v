(** Specification vocabulary for hyper-parameter vectors. *)
From Verif Require Import M_RBase M_Util M_Kernel M_Hyper S_Kernel.
Local Open Scope R_scope.

(** position of the ordinal bias in the vector *)
Definition bias_pos (m : hmodel) : nat := ((if (h_rel m && p_opt (h_p m))%bool then 1 else 0) + 1)%nat.
(** two models differ only in hyper-parameter values: same data, same switches, same number of ordinals, untouched probits *)
Definition same_setup (m m' : hmodel) : Prop :=
  h_rel m' = h_rel m /\ h_ord m' = h_ord m /\ h_abs m' = h_abs m /\ h_only_probit m' = h_only_probit m /\
  (h_rel m = false -> h_p m' = h_p m) /\ (h_ord m = false -> h_o m' = h_o m) /\ (h_abs m = false -> h_a m' = h_a m) /\
  p_opt (h_p m') = p_opt (h_p m) /\ o_n (h_o m') = o_n (h_o m) /\ a_opt (h_a m') = a_opt (h_a m) /\ a_v_only (h_a m') = a_v_only (h_a m).
(** not a sum or product *)
Definition atomic (k : kern) : Prop := match k with KAdd _ _ | KMul _ _ => False | _ => True end.
(** log prior as a function of the i-th hyper-parameter *)
Definition likelihood_at (g : R -> R) (m : hmodel) (i : nat) (t : R) : R :=
  match set_hyper m (set_nth i t (get_hyper m)) with
  | Ok m' => match hyper_likelihood g m' with Some x => x | None => 0 end
  | Raise _ => 0
  end.
(** every hyper-parameter in use in [m] has in [m'] the value drawn from its own prior *)
Definition own_draws (d : draws) (m m' : hmodel) : Prop :=
  (h_rel m = true -> p_opt (h_p m) = true -> p_sigma (h_p m') = d_p d) /\
  (h_abs m = true -> a_opt (h_a m) = true -> a_v (h_a m') = d_av d /\ (a_v_only (h_a m) = false -> a_sigma (h_a m') = d_as d)) /\
  (forall k, h_kern m = Some k -> h_only_probit m = false -> exists k', h_kern m' = Some k' /\ kparam k' = firstn (length (kparam k)) (d_k d)).
(** configurations for which the draws line up: no ordinal labels, a preference probit with parameters has pairs, and
    either the kernel is not optimised or the rating probit has data and parameters and the kernel is no combination *)
Definition aligned (m : hmodel) : Prop :=
  h_ord m = false /\ (p_opt (h_p m) = true -> h_rel m = true) /\
  (h_only_probit m = true \/ (h_abs m = true /\ a_opt (h_a m) = true /\ forall k, h_kern m = Some k -> atomic k)).
