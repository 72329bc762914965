(** Specification vocabulary for the mode of the log posterior, which find_mode looks for. *)
From Verif Require Export M_RBase S_Fit.
From Verif Require Import M_RBase M_Normal M_Pairs M_PrefProbit M_OrdProbit M_AbsProbit M_Fit S_PrefProbit S_OrdProbit S_AbsProbit S_Fit S_Psd.
Local Open Scope R_scope.

(** no latent values have a higher log posterior *)
Definition mode (sp : special) (P : probit_set) (y : labels) (n : nat) (B : nat -> nat -> R) (F : nat -> R) : Prop :=
  forall G, log_post sp P y n B G <= log_post sp P y n B F.
(** by how much the preferred point of a comparison exceeds the other one *)
Definition margin (F : nat -> R) (p : pair) : R := dk_of p * (F (v_of p) - F (u_of p)).
(** the weight of a comparison: the derivative of the log of its probability with respect to the margin *)
Definition pull (s : R) (F : nat -> R) (p : pair) : R :=
  npdf (margin F p / (s * sqrt 2)) / ndtr (margin F p / (s * sqrt 2)) / (s * sqrt 2).
(** covariance of the margins of two comparisons under the prior *)
Definition margin_cov (K : nat -> nat -> R) (p q : pair) : R :=
  dk_of p * dk_of q * (K (v_of p) (v_of q) - K (v_of p) (u_of q) - K (u_of p) (v_of q) + K (u_of p) (u_of q)).
(** two different points are compared *)
Definition proper (p : pair) : Prop := u_of p <> v_of p.
(** the contrary answer; the same answer written with exchanged points *)
Definition contrary (p : pair) : pair := ((- fst (fst p))%Z, u_of p, v_of p).
Definition exchanged (p : pair) : pair := ((- fst (fst p))%Z, v_of p, u_of p).
(** some values agree with all answers, so the answers contain no cycle *)
Definition consistent (r : list pair) : Prop := exists G, forall p, In p r -> agrees G p.
(** one more label *)
Definition cons_to {A} (x : A) (o : option (list A)) : option (list A) := Some (x :: match o with Some l => l | None => nil end).
Definition more (y : labels) (p : pair) : labels := mkLabels (cons_to p (y_rel y)) (y_ord y) (y_abs y).
Definition more_ord (y : labels) (k : nat * nat) : labels := mkLabels (y_rel y) (cons_to k (y_ord y)) (y_abs y).
Definition more_abs (y : labels) (a : R * nat) : labels := mkLabels (y_rel y) (y_ord y) (cons_to a (y_abs y)).
(** the breakpoints between ordinal labels are strictly increasing *)
Definition separated (o : ord_probit) : Prop :=
  0 < o_sigma o /\ length (o_b o) = (o_n o - 1)%nat /\ forall i j, (i < j)%nat -> (j < length (o_b o))%nat -> nth i (o_b o) 0 < nth j (o_b o) 0.
(** comparisons and ordinal labels, no ratings; the breakpoints matter only when there are ordinal labels *)
Definition discrete (P : probit_set) (y : labels) : Prop := y_abs y = None /\ (y_ord y <> None -> separated (ps_o P)).
(** the probits with another noise of the comparisons *)
Definition with_noise (P : probit_set) (s : R) : probit_set := mkProbits (mkPref s (p_opt (ps_p P))) (ps_o P) (ps_a P) (ps_eps P).
(** point [w] is preferred in the comparison; the values of different points are independent under the prior *)
Definition wins (w : nat) (p : pair) : Prop := (dk_of p = 1 /\ v_of p = w) \/ (dk_of p = -1 /\ u_of p = w).
Definition independent (n : nat) (K : nat -> nat -> R) : Prop := forall i j, (i < n)%nat -> (j < n)%nat -> i <> j -> K i j = 0.
(** unit prior: variance 1, no correlation *)
Definition unit_prior (i j : nat) : R := if Nat.eqb i j then 1 else 0.
(** the points 1, ..., N beat point 0, and point 0 beats the last point N + 1 *)
Definition last_pair (N : nat) : pair := (1%Z, S N, 0%nat).
Definition beaten_once (N : nat) : list pair := last_pair N :: map (fun k => (1%Z, 0%nat, S k)) (seq 0 N).
(** find_mode stands still at [F], and no comparison is clipped there *)
Definition settled (sp : special) (P : probit_set) (r : list pair) (n : nat) (L : nat -> nat -> R) (inv : nat -> (nat -> nat -> R) -> option (nat -> nat -> R)) (F : list R) : Prop :=
  length F = n /\ unclipped (p_sigma (ps_p P)) r (entries F) /\ mode_step sp P (only r) n L inv F = Ok F.
(** how strongly the comparisons bind the values, relative to the prior *)
Definition load (s : R) (K : nat -> nat -> R) (r : list pair) : R := rsum (map (fun p => margin_cov K p p) r) / (2 * s ^ 2).
(** sum of the absolute entries *)
Definition abs_sum (n : nat) (B : nat -> nat -> R) : R := sumn n (fun i => sumn n (fun j => Rabs (B i j))).
(** no comparison is clipped within a distance of [d] *)
Definition unclipped_near (s : R) (r : list pair) (n : nat) (d : R) (F : list R) : Prop :=
  forall G, (forall i, (i < n)%nat -> Rabs (G i - entries F i) <= d) -> unclipped s r G.
