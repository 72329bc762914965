(** Property C182: answers turned upside down *)
From Coquelicot Require Import Coquelicot.
From Coq Require Import Reals Lra Lia List.
From Verif Require Import M_RBase M_Base M_Normal M_Hyper M_PrefProbit M_OrdProbit M_AbsProbit M_Kernel M_GP M_Search M_Fit M_Mode M_NormMode S_OrdProbit S_AbsProbit S_Fit S_Mode S_Turned P_AbsProbit P_Turned P_Turned2.
Import ListNotations.
Local Open Scope R_scope.

(** the values looked for: turning every comparison and every rating turns the mode *)
Theorem C182_mode : forall sp P y n B F, y_ord y = None -> (mode sp P (turned P y) n B (opposite F) <-> mode sp P y n B F).
Proof.
exact mode_turned.
Qed.
Print Assumptions C182_mode.
(** the program: from the opposite start find_mode takes the same number of rounds to the opposite values, clipping included *)
Theorem C182_fit : forall sp P y n inv, ndtr (-30) <= ps_eps P -> ps_eps P < 1 / 2 -> y_ord y = None -> forall K delta_f maxloops F0,
  fit_mode sp P (turned P y) n K inv delta_f maxloops (map Ropp F0) = turn_fit (fit_mode sp P y n K inv delta_f maxloops F0).
Proof.
exact fit_turned.
Qed.
Print Assumptions C182_fit.
Theorem C182_fit_normalised : forall sp P y n K inv delta_f maxloops F0, ndtr (-30) <= ps_eps P -> ps_eps P < 1 / 2 -> y_ord y = None ->
  fit_normalised false sp P (turned P y) n K inv delta_f maxloops (map Ropp F0) = turn_norm (fit_normalised false sp P y n K inv delta_f maxloops F0).
Proof.
exact fit_normalised_turned.
Qed.
Print Assumptions C182_fit_normalised.
(** the same W at the opposite values, the opposite gradient; and so predictions with opposite means and the same variances *)
Theorem C182_derivatives : forall sp P y, ndtr (-30) <= ps_eps P -> ps_eps P < 1 / 2 -> y_ord y = None -> forall F,
  derivatives sp P (turned P y) (opposite F) = match derivatives sp P y F with Ok d => Ok (fst (fst d), opposite (snd (fst d)), snd d) | Raise e => Raise e end.
Proof.
exact derivatives_turned.
Qed.
Print Assumptions C182_derivatives.
Theorem C182_predict : forall inv k d X, pgp_predict inv k (Some {| pX := pX d; pF := map Ropp (pF d); pW := pW d; pK := pK d |}) X =
  match pgp_predict inv k (Some d) X with Ok (mu, var) => Ok (map Ropp mu, var) | Raise e => Raise e end.
Proof.
exact predict_turned.
Qed.
Print Assumptions C182_predict.
(** the noise of the ratings is learned alike *)
Theorem C182_noise : forall sp a eps, ndtr (-30) <= eps -> eps < 1 / 2 -> forall y F,
  abs_grad_hyper sp a eps (map turned_rating y) (opposite F) = abs_grad_hyper sp a eps y F.
Proof.
exact gh_turned.
Qed.
Print Assumptions C182_noise.
Theorem C182_default : ndtr (-30) <= / 10 ^ 10.
Proof.
exact default_eps.
Qed.
Print Assumptions C182_default.
(** refuted: normalised to positive values, no fit is the opposite of another *)
Theorem C182_positive_refuted : forall sp P y y' n K L inv d maxloops F0 F0' k k' F, chol n K = Some L -> fit_normalised true sp P y n K inv d maxloops F0 = Ok (k, Some F) ->
  fit_normalised true sp P y' n K inv d maxloops F0' <> Ok (k', Some (map Ropp F)).
Proof.
exact positive_not_turned.
Qed.
Print Assumptions C182_positive_refuted.
(** refuted: ordinal labels are centred at half the largest breakpoint, not at 0; the lowest label never has the opposite mode of the highest *)
Theorem C182_ordinal_refuted : forall sp P b, (3 <= o_n (ps_o P))%nat -> 0 < o_sigma (ps_o P) -> o_b (ps_o P) = linspace0 b (o_n (ps_o P) - 1) -> forall F, 0 < b ->
  mode sp P (ord_only [(1%nat, 0%nat)]) 1 unit_prior F -> ~ mode sp P (turned P (ord_only [(1%nat, 0%nat)])) 1 unit_prior (opposite F).
Proof.
exact ordinal_not_turned.
Qed.
Print Assumptions C182_ordinal_refuted.
Theorem C182_ordinal_ends_refuted : forall n s b f, (3 <= n)%nat -> 0 < s -> 0 < b ->
  label_prob n s (linspace0 b (n - 1)) n (- f) < label_prob n s (linspace0 b (n - 1)) 1 f.
Proof.
exact label_ends.
Qed.
Print Assumptions C182_ordinal_ends_refuted.
Theorem C182_ordinal : forall n s b k f, (3 <= n)%nat -> 0 < s -> (1 <= k <= n)%nat ->
  label_prob n s (linspace0 b (n - 1)) (n + 1 - k) (b - f) = label_prob n s (linspace0 b (n - 1)) k f.
Proof.
exact label_turned.
Qed.
Print Assumptions C182_ordinal.
(** one comparison and one rating *)
Definition ex_T : probit_set := mkProbits (mkPref (1 / 2) true) (mkOrd 5 1 (linspace0 3 4)) (mkAbs 1 80 true true) (/ 10 ^ 10).
Definition ex_y : labels := mkLabels (Some [(1%Z, 0%nat, 1%nat)]) None (Some [(7 / 10, 0%nat)]).
Example C182_ex : ndtr (-30) <= ps_eps ex_T /\ ps_eps ex_T < 1 / 2 /\ turned ex_T ex_y = mkLabels (Some [((-1)%Z, 0%nat, 1%nat)]) None (Some [(1 - 7 / 10, 0%nat)]) /\
  o_b (ps_o ex_T) = linspace0 3 (o_n (ps_o ex_T) - 1) /\ turned ex_T (ord_only [(1%nat, 0%nat)]) = ord_only [(5%nat, 0%nat)].
Proof.
split; [exact default_eps|]. split; [cbn [ps_eps ex_T]; lra|]. repeat split.
Qed.
(** the derivative of the rating at 0 pulls up for 7/10 and down for 3/10 by the same amount *)
Example C182_pull_ex : abs_dpy sp_ex (mkAbs 1 80 true true) (/ 10 ^ 10) (opposite (fun _ => 0)) (turned_rating (7 / 10, 0%nat)) = - abs_dpy sp_ex (mkAbs 1 80 true true) (/ 10 ^ 10) (fun _ => 0) (7 / 10, 0%nat).
Proof.
apply dpy_turned; [exact default_eps|lra].
Qed.
