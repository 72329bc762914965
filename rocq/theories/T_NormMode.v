(** C160: fitting with normalisation. *)
From Coq Require Import Permutation.
From Coquelicot Require Import Coquelicot.
From Coq Require Import Reals Lra Lia List.
From Verif Require Import M_RBase M_Base M_Normal M_Pairs M_PrefProbit M_OrdProbit M_AbsProbit M_Kernel M_Acq M_GP M_Fit M_Search M_Mode M_NormMode
  S_PrefProbit S_Fit S_Kernel S_GP S_Mode P_Search P_GP P_GP2 P_GP3 P_Fit P_Fit2 P_Mode P_Mode2 P_Mode3 P_Mode4 P_Mode5 P_Mode6 P_Mode7 P_Mode8 P_Fit3 P_Fit4 P_Fit5 P_AbsProbit T_GP T_Fit T_Mode P_NormMode.
From Verif Require Import P_Chol S_Psd P_Psd.
Import ListNotations.
Local Open Scope R_scope.

(** normalised values lie between 0 and 1 with both ends taken, or have absolute values up to exactly 1 *)
Theorem C160_range : forall positive sp P y n K L inv d maxloops F0 k F, length F0 = n -> chol n K = Some L -> fit_normalised positive sp P y n K inv d maxloops F0 = Ok (k, Some F) ->
  length F = n /\ if positive then (forall x, In x F -> 0 <= x <= 1) /\ In 0 F /\ In 1 F else norm_inf F = 1.
Proof. intros. split; [eapply fit_norm_length; eauto|eapply fit_norm_range; eauto]. Qed.
Print Assumptions C160_range.
(** normalisation to absolute values up to 1 multiplies all predicted means by one positive number, so their order stays *)
Theorem C160_order : forall inv k d d' X mu var, pX d' = pX d -> pK d' = pK d -> normalise true false (pF d) = Ok (Some (pF d')) ->
  pgp_predict inv k (Some d) X = Ok (mu, var) -> exists mu' var', pgp_predict inv k (Some d') X = Ok (mu', var') /\ length mu' = length mu /\
    forall i j, (i < length mu)%nat -> (j < length mu)%nat -> (nth i mu' 0 < nth j mu' 0 <-> nth i mu 0 < nth j mu 0).
Proof. exact pgp_normalised. Qed.
Print Assumptions C160_order.
(** refuted: normalisation between 0 and 1 keeps the order of the predictions; here a new point was better than the second training
    point and becomes worse *)
Theorem C160_order_refuted : exists k d d' X inv m v m' v', pX d' = pX d /\ pK d' = pK d /\ pW d' = pW d /\ normalise true true (pF d) = Ok (Some (pF d')) /\
  kcov k (pX d) (pX d) = Ok (pK d) /\ pgp_predict inv k (Some d) X = Ok (m, v) /\ pgp_predict inv k (Some d') X = Ok (m', v') /\
  nth 1 X nil = nth 1 (pX d) nil /\ nth 1 m 0 < nth 2 m 0 /\ nth 2 m' 0 < nth 1 m' 0.
Proof. exact order_lost. Qed.
Print Assumptions C160_order_refuted.
(** refuted: the fit is the mode; it never is, when the prior variances are small for the number of answers (one comparison and variance 1) *)
Theorem C160_mode_refuted : forall positive sp P n r K L B inv d maxloops F0 k F, good_probits sp P -> 0 < p_sigma (ps_p P) -> well_formed n r -> symmetric n K -> chol n K = Some L -> right_inverse n K B ->
  (forall i, (i < n)%nat -> K i i * (INR (length r) * ln 2) < 1) -> length F0 = n ->
  fit_normalised positive sp P (only r) n K inv d maxloops F0 = Ok (k, Some F) -> ~ mode sp P (only r) n B (entries F).
Proof. exact fit_norm_comparisons. Qed.
Print Assumptions C160_mode_refuted.
(** refuted: contradictory answers give equal values; the mode is zero, but normalised values always reach from 0 to 1 *)
Theorem C160_contradiction_refuted : forall sp P n r K L B inv d maxloops F0 k F, good_probits sp P -> well_formed n r -> symmetric n K -> chol n K = Some L -> right_inverse n K B -> Permutation r (map contrary r) ->
  length F0 = n -> fit_normalised true sp P (only r) n K inv d maxloops F0 = Ok (k, Some F) ->
  (exists i j, (i < n)%nat /\ (j < n)%nat /\ entries F i = 0 /\ entries F j = 1) /\ forall G, mode sp P (only r) n B G -> forall i, (i < n)%nat -> G i = 0.
Proof. exact fit_norm_balanced. Qed.
Print Assumptions C160_contradiction_refuted.

(** refuted: the fit between 0 and 1 is made of numbers; with one point it is NaN after one loop, whatever the labels are *)
Theorem C160_single_refuted : forall sp P y K L inv d maxloops x r, chol 1 K = Some L -> fit_normalised true sp P y 1 K inv d maxloops [x] = Ok r -> r = (1%nat, None).
Proof. exact fit_norm_single. Qed.
Print Assumptions C160_single_refuted.

(** ---- examples ---- *)
Example C160_order_ex : normalise true false [-2; 1] = Ok (Some [-1; 1 / 2]) /\ exists m v, pgp_predict (fun _ A => A) nk (Some (nfit [-2; 1])) nX = Ok (m, v).
Proof.
  split.
  - unfold normalise, scale_down, norm_inf. cbn [fold_right]. assert (E : Rmax (Rabs (-2)) (Rmax (Rabs 1) 0) = 2).
    { rewrite (Rabs_left (-2)), (Rabs_right 1) by lra. rewrite (Rmax_left 1 0), Rmax_left by lra. lra. }
    rewrite E. destruct (Req_EM_T 2 0) as [Q|Q]; [lra|]. cbn [map]. do 2 f_equal. repeat (f_equal; try lra).
  - destruct (npredict (fun _ A => A) (-2) 1) as [m [v [E _]]]. eauto.
Qed.
(** one comparison, prior variance 1: a single update from zero *)
Example C160_mode_ex : exists L F, chol 2 unit_prior = Some L /\ fit_normalised false sp_ex ex_P (only ex_r) 2 unit_prior safe_inv 1 0 [0; 0] = Ok (1%nat, Some F) /\
  (forall i, (i < 2)%nat -> unit_prior i i * (INR (length ex_r) * ln 2) < 1) /\ ~ mode sp_ex ex_P (only ex_r) 2 unit_prior (entries F).
Proof.
  destruct (chol_complete 2 unit_prior (unit_sym 2) (unit_pd 2)) as [L EL]. assert (L2 := ln2_lt1).
  assert (HK : forall i, (i < 2)%nat -> unit_prior i i * (INR (length ex_r) * ln 2) < 1) by (intros i _; unfold unit_prior; rewrite Nat.eqb_refl; cbn; lra).
  destruct (C109_ascent_partial sp_ex ex_P 2 ex_r unit_prior L unit_prior safe_inv ex_good ex_only (unit_sym 2) EL (unit_inverse 2) (proj1 safe_routine) (0 :: 0 :: nil) eq_refl) as [e [lam [_ [E _]]]].
  { rewrite ex_entries. apply only_ordinary, zero_unclipped. }
  set (F1 := map (along (entries [0; 0]) e lam) (seq 0 2)) in *.
  assert (N : exists F, normalise true false F1 = Ok (Some F)).
  { destruct (normalise true false F1) as [[F|]|x] eqn:EN; [eauto| |unfold normalise in EN; discriminate]. exfalso.
    assert (Z := proj1 (normalise_symmetric_nan F1) EN).
    assert (Q : F1 = [0; 0]). { unfold F1 in *. cbn [seq map] in *. rewrite (Z (along (entries [0; 0]) e lam 0)), (Z (along (entries [0; 0]) e lam 1)); simpl; auto. }
    rewrite Q in E. apply (C127_standstill sp_ex ex_P 2 ex_r unit_prior L unit_prior safe_inv [0; 0] ex_good ex_wf (unit_sym 2) EL (unit_inverse 2) (proj1 safe_routine) eq_refl) in E; [|rewrite ex_entries; apply zero_unclipped].
    assert (A : consistent ex_r) by (exists INR; intros p [<- |[]]; left; cbn; split; [reflexivity|lra]).
    destruct (C128_consistent sp_ex ex_P 2 ex_r unit_prior unit_prior ex_sigma ex_wf (unit_sym 2) (unit_pd 2) (unit_inverse 2) _ E A ltac:(discriminate)) as [p [[<- |[]] [[_ T]|[T _]]]]; [cbn in T; lra|unfold dk_of in T; cbn in T; lra]. }
  destruct N as [F N]. exists L, F. split; [exact EL|].
  assert (R : fit_normalised false sp_ex ex_P (only ex_r) 2 unit_prior safe_inv 1 0 [0; 0] = Ok (1%nat, Some F)).
  { unfold fit_normalised. rewrite EL. unfold find_mode. cbn [mode_loop]. unfold norm_step at 1. rewrite E. cbn [bind]. rewrite N. reflexivity. }
  split; [exact R|]. split; [exact HK|]. exact (C160_mode_refuted false sp_ex ex_P 2 ex_r unit_prior L unit_prior safe_inv 1 0 [0; 0] 1 F ex_good ex_sigma ex_wf (unit_sym 2) EL (unit_inverse 2) HK eq_refl R).
Qed.
(** contradictory answers about the points 0 and 1, a third point *)
Definition ex_F3 : list R := [0; 0; 1 / 2].
Lemma ex_opp_wf3 : well_formed 3 ex_opp.
Proof. intros p [<- |[<- |[]]]; cbn; (split; [lia|]); (split; [lia|]); [now left|now right]. Qed.
Lemma ex_opp_grad i : derv_log_likelyhood 1 ex_opp (entries ex_F3) i = 0.
Proof.
  assert (Z : forall p, In p ex_opp -> z_of 1 (entries ex_F3) p = 0) by (intros p [<- |[<- |[]]]; unfold z_of, entries, ex_F3, u_of, v_of; cbn [fst snd nth]; ring).
  unfold derv_log_likelyhood. unfold ex_opp. cbn [map combine add_up_vec fold_left]. rewrite !Z by (cbn; auto). unfold add_up_vec. cbn [combine fold_left]. unfold add_vec, dk_of, u_of, v_of. cbn [fst snd].
  destruct i as [|[|i]]; cbn [Nat.eqb]; ring.
Qed.
Lemma ex_opp_W i : calc_W 1 ex_opp (entries ex_F3) 2%nat i = 0 /\ calc_W 1 ex_opp (entries ex_F3) i 2%nat = 0.
Proof.
  unfold calc_W, add_four, add_up_mat, ex_opp. cbn [map combine fold_left]. unfold add_mat, u_of, v_of. cbn [fst snd Nat.eqb andb].
  split; [reflexivity|]. destruct i as [|[|i]]; reflexivity.
Qed.
Lemma ex_opp_row i : calc_W 1 ex_opp (entries ex_F3) 2%nat i = 0.
Proof. exact (proj1 (ex_opp_W i)). Qed.
Lemma ex_opp_col i : calc_W 1 ex_opp (entries ex_F3) i 2%nat = 0.
Proof. exact (proj2 (ex_opp_W i)). Qed.
Lemma search_steps phi : exists k, In k [1; 3; 5; 7; 9; 11; 13; 15] /\ binary_line_search phi 0 (15 / 10) 3 = k * (15 / 10) / 16.
Proof.
  cbn [binary_line_search]. cbv zeta.
  repeat match goal with |- context [if ?b then _ else _] => destruct b end;
  first [exists 1; split; [simpl; tauto|lra] | exists 3; split; [simpl; tauto|lra] | exists 5; split; [simpl; tauto|lra] | exists 7; split; [simpl; tauto|lra]
        | exists 9; split; [simpl; tauto|lra] | exists 11; split; [simpl; tauto|lra] | exists 13; split; [simpl; tauto|lra] | exists 15; split; [simpl; tauto|lra]].
Qed.
Example C160_contradiction_ex : exists L F, chol 3 unit_prior = Some L /\ fit_normalised true sp_ex ex_P (only ex_opp) 3 unit_prior safe_inv 1 0 ex_F3 = Ok (1%nat, Some F) /\
  Permutation ex_opp (map contrary ex_opp).
Proof.
  destruct (chol_complete 3 unit_prior (unit_sym 3) (unit_pd 3)) as [L EL]. 
  assert (O : ordinary ex_P (only ex_opp) (entries ex_F3)).
  { apply only_ordinary. intros p [<- |[<- |[]]]; unfold dk_of, u_of, v_of, entries, ex_F3; cbn [fst snd nth]; match goal with |- context [?a * (0 - 0) / ?b] => replace (a * (0 - 0) / b) with 0 by (unfold Rdiv; ring) end; lra. }
  destruct (rel_W sp_ex ex_P 3 ex_opp (entries ex_F3) ex_good (only_good ex_P 3 ex_opp ex_opp_wf3) O) as [W [g [v [E [WS [WP EW]]]]]].
  assert (IK : forall i j, (i < 3)%nat -> (j < 3)%nat -> k_inv 3 L i j = unit_prior i j).
  { intros i j Hi Hj. apply (inverse_unique 3 unit_prior (k_inv 3 L) unit_prior (unit_sym 3) (unit_pd 3) (k_inv_inverse 3 unit_prior L (unit_sym 3) EL) (unit_inverse 3)); auto. }
  destruct (hess_neg 3 unit_prior L W (unit_sym 3) EL WS WP) as [MS MP].
  assert (Eg : g = fun i => 0 + derv_log_likelyhood 1 ex_opp (entries ex_F3) i).
  { unfold derivatives in E. cbn [y_rel y_ord y_abs bind derivs_add fst snd oplus] in E. injection E as _ <- _. reflexivity. }
  assert (G : forall i, (i < 3)%nat -> mode_gradient 3 L g (entries ex_F3) i = - entries ex_F3 i).
  { intros i Hi. unfold mode_gradient. rewrite Eg, ex_opp_grad, (inverse_solves 3 unit_prior L (entries ex_F3) (unit_sym 3) EL i Hi).
    rewrite (sumn_ext 3 _ (fun j => unit_prior i j * entries ex_F3 j)) by (intros j Hj; now rewrite IK).
    destruct i as [|[|[|i]]]; try lia; cbn [sumn unit_prior Nat.eqb]; ring. }
  destruct (descent_spec safe_inv 3 (mode_gradient 3 L g (entries ex_F3)) (mode_hess 3 L W) (proj1 safe_routine) MS MP) as [x [Ex Sx]].
  assert (HH : forall i j, (i < 3)%nat -> (j < 3)%nat -> mode_hess 3 L W i j = - calc_W 1 ex_opp (entries ex_F3) i j - unit_prior i j).
  { intros i j Hi Hj. unfold mode_hess. rewrite IK by auto. rewrite EW. reflexivity. }
  assert (WR := ex_opp_row). assert (WC := ex_opp_col). set (w := calc_W 1 ex_opp (entries ex_F3)) in HH, WR, WC. clearbody w.
  assert (S0 := Sx 0%nat ltac:(lia)). assert (S1 := Sx 1%nat ltac:(lia)). assert (S2 := Sx 2%nat ltac:(lia)).
  cbn [sumn] in S0, S1, S2. rewrite !G in S0, S1, S2 by lia. rewrite !HH in S0, S1, S2 by lia.
  rewrite !WR in S2. rewrite WC in S0, S1.
  unfold unit_prior, entries, ex_F3 in S0, S1, S2. cbn [Nat.eqb nth] in S0, S1, S2.
  assert (X2 : x 2%nat = 1 / 2) by lra.
  assert (X01 : x 0%nat = 0 /\ x 1%nat = 0).
  { set (c := fun i => match i with 2%nat => 0 | _ => x i end).
    assert (Q : qform 3 (fun i j => - mode_hess 3 L W i j) c = 0).
    { unfold qform. cbn [sumn]. rewrite !HH by lia. rewrite !WR, !WC. unfold unit_prior, c. cbn [Nat.eqb].
      assert (T0 := Rmult_eq_compat_l (x 0%nat) _ _ S0). assert (T1 := Rmult_eq_compat_l (x 1%nat) _ _ S1). lra. }
    destruct (Req_dec (x 0%nat) 0) as [Z0|Z0]; [destruct (Req_dec (x 1%nat) 0) as [Z1|Z1]; [auto|]|]; exfalso.
    - assert (P := MP c (ex_intro _ 1%nat (conj (le_n_S _ _ (le_S _ _ (le_n _))) Z1))). lra.
    - assert (P := MP c (ex_intro _ 0%nat (conj (Nat.lt_0_succ _) Z0))). lra. }
  destruct X01 as [X0 X1].
  destruct (search_steps (fun lam => objective (likli_f sp_ex ex_P (only ex_opp) 3 L) (step_from ex_F3 (map x (seq 0 3)) lam))) as [k [Hk Ek]].
  assert (ES : mode_step sp_ex ex_P (only ex_opp) 3 L safe_inv ex_F3 = Ok [0; 0; 1 / 2 * (1 - k * (15 / 10) / 16)]).
  { unfold only in *. unfold mode_step. rewrite E. cbn [bind fst snd]. cbv zeta. rewrite Ex. unfold newton_update. rewrite Ek. cbn [bind]. f_equal. unfold step_from, ex_F3. cbn [seq map combine fst snd]. rewrite X0, X1, X2.
    repeat (f_equal; try lra). }
  assert (K1 : 1 / 2 * (1 - k * (15 / 10) / 16) <> 0) by (simpl in Hk; destruct Hk as [<- |[<- |[<- |[<- |[<- |[<- |[<- |[<- |[]]]]]]]]]; lra).
  destruct (normalise true true [0; 0; 1 / 2 * (1 - k * (15 / 10) / 16)]) as [[F|]|e] eqn:EN.
  - exists L, F. split; [exact EL|]. split; [|apply perm_swap]. unfold fit_normalised. rewrite EL. unfold find_mode. cbn [mode_loop]. unfold norm_step at 1. rewrite ES. cbn [bind]. rewrite EN. reflexivity.
  - exfalso. apply normalise_positive_nan in EN as [_ EN]. apply K1. apply EN; simpl; auto.
  - exfalso. unfold normalise in EN. cbn [np_min np_max bind map] in EN. discriminate.
Qed.
(** one point without answers: the fit succeeds and is NaN *)
Example C160_single_ex : exists L, chol 1 unit_prior = Some L /\ fit_normalised true sp_ex ex_P (only []) 1 unit_prior safe_inv 1 5 [7] = Ok (1%nat, None).
Proof.
  destruct (chol_complete 1 unit_prior (unit_sym 1) (unit_pd 1)) as [L EL]. exists L. split; [exact EL|].
  assert (G : good_labels ex_P 1 (only [])) by (split; [|split]; try (intros o H; discriminate H); intros r H; injection H as <-; intros p []).
  destruct (C109_ascent_partial sp_ex ex_P 1 [] unit_prior L unit_prior safe_inv ex_good G (unit_sym 1) EL (unit_inverse 1) (proj1 safe_routine) [7] eq_refl) as [e [lam [_ [E _]]]].
  { apply only_ordinary. intros p []. }
  destruct (fit_normalised true sp_ex ex_P (only []) 1 unit_prior safe_inv 1 5 [7]) as [r|x] eqn:R.
  - now rewrite (C160_single_refuted _ _ _ _ L _ _ _ _ _ EL R).
  - exfalso. revert R. unfold fit_normalised. rewrite EL. unfold find_mode. cbn [mode_loop]. unfold norm_step at 1. rewrite E. cbn [bind seq map]. unfold normalise, np_min, np_max, rmin1, rmax1.
    cbn [bind map fold_left fold_right]. unfold scale_down. destruct (Req_EM_T _ 0) as [_|N]; [|exfalso; apply N; lra]. cbn [bind still_far Nat.ltb Nat.leb]. discriminate.
Qed.
