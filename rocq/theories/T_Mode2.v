(** Properties C133 and C144: how close the result of find_mode is to the mode, and the predictions to those at the mode *)
From Coquelicot Require Import Coquelicot.
From Coq Require Import Reals Lra Lia List.
From Verif Require Import M_Fake M_RBase M_Normal M_PrefProbit M_OrdProbit M_AbsProbit M_Acq M_GP M_Search M_Fit M_Mode S_PrefProbit S_OrdProbit S_AbsProbit S_Kernel S_GP S_Fit S_Mode P_RBase P_Normal P_AbsProbit P_Chol P_GP P_GP3 P_Fit P_Fit2 P_Fit3 P_Fit4 P_Fit5 P_Mode3 P_Mode4 P_Mode5 P_Mode6 P_Mode7 P_Mode8 P_Mode9 P_Mode10 T_GP T_Fit T_Mode.
From Verif Require Import S_Psd P_Psd.
Local Open Scope R_scope.

(** the distance to the mode after an update is at most a known multiple of the length of the update, in the norm of the prior *)
Theorem C133_step : forall sp P n r K L B inv, good_probits sp P -> 0 < p_sigma (ps_p P) -> well_formed n r -> symmetric n K -> chol n K = Some L -> right_inverse n K B -> inverts_all inv ->
  forall F F' Fs, length F = n -> unclipped (p_sigma (ps_p P)) r (entries F) -> mode_step sp P (only r) n L inv F = Ok F' -> mode sp P (only r) n B Fs ->
  sqrt (qform n B (fun i => Fs i - entries F' i)) <= (1 + 32 / 3 * (1 + load (p_sigma (ps_p P)) K r)) * sqrt (qform n B (fun i => entries F' i - entries F i)).
Proof. exact step_accuracy. Qed.
Print Assumptions C133_step.
(** every value is close to the mode when find_mode stops because the last update was small *)
Theorem C133_stop : forall sp P n r K L B inv d maxloops F0 k F' Fs,
  good_probits sp P -> 0 < p_sigma (ps_p P) -> well_formed n r -> symmetric n K -> chol n K = Some L -> right_inverse n K B -> inverts_all inv -> 0 <= d -> length F0 = n ->
  fit_mode sp P (only r) n K inv d maxloops F0 = Ok (k, F') -> (k <= maxloops)%nat -> unclipped_near (p_sigma (ps_p P)) r n d F' -> mode sp P (only r) n B Fs ->
  forall i, (i < n)%nat -> Rabs (Fs i - nth i F' 0) <= (1 + 32 / 3 * (1 + load (p_sigma (ps_p P)) K r)) * (sqrt (K i i) * sqrt (abs_sum n B) * d).
Proof. exact stop_accuracy. Qed.
Print Assumptions C133_stop.
(** one comparison of two points; started at the mode, the search stops after one loop with the default tolerance 0.0002 of lines 87-88 *)
Example C133_ex : exists L B F, chol 2 ex_K = Some L /\ right_inverse 2 ex_K B /\ mode sp_ex ex_P (only ex_r) 2 B (entries F) /\ length F = 2%nat /\
  mode_step sp_ex ex_P (only ex_r) 2 L safe_inv F = Ok F /\ fit_mode sp_ex ex_P (only ex_r) 2 ex_K safe_inv (2 / 10000) 100 F = Ok (1%nat, F) /\ unclipped_near (p_sigma (ps_p ex_P)) ex_r 2 (2 / 10000) F.
Proof.
  destruct ex_chol as [L [B [EL EB]]]. destruct (C127_fixed_point sp_ex ex_P 2 ex_r ex_K L B safe_inv ex_good ex_sigma ex_wf ex_sym EL EB (proj1 safe_routine)) as [F [E1 [E2 [M _]]]].
  - intros p [<- |[]]. unfold margin_cov, dk_of, u_of, v_of. cbn. lra.
  - exists L, B, F. do 5 (split; [assumption|]). split.
    + unfold fit_mode. rewrite EL. unfold find_mode. cbn [mode_loop]. rewrite E2. cbn [bind]. change (Nat.ltb 100 1) with false. cbv iota.
      replace (Rltb (2 / 10000) (f_err F F)) with false; [reflexivity|]. symmetry. apply Rltb_false. unfold f_err. replace (norm_inf _) with 0; [lra|]. clear. induction F as [|x F IH]; [reflexivity|]. cbn [combine map norm_inf fold_right fst snd].
      change (0 = Rmax (Rabs (x - x)) (norm_inf (map (fun p : R * R => fst p - snd p) (combine F F)))). rewrite <- IH. replace (x - x) with 0 by ring. rewrite Rabs_R0, Rmax_left; lra.
    + assert (A : forall i, (i < 2)%nat -> Rabs (entries F i) <= 2).
      { intros i Hi. assert (T := C127_bounded sp_ex ex_P 2 (only ex_r) ex_K B ex_good ex_only (only_discrete ex_P ex_r) ex_sym ex_pdK EB (entries F) i M Hi). rewrite LL_only_zero in T by (cbn; lra). assert (L2 := ln2_lt1). replace (INR (length ex_r)) with 1 in T by reflexivity.
        assert (ex_K i i = 2) by (destruct i as [|[|i]]; try lia; reflexivity). rewrite H in T. apply Rabs_le. split; nra. }
      intros G HG p [<- |[]]. assert (A0 := A 0%nat ltac:(lia)). assert (A1 := A 1%nat ltac:(lia)). assert (H0 := HG 0%nat ltac:(lia)). assert (H1 := HG 1%nat ltac:(lia)). apply Rabs_le_between in A0, A1, H0, H1.
      unfold dk_of, u_of, v_of. cbn [fst snd ps_p ex_P p_sigma]. assert (Q := sqrt2_pos). assert (Q1 : 1 < sqrt 2) by (rewrite <- sqrt_1 at 1; apply sqrt_lt_1; lra). assert (I : 0 < / (1 * sqrt 2) < 1) by (rewrite Rmult_1_l; split; [apply Rinv_0_lt_compat; lra|rewrite <- Rinv_1; apply Rinv_lt_contravar; lra]).
      set (t := IZR 1 * (G 1%nat - G 0%nat)). assert (T : - 10 < t < 10) by (unfold t; lra). unfold Rdiv. split; nra.
Qed.

(** the predictions after find_mode are close to those of a model which stores the mode itself *)
Theorem C144_predictions : forall sp P inv inv' k d d0 dm r B X dd maxloops F0 loops,
  good_probits sp P -> 0 < p_sigma (ps_p P) -> well_formed (length (pX d)) r -> separate k X (pX d) -> S_Kernel.valid dm k -> periodic_1d dm k -> dim dm X -> dim dm (pX d) -> X <> nil -> pX d <> nil ->
  kcov k (pX d) (pX d) = Ok (pK d) -> pd (length (pX d)) (mat_at (pK d)) -> right_inverse (length (pX d)) (mat_at (pK d)) B -> inverts_all inv' -> 0 <= dd -> length F0 = length (pX d) ->
  fit_mode sp P (only r) (length (pX d)) (mat_at (pK d)) inv' dd maxloops F0 = Ok (loops, pF d) -> (loops <= maxloops)%nat -> unclipped_near (p_sigma (ps_p P)) r (length (pX d)) dd (pF d) ->
  pX d0 = pX d -> pK d0 = pK d -> mode sp P (only r) (length (pX d)) B (entries (pF d0)) ->
  exists mu var mu0 var0, pgp_predict inv k (Some d) X = Ok (mu, var) /\ pgp_predict inv k (Some d0) X = Ok (mu0, var0) /\ length mu = length X /\ length mu0 = length X /\
    forall i, (i < length X)%nat -> Rabs (nth i mu0 0 - nth i mu 0) <=
      (1 + 32 / 3 * (1 + load (p_sigma (ps_p P)) (mat_at (pK d)) r)) * (sqrt (noisy k (pt X i) (pt X i)) * sqrt (abs_sum (length (pX d)) B) * dd).
Proof. exact predict_accuracy. Qed.
Print Assumptions C144_predictions.
(** points whose predictions at the mode differ by more than that are ordered as at the mode *)
Theorem C144_order : forall sp P inv inv' k d d0 dm r B X dd maxloops F0 loops,
  good_probits sp P -> 0 < p_sigma (ps_p P) -> well_formed (length (pX d)) r -> separate k X (pX d) -> S_Kernel.valid dm k -> periodic_1d dm k -> dim dm X -> dim dm (pX d) -> X <> nil -> pX d <> nil ->
  kcov k (pX d) (pX d) = Ok (pK d) -> pd (length (pX d)) (mat_at (pK d)) -> right_inverse (length (pX d)) (mat_at (pK d)) B -> inverts_all inv' -> 0 <= dd -> length F0 = length (pX d) ->
  fit_mode sp P (only r) (length (pX d)) (mat_at (pK d)) inv' dd maxloops F0 = Ok (loops, pF d) -> (loops <= maxloops)%nat -> unclipped_near (p_sigma (ps_p P)) r (length (pX d)) dd (pF d) ->
  pX d0 = pX d -> pK d0 = pK d -> mode sp P (only r) (length (pX d)) B (entries (pF d0)) ->
  forall mu var mu0 var0, pgp_predict inv k (Some d) X = Ok (mu, var) -> pgp_predict inv k (Some d0) X = Ok (mu0, var0) ->
    forall i j, (i < length X)%nat -> (j < length X)%nat ->
      (1 + 32 / 3 * (1 + load (p_sigma (ps_p P)) (mat_at (pK d)) r)) * ((sqrt (noisy k (pt X i) (pt X i)) + sqrt (noisy k (pt X j) (pt X j))) * sqrt (abs_sum (length (pX d)) B) * dd) < nth i mu0 0 - nth j mu0 0 ->
      nth j mu 0 < nth i mu 0.
Proof. exact predict_order. Qed.
Print Assumptions C144_order.
(** two points with a linear kernel, one comparison; started at the mode, the search stops after one loop with the default tolerance *)
Example C144_ex : exists d B, pX d = ex_Y /\ kcov ex_k (pX d) (pX d) = Ok (pK d) /\ pd (length (pX d)) (mat_at (pK d)) /\ right_inverse (length (pX d)) (mat_at (pK d)) B /\
  separate ex_k ((1 :: 1 :: nil) :: (1 :: 0 :: nil) :: nil) (pX d) /\ S_Kernel.valid 2 ex_k /\ periodic_1d 2 ex_k /\ well_formed (length (pX d)) ex_r /\ mode sp_ex ex_P (only ex_r) (length (pX d)) B (entries (pF d)) /\
  fit_mode sp_ex ex_P (only ex_r) (length (pX d)) (mat_at (pK d)) safe_inv (2 / 10000) 100 (pF d) = Ok (1%nat, pF d) /\ unclipped_near (p_sigma (ps_p ex_P)) ex_r (length (pX d)) (2 / 10000) (pF d).
Proof.
  destruct C107_ex as [EK [PK [_ [_ [HQ [V [PE _]]]]]]]. change (length (pX ex_fit)) with 2%nat in PK.
  assert (HK : forall i j, (i < 2)%nat -> (j < 2)%nat -> mat_at (pK ex_fit) i j = ex_mat nil i j) by (intros i j Hi Hj; rewrite (stored_K ex_k (pX ex_fit) (pK ex_fit) (separate_no_zeroed _ _ _ HQ) ltac:(discriminate) EK) by (cbn; assumption); change (pX ex_fit) with ex_Y; symmetry; now apply ex_cov).
  assert (SK : symmetric 2 (mat_at (pK ex_fit))) by (intros i j Hi Hj; rewrite !HK by assumption; destruct i as [|[|i]], j as [|[|j]]; try lia; reflexivity).
  destruct (chol_complete 2 _ SK PK) as [L EL]. assert (IB := k_inv_inverse 2 _ L SK EL).
  destruct (C127_fixed_point sp_ex ex_P 2 ex_r _ L _ safe_inv ex_good ex_sigma ex_wf SK EL IB (proj1 safe_routine)) as [F [E1 [E2 [M _]]]].
  - intros p [<- |[]]. unfold margin_cov, dk_of, u_of, v_of. cbn [fst snd]. rewrite !HK by lia. cbn. lra.
  - exists (Build_pgp_data ex_Y F (pW ex_fit) ex_M), (k_inv 2 L). cbn [pX pK pF pW]. change (length ex_Y) with 2%nat.
    split; [reflexivity|]. split; [exact EK|]. split; [exact PK|]. split; [exact IB|]. split; [left; exact I|]. split; [exact V|]. split; [exact PE|]. split; [exact ex_wf|]. split; [exact M|]. split.
    + unfold fit_mode. change (pK ex_fit) with ex_M in EL. rewrite EL. unfold find_mode. cbn [mode_loop]. rewrite E2. cbn [bind]. change (Nat.ltb 100 1) with false. cbv iota.
      replace (Rltb (2 / 10000) (f_err F F)) with false; [reflexivity|]. symmetry. apply Rltb_false. unfold f_err. replace (norm_inf _) with 0; [lra|]. clear. induction F as [|x F IH]; [reflexivity|]. cbn [combine map norm_inf fold_right fst snd].
      change (0 = Rmax (Rabs (x - x)) (norm_inf (map (fun p : R * R => fst p - snd p) (combine F F)))). rewrite <- IH. replace (x - x) with 0 by ring. rewrite Rabs_R0, Rmax_left; lra.
    + assert (A : forall i, (i < 2)%nat -> Rabs (entries F i) <= 2).
      { intros i Hi. assert (T := C127_bounded sp_ex ex_P 2 (only ex_r) _ _ ex_good ex_only (only_discrete ex_P ex_r) SK PK IB (entries F) i M Hi). rewrite LL_only_zero in T by (cbn; lra). assert (L2 := ln2_lt1). assert (L3 : 0 < ln 2) by (rewrite <- ln_1; apply ln_increasing; lra). replace (INR (length ex_r)) with 1 in T by reflexivity.
        assert (0 < mat_at (pK ex_fit) i i <= 4) by (rewrite HK by auto; destruct i as [|[|i]]; try lia; cbn; lra). apply Rabs_le. split; nra. }
      intros G HG p [<- |[]]. assert (A0 := A 0%nat ltac:(lia)). assert (A1 := A 1%nat ltac:(lia)). assert (H0 := HG 0%nat ltac:(lia)). assert (H1 := HG 1%nat ltac:(lia)). apply Rabs_le_between in A0, A1, H0, H1.
      unfold dk_of, u_of, v_of. cbn [fst snd ps_p ex_P p_sigma]. assert (Q := sqrt2_pos). assert (Q1 : 1 < sqrt 2) by (rewrite <- sqrt_1 at 1; apply sqrt_lt_1; lra). assert (I : 0 < / (1 * sqrt 2) < 1) by (rewrite Rmult_1_l; split; [apply Rinv_0_lt_compat; lra|rewrite <- Rinv_1; apply Rinv_lt_contravar; lra]).
      set (t := IZR 1 * (G 1%nat - G 0%nat)). assert (T : - 10 < t < 10) by (unfold t; lra). unfold Rdiv. split; nra.
Qed.
