(** How far the predictions after find_mode are from those at the mode. *)
From Coquelicot Require Import Coquelicot.
From Coq Require Import Reals Lra Lia List.
From Verif Require Import M_RBase M_Normal M_PrefProbit M_OrdProbit M_AbsProbit M_Acq M_Kernel M_GP M_Search M_Fit M_Mode S_Search P_Search S_PrefProbit S_OrdProbit S_AbsProbit S_Kernel S_GP S_Fit S_Mode P_RBase P_Acq P_Normal P_PrefProbit P_Put P_OrdProbit P_AbsProbit P_Chol P_Kernel P_GP P_GP2 P_GP3 P_Fit P_Fit2 P_Fit3 P_Fit4 P_Fit5 P_Mode P_Mode2 P_Mode3 P_Mode4 P_Mode5 P_Mode6 P_Mode7 P_Mode8 P_Mode9.
From Verif Require Import S_Psd P_Psd.
Local Open Scope R_scope.

(** the distance to the mode in the norm of the prior *)
Lemma stop_norm sp P n r K L B inv d maxloops F0 k F' Fs :
  good_probits sp P -> 0 < p_sigma (ps_p P) -> well_formed n r -> symmetric n K -> chol n K = Some L -> right_inverse n K B -> inverts_all inv -> 0 <= d -> length F0 = n ->
  fit_mode sp P (only r) n K inv d maxloops F0 = Ok (k, F') -> (k <= maxloops)%nat -> unclipped_near (p_sigma (ps_p P)) r n d F' -> mode sp P (only r) n B Fs ->
  length F' = n /\ sqrt (qform n B (fun i => Fs i - entries F' i)) <= (1 + 32 / 3 * (1 + load (p_sigma (ps_p P)) K r)) * (sqrt (abs_sum n B) * d).
Proof.
  intros GP SP WF SK EL IB HI Hd L0 E Hk U M. unfold fit_mode in E. rewrite EL in E. set (upd := fun _ : nat => mode_step sp P (only r) n L inv) in *. destruct (find_mode_spec upd (fun F_new F => Rltb d (f_err F_new F)) true F0 maxloops) as [H1 [H2 _]].
  destruct (H2 _ _ E eq_refl) as [K1 [K2|[F [A FE]]]]; [lia|]. rewrite E in H1. destruct H1 as [_ [A' _]]. destruct k as [|k]; [lia|]. replace (S k - 1)%nat with k in A by lia.
  inversion A' as [|k' v v' A2 E2]; subst k' v'. rewrite (after_fun _ _ _ _ A2 _ A) in E2. clear v A2 A'.
  assert (FE' : f_err F' F <= d) by (apply P_RBase.Rltb_false; exact FE).
  assert (LF : length F = n) by (apply (after_length sp P r n L inv F0 L0 k F A)). assert (LF' : length F' = n) by (apply (after_length sp P r n L inv F0 L0 (S k) F'); econstructor; eauto).
  assert (V : forall j, (j < n)%nat -> Rabs (entries F' j - entries F j) <= d).
  { intros j Hj. eapply Rle_trans; [|exact FE']. unfold f_err. apply P_Search.norm_inf_ge. apply in_map_iff. exists (nth j F' 0, nth j F 0). split; [reflexivity|]. rewrite <- combine_nth by congruence. apply nth_In. rewrite combine_length, LF, LF'. lia. }
  split; [exact LF'|].
  assert (UF : unclipped (p_sigma (ps_p P)) r (entries F)) by (apply U; intros j Hj; rewrite Rabs_minus_sym; auto).
  assert (S := step_accuracy sp P n r K L B inv GP SP WF SK EL IB HI F F' Fs LF UF E2 M). eapply Rle_trans; [exact S|].
  assert (K0 := load_nonneg P n r K L SP WF SK EL). apply Rmult_le_compat_l; [lra|].
  assert (Q := form_abs n B (fun j => entries F' j - entries F j) d Hd V). assert (AB : 0 <= abs_sum n B) by (apply sumn_nonneg; intros; apply sumn_nonneg; intros; apply Rabs_pos).
  apply sqrt_le_1_alt in Q. rewrite sqrt_mult, sqrt_pow2 in Q by (auto; apply pow2_ge_0). exact Q.
Qed.
(** covariances with one more point: their norm is at most the variance of that point *)
Lemma cov_norm k Y dm x K B : no_zeroed k -> S_Kernel.valid dm k -> periodic_1d dm k -> dim dm Y -> length x = dm ->
  (forall i j, (i < length Y)%nat -> (j < length Y)%nat -> K i j = train_cov k Y nil i j) -> symmetric (length Y) K -> right_inverse (length Y) K B ->
  qform (length Y) B (fun a => kcall k x (pt Y a)) <= noisy k x x.
Proof.
  intros HZ Hv Hp DY Dx HK SK IB. set (n := length Y) in *. set (c := fun a => kcall k x (pt Y a)). assert (SBB := SB n K B SK IB).
  set (e := fun a => sumn n (fun b => B a b * c b)). assert (A := augmented_psd k dm Y x HZ Hv Hp DY Dx e). fold n in A.
  rewrite <- (qform_ext n K (train_cov k Y nil) e e) in A by auto.
  assert (E1 : sumn n (fun a => kcall k x (pt Y a) * e a) = qform n B c).
  { unfold qform. apply sumn_ext. intros a _. unfold e. fold (c a). rewrite <- sumn_scale. apply sumn_ext. intros; ring. }
  assert (E2 : qform n K e = sumn n (fun a => c a * e a)).
  { rewrite (solves_qform n K c e); [reflexivity|]. intros i Hi. unfold e.
    rewrite (sumn_ext n _ (fun j => sumn n (fun b => K i j * B j b * c b))) by (intros j _; rewrite <- sumn_scale; apply sumn_ext; intros; ring).
    rewrite sumn_swap. rewrite (sumn_ext n _ (fun b => unitv i b * c b)).
    - now rewrite sumn_unit.
    - intros b Hb. rewrite (sumn_ext n _ (fun j => c b * (K i j * B j b))) by (intros; ring). rewrite sumn_scale. assert (R := IB i b Hi Hb). rewrite R. unfold unitv. rewrite (Nat.eqb_sym b i). destruct (Nat.eqb i b); ring. }
  rewrite E2 in A. change (fun a => c a * e a) with (fun a => kcall k x (pt Y a) * e a) in A. rewrite E1 in A. fold c. lra.
Qed.
(** the predictions of a preference GP as a function of the stored values *)
Lemma predict_form inv k d dm X B : separate k X (pX d) -> dim dm X -> dim dm (pX d) -> X <> nil -> pX d <> nil ->
  kcov k (pX d) (pX d) = Ok (pK d) -> symmetric (length (pX d)) (mat_at (pK d)) -> pd (length (pX d)) (mat_at (pK d)) -> right_inverse (length (pX d)) (mat_at (pK d)) B ->
  exists mu var, pgp_predict inv k (Some d) X = Ok (mu, var) /\ length mu = length X /\
    forall i, (i < length X)%nat -> nth i mu 0 = bform (length (pX d)) B (fun a => kcall k (pt X i) (pt (pX d) a)) (entries (pF d)).
Proof.
  intros HQ DX DY HX HY EK SK PK IB. set (n := length (pX d)) in *. destruct (chol_complete n (mat_at (pK d)) SK PK) as [L EL]. rewrite (pgp_chunk inv k d dm X HQ DX DY HX). fold n. rewrite EL. eexists _, _. split; [reflexivity|]. split; [apply map_length|]. intros i Hi.
  rewrite nth_map_pt by auto. unfold pgp_mu. fold n. unfold bform. apply sumn_ext. intros j Hj.
  change (fun j => nth j (pF d) 0) with (entries (pF d)). rewrite (inverse_solves n _ L (entries (pF d)) SK EL j Hj). rewrite <- sumn_scale. apply sumn_ext. intros a Ha.
  rewrite (inverse_unique n (mat_at (pK d)) (k_inv n L) B SK PK (k_inv_inverse n _ L SK EL) IB j a Hj Ha). ring.
Qed.
Lemma stored_sym k d : no_zeroed k -> pX d <> nil -> kcov k (pX d) (pX d) = Ok (pK d) -> symmetric (length (pX d)) (mat_at (pK d)).
Proof. intros HZ HY EK i j Hi Hj. rewrite !(stored_K k (pX d) (pK d) HZ HY EK) by auto. now apply (train_cov_sym k (pX d) nil (length (pX d))). Qed.
(** predictions from values close to others, in the norm of the prior, are close *)
Lemma predict_close inv k d d0 dm X B : separate k X (pX d) -> S_Kernel.valid dm k -> periodic_1d dm k -> dim dm X -> dim dm (pX d) -> X <> nil -> pX d <> nil ->
  kcov k (pX d) (pX d) = Ok (pK d) -> pd (length (pX d)) (mat_at (pK d)) -> right_inverse (length (pX d)) (mat_at (pK d)) B -> pX d0 = pX d -> pK d0 = pK d ->
  exists mu var mu0 var0, pgp_predict inv k (Some d) X = Ok (mu, var) /\ pgp_predict inv k (Some d0) X = Ok (mu0, var0) /\ length mu = length X /\ length mu0 = length X /\
    forall i, (i < length X)%nat -> Rabs (nth i mu0 0 - nth i mu 0) <= sqrt (noisy k (pt X i) (pt X i)) * sqrt (qform (length (pX d)) B (fun a => entries (pF d0) a - entries (pF d) a)).
Proof.
  intros HQ Hv Hp DX DY HX HY EK PK IB EX0 EK0. assert (HZ := separate_no_zeroed _ _ _ HQ). assert (SK := stored_sym k d HZ HY EK).
  destruct (predict_form inv k d dm X B HQ DX DY HX HY EK SK PK IB) as [mu [var [E1 [L1 F1]]]].
  destruct (predict_form inv k d0 dm X B) as [mu0 [var0 [E2 [L2 F2]]]]; rewrite ?EX0, ?EK0; auto.
  exists mu, var, mu0, var0. repeat (split; [assumption|]). intros i Hi. rewrite F1, F2 by auto. rewrite EX0. set (n := length (pX d)) in *. set (c := fun a => kcall k (pt X i) (pt (pX d) a)).
  assert (PBB := pd_psd n B (PB n _ B SK PK IB)). assert (SBB := SB n _ B SK IB).
  replace (bform n B c (entries (pF d0)) - bform n B c (entries (pF d))) with (bform n B c (fun a => entries (pF d0) a - entries (pF d) a)).
  2:{ unfold bform. rewrite <- sumn_minus. apply sumn_ext. intros a _. rewrite <- sumn_minus. apply sumn_ext. intros; ring. }
  eapply Rle_trans; [apply (form_sqrt n B c _ SBB PBB)|]. apply Rmult_le_compat_r; [apply sqrt_pos|]. apply sqrt_le_1_alt.
  apply (cov_norm k (pX d) dm (pt X i) (mat_at (pK d)) B HZ Hv Hp DY); auto; [now apply DX, pt_In|]. intros a b Ha Hb. now apply (stored_K k (pX d) (pK d) HZ HY EK).
Qed.
Lemma predict_accuracy sp P inv inv' k d d0 dm r B X dd maxloops F0 loops :
  good_probits sp P -> 0 < p_sigma (ps_p P) -> well_formed (length (pX d)) r -> separate k X (pX d) -> S_Kernel.valid dm k -> periodic_1d dm k -> dim dm X -> dim dm (pX d) -> X <> nil -> pX d <> nil ->
  kcov k (pX d) (pX d) = Ok (pK d) -> pd (length (pX d)) (mat_at (pK d)) -> right_inverse (length (pX d)) (mat_at (pK d)) B -> inverts_all inv' -> 0 <= dd -> length F0 = length (pX d) ->
  fit_mode sp P (only r) (length (pX d)) (mat_at (pK d)) inv' dd maxloops F0 = Ok (loops, pF d) -> (loops <= maxloops)%nat -> unclipped_near (p_sigma (ps_p P)) r (length (pX d)) dd (pF d) ->
  pX d0 = pX d -> pK d0 = pK d -> mode sp P (only r) (length (pX d)) B (entries (pF d0)) ->
  exists mu var mu0 var0, pgp_predict inv k (Some d) X = Ok (mu, var) /\ pgp_predict inv k (Some d0) X = Ok (mu0, var0) /\ length mu = length X /\ length mu0 = length X /\
    forall i, (i < length X)%nat -> Rabs (nth i mu0 0 - nth i mu 0) <=
      (1 + 32 / 3 * (1 + load (p_sigma (ps_p P)) (mat_at (pK d)) r)) * (sqrt (noisy k (pt X i) (pt X i)) * sqrt (abs_sum (length (pX d)) B) * dd).
Proof.
  intros GP SP WF HQ Hv Hp DX DY HX HY EK PK IB HI Hd L0 E Hk U EX0 EK0 M. assert (HZ := separate_no_zeroed _ _ _ HQ). assert (SK := stored_sym k d HZ HY EK).
  destruct (chol_complete _ (mat_at (pK d)) SK PK) as [L EL].
  destruct (stop_norm sp P _ r _ L B inv' dd maxloops F0 loops (pF d) (entries (pF d0)) GP SP WF SK EL IB HI Hd L0 E Hk U M) as [_ N].
  destruct (predict_close inv k d d0 dm X B HQ Hv Hp DX DY HX HY EK PK IB EX0 EK0) as [mu [var [mu0 [var0 [E1 [E2 [L1 [L2 C]]]]]]]].
  exists mu, var, mu0, var0. repeat (split; [assumption|]). intros i Hi. eapply Rle_trans; [exact (C i Hi)|]. assert (Q := sqrt_pos (noisy k (pt X i) (pt X i))). apply (Rmult_le_compat_l _ _ _ Q) in N. eapply Rle_trans; [exact N|]. right. ring.
Qed.
Lemma predict_order sp P inv inv' k d d0 dm r B X dd maxloops F0 loops :
  good_probits sp P -> 0 < p_sigma (ps_p P) -> well_formed (length (pX d)) r -> separate k X (pX d) -> S_Kernel.valid dm k -> periodic_1d dm k -> dim dm X -> dim dm (pX d) -> X <> nil -> pX d <> nil ->
  kcov k (pX d) (pX d) = Ok (pK d) -> pd (length (pX d)) (mat_at (pK d)) -> right_inverse (length (pX d)) (mat_at (pK d)) B -> inverts_all inv' -> 0 <= dd -> length F0 = length (pX d) ->
  fit_mode sp P (only r) (length (pX d)) (mat_at (pK d)) inv' dd maxloops F0 = Ok (loops, pF d) -> (loops <= maxloops)%nat -> unclipped_near (p_sigma (ps_p P)) r (length (pX d)) dd (pF d) ->
  pX d0 = pX d -> pK d0 = pK d -> mode sp P (only r) (length (pX d)) B (entries (pF d0)) ->
  forall mu var mu0 var0, pgp_predict inv k (Some d) X = Ok (mu, var) -> pgp_predict inv k (Some d0) X = Ok (mu0, var0) ->
    forall i j, (i < length X)%nat -> (j < length X)%nat ->
      (1 + 32 / 3 * (1 + load (p_sigma (ps_p P)) (mat_at (pK d)) r)) * ((sqrt (noisy k (pt X i) (pt X i)) + sqrt (noisy k (pt X j) (pt X j))) * sqrt (abs_sum (length (pX d)) B) * dd) < nth i mu0 0 - nth j mu0 0 ->
      nth j mu 0 < nth i mu 0.
Proof.
  intros GP SP WF HQ Hv Hp DX DY HX HY EK PK IB HI Hd L0 E Hk U EX0 EK0 M mu var mu0 var0 E1 E2 i j Hi Hj G.
  destruct (predict_accuracy sp P inv inv' k d d0 dm r B X dd maxloops F0 loops GP SP WF HQ Hv Hp DX DY HX HY EK PK IB HI Hd L0 E Hk U EX0 EK0 M) as [m [v [m0 [v0 [E3 [E4 [_ [_ C]]]]]]]].
  rewrite E1 in E3. injection E3 as <- <-. rewrite E2 in E4. injection E4 as <- <-. assert (Ci := C i Hi). assert (Cj := C j Hj). apply Rabs_le_between in Ci, Cj.
  rewrite !Rmult_plus_distr_r, Rmult_plus_distr_l in G. lra.
Qed.
