(** Property C145: whole histories of a preference GP *)
From Coquelicot Require Import Coquelicot.
From Coq Require Import QArith Qreals Permutation.
From Coq Require Import Reals Lra Lia List.
From Verif Require Import M_Fake M_RBase M_Normal M_PrefProbit M_OrdProbit M_AbsProbit M_Acq M_GP M_Search M_Fit M_Mode S_PrefProbit S_OrdProbit S_AbsProbit S_Kernel S_GP S_Fit S_Mode P_RBase P_Normal P_AbsProbit P_Chol P_GP P_GP3 P_Fit P_Fit2 P_Fit3 P_Fit4 P_Fit5 P_Mode3 P_Mode4 P_Mode5 P_Mode6 P_Mode7 P_Mode8 P_Mode9 P_Mode10 T_GP T_Fit T_Mode.
From Verif Require Import M_Pareto M_Store M_Kernel M_Whole S_Whole P_Whole P_HyperGrad3.
From Verif Require Import S_Psd P_Psd.
Local Open Scope R_scope.

(** whatever was added, predicted and reset before, the next prediction is close to the one from the mode of all comparisons given *)
Theorem C145_predict : forall c dm l Q draw B, good_config dm c -> comparisons l -> snd (given l) <> nil -> separate (c_k c) Q (given_pts l) -> dim dm Q -> dim dm (given_pts l) -> Q <> nil ->
  pd (length (given_pts l)) (prior_cov (c_k c) (given_pts l)) -> right_inverse (length (given_pts l)) (prior_cov (c_k c) (given_pts l)) B ->
  fitted_well c (snd (given l)) (fst (obj_predict c (obj_run c (new_object false) l) Q draw)) ->
  exists mu var, snd (obj_predict c (obj_run c (new_object false) l) Q draw) = Ok (mu, var) /\ length mu = length Q /\
    forall Fs, mode (c_sp c) (c_P c) (only (snd (given l))) (length (given_pts l)) B Fs ->
      forall i, (i < length Q)%nat -> Rabs (nth i mu 0 - gp_mean (c_k c) (given_pts l) B Fs (pt Q i)) <= accuracy (p_sigma (ps_p (c_P c))) (c_k c) (given_pts l) (snd (given l)) B (c_delta_f c) (pt Q i).
Proof. exact whole_predict. Qed.
Print Assumptions C145_predict.
(** histories which give the same points and, in any order, the same comparisons lead to nearly the same predictions *)
Theorem C145_reproducible : forall c dm l l' Q draw draw' B, good_config dm c -> comparisons l -> comparisons l' -> fst (given l) = fst (given l') -> Permutation (snd (given l)) (snd (given l')) ->
  snd (given l) <> nil -> separate (c_k c) Q (given_pts l) -> dim dm Q -> dim dm (given_pts l) -> Q <> nil ->
  pd (length (given_pts l)) (prior_cov (c_k c) (given_pts l)) -> right_inverse (length (given_pts l)) (prior_cov (c_k c) (given_pts l)) B ->
  fitted_well c (snd (given l)) (fst (obj_predict c (obj_run c (new_object false) l) Q draw)) -> fitted_well c (snd (given l')) (fst (obj_predict c (obj_run c (new_object false) l') Q draw')) ->
  exists mu var mu' var', snd (obj_predict c (obj_run c (new_object false) l) Q draw) = Ok (mu, var) /\ snd (obj_predict c (obj_run c (new_object false) l') Q draw') = Ok (mu', var') /\ length mu = length Q /\ length mu' = length Q /\
    forall i, (i < length Q)%nat -> Rabs (nth i mu 0 - nth i mu' 0) <= 2 * accuracy (p_sigma (ps_p (c_P c))) (c_k c) (given_pts l) (snd (given l)) B (c_delta_f c) (pt Q i).
Proof. exact whole_same. Qed.
Print Assumptions C145_reproducible.
(** after a reset a model predicts like a new one, whatever calls were made before *)
Theorem C145_reset : forall c l Q draw draw', snd (obj_predict c (obj_run c (new_object false) (l ++ CStore OReset :: nil)) Q draw) = snd (obj_predict c (new_object false) Q draw').
Proof. exact whole_reset. Qed.
Print Assumptions C145_reset.
(** a prediction that worked is repeated to the digit, without a new fit, whatever the random start *)
Theorem C145_once : forall c o Q draw r draw', snd (obj_predict c o Q draw) = Ok r ->
  snd (obj_predict c (fst (obj_predict c o Q draw)) Q draw') = Ok r /\
  forall Q' draw'', fst (obj_predict c (fst (obj_predict c o Q draw)) Q' draw'') = fst (obj_predict c o Q draw).
Proof. exact whole_once. Qed.
Print Assumptions C145_once.

(** two points, one comparison, a linear kernel and the default tolerance; the second history contains an earlier batch, a reset and a
    prediction.  The random start lies in [0, 1), as numpy's does *)
Definition w_rows : list row := ((1 # 4)%Q :: 0%Q :: nil) :: ((1 # 2)%Q :: (1 # 4)%Q :: nil) :: nil.
Definition w_conf : gp_config := mkConfig sp_ex ex_k ex_P safe_inv gram_inv (2 / 10000) 100.
Definition w_one : list call := CStore (OAdd w_rows (LRel ex_r)) :: nil.
Definition w_two (Q : list point) (draw : nat -> R) : list call :=
  CStore (OAdd (w_rows ++ w_rows) (LRel (ex_r ++ ex_r))) :: CStore OReset :: CStore (OAdd w_rows (LRel ex_r)) :: CPredict Q draw :: nil.
Definition w_K (i j : nat) : R := match i, j with O, O => 1 / 16 | O, _ | _, O => 1 / 8 | _, _ => 5 / 16 end.
Definition w_Q : list point := (1 :: 1 :: nil) :: (1 :: 0 :: nil) :: nil.
Lemma w_pts : given_pts w_one = (1 / 4 :: 0 :: nil) :: (1 / 2 :: 1 / 4 :: nil) :: nil.
Proof. unfold given_pts, given. cbn [w_one given_from fst app map w_rows]. unfold Q2R. cbn. repeat f_equal; lra. Qed.
Lemma w_cov i j : (i < 2)%nat -> (j < 2)%nat -> w_K i j = prior_cov ex_k (given_pts w_one) i j.
Proof.
  intros Hi Hj. rewrite w_pts. destruct i as [|[|i]], j as [|[|j]]; try lia; unfold prior_cov, train_cov, ex_k, w_K; cbn [Nat.eqb noisy kcall pt nth lin_call combine map fst snd]; unfold lin_call; cbn; lra.
Qed.
Lemma w_pd : pd 2 (prior_cov ex_k (given_pts w_one)).
Proof. apply (pd_ext 2 w_K); [exact w_cov|]. apply pd_two; [reflexivity|cbn; lra|cbn; lra]. Qed.
Lemma f_err_same F : f_err F F = 0.
Proof.
  unfold f_err. induction F as [|x F IH]; [reflexivity|]. cbn [combine map norm_inf fold_right fst snd]. change (Rmax (Rabs (x - x)) (norm_inf (map (fun p : R * R => fst p - snd p) (combine F F))) = 0). rewrite IH. replace (x - x) with 0 by ring. rewrite Rabs_R0, Rmax_left; lra.
Qed.
Lemma w_fit : exists draw B f, (forall i, 0 <= draw i < 1) /\ right_inverse 2 (prior_cov ex_k (given_pts w_one)) B /\ length (f_F f) = 2%nat /\ f_loops f = 1%nat /\ mode sp_ex ex_P (only ex_r) 2 B (entries (f_F f)) /\
  unclipped_near (p_sigma (ps_p ex_P)) ex_r 2 (2 / 10000) (f_F f) /\ forall s, train_pts s = given_pts w_one -> train_labels s = only ex_r -> fit_object w_conf s draw = Ok f.
Proof.
  assert (NY : given_pts w_one <> nil) by (rewrite w_pts; discriminate). destruct (kcov_c ex_k (given_pts w_one) (given_pts w_one) NY I) as [M [EM _]].
  assert (HM : forall i j, (i < 2)%nat -> (j < 2)%nat -> mat_at M i j = w_K i j) by (intros i j Hi Hj; rewrite w_cov by assumption; now apply (stored_K ex_k (given_pts w_one) M I NY EM)).
  assert (SK : symmetric 2 (mat_at M)) by (intros i j Hi Hj; rewrite !HM by assumption; destruct i as [|[|i]], j as [|[|j]]; try lia; reflexivity).
  assert (PK : pd 2 (mat_at M)) by (apply (pd_ext 2 (prior_cov ex_k (given_pts w_one))); [intros; rewrite HM by assumption; symmetry; now apply w_cov|exact w_pd]).
  destruct (chol_complete 2 _ SK PK) as [L EL]. assert (IB := k_inv_inverse 2 _ L SK EL). set (B := k_inv 2 L) in *.
  destruct (C127_fixed_point sp_ex ex_P 2 ex_r _ L B safe_inv ex_good ex_sigma ex_wf SK EL IB (proj1 safe_routine)) as [F [E1 [E2 [MF _]]]].
  { intros p [<- |[]]. unfold margin_cov, dk_of, u_of, v_of. cbn [fst snd]. rewrite !HM by lia. cbn. lra. }
  destruct (P_HyperGrad3.derivatives_total sp_ex ex_P (only ex_r) (entries F) eq_refl) as [d ED].
  assert (A : forall i, (i < 2)%nat -> 0 <= entries F i < 1).
  { intros i Hi. split.
    - rewrite (mode_equation sp_ex ex_P 2 ex_r (mat_at M) B ex_sigma SK IB (entries F) i MF Hi). cbn [ex_r map rsum]. unfold dk_of, u_of, v_of. cbn [fst snd]. assert (P0 := pull_pos (p_sigma (ps_p ex_P)) (entries F) (1%Z, 0%nat, 1%nat) ex_sigma). rewrite !HM by lia.
      destruct i as [|[|i]]; try lia; cbn [w_K]; cbn; cbn in P0; nra.
    - assert (T := C127_bounded sp_ex ex_P 2 (only ex_r) _ _ ex_good ex_only (only_discrete ex_P ex_r) SK PK IB (entries F) i MF Hi). rewrite LL_only_zero in T by (cbn; lra). assert (L2 := ln2_lt1). assert (L3 : 0 < ln 2) by (rewrite <- ln_1; apply ln_increasing; lra). replace (INR (length ex_r)) with 1 in T by reflexivity.
      assert (0 < mat_at M i i <= 5 / 16) by (rewrite HM by auto; destruct i as [|[|i]]; try lia; cbn; lra). nra. }
  exists (entries F), B. eexists. split; [|split; [apply (right_inverse_ext 2 (mat_at M)); [intros; rewrite HM by assumption; now apply w_cov|exact IB]|split; [|split; [|split; [|split; [|intros s E3 E4; unfold fit_object; rewrite E3, E4; cbn [w_conf c_k c_sp c_P c_inv c_delta_f c_maxloops]; rewrite EM; cbn [bind];
    replace (length (given_pts w_one)) with 2%nat by (now rewrite w_pts); replace (map (entries F) (seq 0 2)) with F by (destruct F as [|a [|b [|]]]; try discriminate; reflexivity);
    unfold fit_mode; rewrite EL; unfold find_mode; cbn [mode_loop]; rewrite E2; cbn [bind]; change (Nat.ltb 100 1) with false; cbv iota; rewrite f_err_same; rewrite (proj2 (P_RBase.Rltb_false (2 / 10000) 0)) by lra; cbn [bind fst snd]; rewrite ED; cbn [bind]; reflexivity]]]]]].
  - intro i. destruct (Nat.lt_ge_cases i 2) as [Hi|Hi]; [now apply A|]. unfold entries. rewrite nth_overflow by lia. lra.
  - exact E1.
  - reflexivity.
  - exact MF.
  - intros G HG p [<- |[]]. assert (A0 := A 0%nat ltac:(lia)). assert (A1 := A 1%nat ltac:(lia)). assert (H0 := HG 0%nat ltac:(lia)). assert (H1 := HG 1%nat ltac:(lia)). cbn [f_F] in H0, H1. apply Rabs_le_between in H0, H1.
    unfold dk_of, u_of, v_of. cbn [fst snd ps_p ex_P p_sigma]. assert (Q := sqrt2_pos). assert (Q1 : 1 < sqrt 2) by (rewrite <- sqrt_1 at 1; apply sqrt_lt_1; lra). assert (J : 0 < / (1 * sqrt 2) < 1) by (rewrite Rmult_1_l; split; [apply Rinv_0_lt_compat; lra|rewrite <- Rinv_1; apply Rinv_lt_contravar; lra]).
    set (t := IZR 1 * (G 1%nat - G 0%nat)). assert (T : - 10 < t < 10) by (unfold t; lra). unfold Rdiv. split; nra.
Qed.
Example C145_ex : exists draw B, (forall i, 0 <= draw i < 1) /\ good_config 2 w_conf /\ comparisons w_one /\ comparisons (w_two w_Q draw) /\ given w_one = given (w_two w_Q draw) /\ snd (given w_one) <> nil /\
  separate ex_k w_Q (given_pts w_one) /\ dim 2 w_Q /\ dim 2 (given_pts w_one) /\ pd (length (given_pts w_one)) (prior_cov ex_k (given_pts w_one)) /\ right_inverse (length (given_pts w_one)) (prior_cov ex_k (given_pts w_one)) B /\
  fitted_well w_conf (snd (given w_one)) (fst (obj_predict w_conf (obj_run w_conf (new_object false) w_one) w_Q draw)) /\
  fitted_well w_conf (snd (given (w_two w_Q draw))) (fst (obj_predict w_conf (obj_run w_conf (new_object false) (w_two w_Q draw)) w_Q (fun _ => 0))).
Proof.
  destruct w_fit as [draw [B [f [HD [IB [LF [LL [_ [U E]]]]]]]]]. exists draw, B. assert (N : length (given_pts w_one) = 2%nat) by (now rewrite w_pts). rewrite N. destruct C107_ex as [_ [_ [_ [_ [_ [V [PE _]]]]]]].
  assert (WW : well_formed (length w_rows) ex_r) by exact ex_wf.
  split; [exact HD|]. split; [repeat split; try apply ex_good; try exact V; try exact PE; try exact (proj1 safe_routine); cbn; lra|].
  split; [intros k [<- |[]]; exact WW|]. split; [intros k [<- |[<- |[<- |[<- |[]]]]]; try exact I; try exact WW; intros p Hp; destruct (ex_wf p) as [A1 [A2 A3]]; [cbn in Hp; destruct Hp as [<- |[<- |[]]]; now left|]; repeat split; auto; cbn; lia|].
  split; [reflexivity|]. split; [discriminate|]. split; [left; exact I|]. split; [intros x [<- |[<- |[]]]; reflexivity|]. split; [rewrite w_pts; intros x [<- |[<- |[]]]; reflexivity|]. split; [exact w_pd|]. split; [exact IB|].
  assert (FW : forall S, fitted_well w_conf ex_r (mkObject S (Some f))) by (intro S; unfold fitted_well; cbn [o_fit]; rewrite LL, LF; split; [cbn; lia|exact U]).
  split.
  - unfold w_one, obj_run. cbn [fold_left obj_step o_S o_fit new_object]. unfold obj_predict. cbn [o_S]. set (s := fst (step (init false) (OAdd w_rows (LRel ex_r)))). change (sX s) with (Some w_rows). change (sOpt s) with false. cbv iota. rewrite (E s eq_refl eq_refl). apply FW.
  - unfold w_two, obj_run. cbn [fold_left obj_step o_S o_fit new_object]. set (s := fst (step (fst (step (fst (step (init false) _)) OReset)) (OAdd w_rows (LRel ex_r)))). unfold obj_predict at 2. cbn [o_S]. change (sX s) with (Some w_rows). change (sOpt s) with false. cbv iota. rewrite (E s eq_refl eq_refl). cbn [fst].
    unfold obj_predict. cbn [o_S]. change (sX (set_opt s true)) with (Some w_rows). change (sOpt (set_opt s true)) with true. cbv iota. cbn [fst]. apply FW.
Qed.
