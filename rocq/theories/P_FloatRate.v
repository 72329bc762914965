(** Ratings of synthetic users in binary64. *)
From Coq Require Import Reals ZArith Lra Lia List Bool.
From Flocq Require Import Core.
From Verif Require Import M_Base M_RBase M_Normal M_User M_Float M_FloatProbit M_FloatRate S_User S_Float P_RBase P_Float P_FloatNorm P_FloatKern P_FloatKern5 P_FloatTune P_FloatTune3 P_FloatTune4.
Import ListNotations.
Local Open Scope R_scope.

Definition fle (a b : fval) : Prop := fleb a b = true.
Lemma fle_fin x y : fle (Fin x) (Fin y) <-> x <= y.
Proof. unfold fle. cbn [fleb]. apply Rleb_true. Qed.
Lemma fle_refl a : a <> NaN -> fle a a.
Proof. destruct a; intros H; try contradiction; try reflexivity. apply fle_fin. lra. Qed.
Lemma rnd_num x : rnd b64 x <> NaN.
Proof. unfold rnd. destruct (Rleb _ _); [discriminate|]. destruct (Rleb _ _); discriminate. Qed.
Lemma rnd_mono x y : x <= y -> fle (rnd b64 x) (rnd b64 y).
Proof.
  intros H. apply (rd_le b64 R64) in H. pose proof (huge_pos b64 R64) as P. unfold rnd.
  destruct (Rleb (huge b64) (rd b64 y)) eqn:Ey; [destruct (Rleb (huge b64) (rd b64 x)); [reflexivity|destruct (Rleb (rd b64 x) _); reflexivity]|]. apply Rleb_false in Ey.
  destruct (Rleb (huge b64) (rd b64 x)) eqn:Ex; [apply Rleb_true in Ex; lra|].
  destruct (Rleb (rd b64 x) (- huge b64)) eqn:Nx; [destruct (Rleb (rd b64 y) _); reflexivity|]. apply Rleb_false in Nx.
  destruct (Rleb (rd b64 y) (- huge b64)) eqn:Ny; [apply Rleb_true in Ny; lra|]. now apply fle_fin.
Qed.
Lemma rnd_top x : fle (rnd b64 x) PInf.
Proof. destruct (rnd b64 x) eqn:E; try reflexivity. now apply rnd_num in E. Qed.
Lemma rnd_bot x : fle NInf (rnd b64 x).
Proof. destruct (rnd b64 x) eqn:E; try reflexivity. now apply rnd_num in E. Qed.
Lemma addc_mono a c b : fle a c -> fle (fadd b64 a (Fin b)) (fadd b64 c (Fin b)).
Proof.
  destruct a as [| | |x], c as [| | |y]; cbn [fadd]; intros H; try discriminate H; try reflexivity.
  - apply rnd_bot.
  - apply rnd_top.
  - apply fle_fin in H. apply rnd_mono. lra.
Qed.
Lemma one_mono a c : fle a c -> fle (fadd b64 (Fin 1) a) (fadd b64 (Fin 1) c).
Proof.
  destruct a as [| | |x], c as [| | |y]; cbn [fadd]; intros H; try discriminate H; try reflexivity.
  - apply rnd_bot.
  - apply rnd_top.
  - apply fle_fin in H. apply rnd_mono. lra.
Qed.
Lemma neg_mono a c : fle a c -> fle (fneg c) (fneg a).
Proof. destruct a as [| | |x], c as [| | |y]; cbn [fneg]; intros H; try discriminate H; try reflexivity. apply fle_fin in H. apply fle_fin. lra. Qed.
Lemma mul_mono k x y : 0 <= k -> x <= y -> fle (fmul b64 (Fin k) (Fin x)) (fmul b64 (Fin k) (Fin y)).
Proof. intros. cbn [fmul]. apply rnd_mono. now apply Rmult_le_compat_l. Qed.
Lemma rnd_pos x : 0 <= x -> fle (Fin 0) (rnd b64 x).
Proof. intros H. destruct (rnd_nonneg x H) as [[-> | ->] K]; [reflexivity|now apply fle_fin]. Qed.
Lemma exp_mono a c : fle a c -> fle (fexp b64 a) (fexp b64 c).
Proof.
  destruct a as [| | |x], c as [| | |y]; cbn [fexp]; intros H; try discriminate H; try reflexivity.
  - apply fle_fin. lra.
  - apply rnd_pos, Rlt_le, exp_pos.
  - apply rnd_top.
  - apply fle_fin in H. apply rnd_mono. destruct H as [H| ->]; [now apply Rlt_le, exp_increasing|lra].
Qed.
(** what is divided by *)
Definition den (t : fval) : fval := fadd b64 (Fin 1) (fexp b64 (fneg t)).
Lemma den_ok t : t <> NaN -> den t = PInf \/ exists s, den t = Fin s /\ 1 <= s.
Proof.
  intros H. assert (E : fexp b64 (fneg t) = PInf \/ exists e, fexp b64 (fneg t) = Fin e /\ 0 <= e).
  { destruct t as [| | |x]; cbn [fneg fexp]; [contradiction|right; exists 0; split; [reflexivity|lra]|now left|].
    destruct (rnd_nonneg (exp (- x)) (Rlt_le _ _ (exp_pos _))) as [[-> | ->] K]; [now left|right; eexists; split; [reflexivity|exact K]]. }
  unfold den. destruct E as [-> |[e [-> He]]]; cbn [fadd]; [now left|]. destruct (rnd_nonneg (1 + e)) as [[-> | ->] K]; [lra|now left|right]. eexists. split; [reflexivity|].
  rewrite <- (rd_1 b64 R64) at 1. apply (rd_le b64 R64). lra.
Qed.
Lemma inv_range s : 1 <= s -> 0 < 1 / s <= 1.
Proof. intros H. split; [apply Rdiv_lt_0_compat; lra|]. apply (Rmult_le_reg_r s); [lra|]. replace (1 / s * s) with 1 by (field; lra). lra. Qed.
Lemma inv_fl s : 1 <= s -> fdiv b64 (Fin 1) (Fin s) = Fin (rd b64 (1 / s)) /\ 0 <= rd b64 (1 / s) <= 1.
Proof. intros H. cbn [fdiv]. destruct (Req_EM_T s 0); [lra|]. pose proof (inv_range s H). apply (rnd_unit b64 R64). lra. Qed.
Lemma logistic_num t : t <> NaN -> exists v, logistic_fl b64 t = Fin v /\ 0 <= v <= 1.
Proof.
  intros H. unfold logistic_fl. fold (den t). destruct (den_ok t H) as [-> |[s [-> Hs]]]; [exists 0; split; [reflexivity|lra]|]. destruct (inv_fl s Hs) as [-> B]. eexists. split; [reflexivity|exact B].
Qed.
Lemma logistic_mono a c x y : a <> NaN -> c <> NaN -> fle a c -> logistic_fl b64 a = Fin x -> logistic_fl b64 c = Fin y -> x <= y.
Proof.
  intros Ha Hc H. unfold logistic_fl. fold (den a) (den c). assert (M : fle (den c) (den a)) by (unfold den; apply one_mono, exp_mono, neg_mono, H).
  destruct (den_ok a Ha) as [-> |[s [Es Hs]]], (den_ok c Hc) as [Ec |[r [Er Hr]]].
  - rewrite Ec. cbn [fdiv]. intros E1 E2. injection E1 as <-. injection E2 as <-. lra.
  - rewrite Er. intros E1 E2. cbn [fdiv] in E1. injection E1 as <-. destruct (inv_fl r Hr) as [K B]. rewrite K in E2. assert (rd b64 (1 / r) = y) by congruence. lra.
  - rewrite Es, Ec in M. discriminate M.
  - rewrite Es, Er in *. apply fle_fin in M. destruct (inv_fl r Hr) as [-> _]. destruct (inv_fl s Hs) as [-> _]. intros E1 E2. assert (X : rd b64 (1 / s) = x) by congruence. assert (Y : rd b64 (1 / r) = y) by congruence.
    rewrite <- X, <- Y. apply (rd_le b64 R64). unfold Rdiv. rewrite !Rmult_1_l. apply Rinv_le_contravar; lra.
Qed.
Lemma arg_num k b x : fadd b64 (fmul b64 (Fin k) (Fin x)) (Fin b) <> NaN.
Proof. cbn [fmul]. destruct (rnd b64 (k * x)) eqn:E; cbn [fadd]; try discriminate; [now apply rnd_num in E|apply rnd_num]. Qed.
Lemma rating_num k b x : exists v, sigmoid_fl b64 k b (Fin x) = Fin v /\ 0 <= v <= 1.
Proof. apply logistic_num, arg_num. Qed.
Lemma rating_order k b x y v w : 0 <= k -> x <= y -> sigmoid_fl b64 k b (Fin x) = Fin v -> sigmoid_fl b64 k b (Fin y) = Fin w -> v <= w.
Proof. intros Hk H. apply logistic_mono; [apply arg_num|apply arg_num|]. now apply addc_mono, mul_mono. Qed.
(** against the exact value *)
Lemma sg_neg t : sg t = 1 / (1 + exp (- t)).
Proof. unfold sg. rewrite exp_Ropp. pose proof (exp_pos t). field. split; lra. Qed.
Lemma logistic_near t : -64 <= t <= 64 -> exists v, logistic_fl b64 (Fin t) = Fin v /\ Rabs (v - sg t) <= 6 * u64.
Proof.
  intros H. unfold logistic_fl. cbn [fneg fexp]. pose proof u64_pos as Pu. pose proof (exp_pos (- t)) as Py.
  destruct (rnd_small (exp (- t)) 128) as [-> Bx]; [lia|lia|split; [lra|apply exp_cap; lra]|].
  pose proof (rd_off (exp (- t)) ltac:(lra)) as Ox. rewrite sg_neg. set (y := exp (- t)) in *. set (x := rd b64 y) in *. cbn [fadd].
  assert (B1 : 1 + x <= bpow radix2 129).
  { assert (E : bpow radix2 129 = 2 * bpow radix2 128) by (change 129%Z with (1 + 128)%Z; rewrite bpow_plus; reflexivity).
    assert (1 <= bpow radix2 128) by (change 1 with (bpow radix2 0); apply bpow_le; lia). lra. }
  destruct (rnd_small (1 + x) 129) as [-> Bs]; [lia|lia|lra|]. pose proof (rd_off (1 + x) ltac:(lra)) as Os.
  assert (S1 : 1 <= rd b64 (1 + x)) by (rewrite <- (rd_1 b64 R64) at 1; apply (rd_le b64 R64); lra).
  set (s := rd b64 (1 + x)) in *. destruct (inv_fl s S1) as [-> _]. eexists. split; [reflexivity|]. pose proof (inv_range s S1) as Rs.
  pose proof (rd_off (1 / s) ltac:(lra)) as Oq. assert (D1 : Rabs (rd b64 (1 / s) - 1 / s) <= 2 * u64) by (clear - Oq Rs Pu; nra).
  assert (D2 : Rabs (1 / s - 1 / (1 + x)) <= 2 * u64).
  { replace (1 / s - 1 / (1 + x)) with ((1 + x - s) * (1 / (s * (1 + x)))) by (field; lra). assert (P : 0 < s * (1 + x)) by (apply Rmult_lt_0_compat; lra).
    rewrite Rabs_mult, (Rabs_pos_eq (1 / _)) by (apply Rlt_le, Rdiv_lt_0_compat; lra). rewrite <- Rabs_Ropp. replace (- (1 + x - s)) with (s - (1 + x)) by ring.
    apply (Rmult_le_reg_r (s * (1 + x))); [exact P|]. replace (Rabs (s - (1 + x)) * (1 / (s * (1 + x))) * (s * (1 + x))) with (Rabs (s - (1 + x))) by (field; lra).
    eapply Rle_trans; [exact Os|]. assert (1 + x <= s * (1 + x)) by nra. nra. }
  assert (D3 : Rabs (1 / (1 + x) - 1 / (1 + y)) <= 2 * u64).
  { replace (1 / (1 + x) - 1 / (1 + y)) with ((y - x) * (1 / ((1 + x) * (1 + y)))) by (field; lra). assert (P : 0 < (1 + x) * (1 + y)) by (apply Rmult_lt_0_compat; lra).
    rewrite Rabs_mult, (Rabs_pos_eq (1 / _)) by (apply Rlt_le, Rdiv_lt_0_compat; lra). rewrite <- Rabs_Ropp. replace (- (y - x)) with (x - y) by ring.
    apply (Rmult_le_reg_r ((1 + x) * (1 + y))); [exact P|]. replace (Rabs (x - y) * (1 / ((1 + x) * (1 + y))) * ((1 + x) * (1 + y))) with (Rabs (x - y)) by (field; lra).
    eapply Rle_trans; [exact Ox|]. assert (1 + y <= (1 + x) * (1 + y)) by nra. nra. }
  pose proof (dist3 (rd b64 (1 / s)) (1 / s) (1 / (1 + x)) (1 / (1 + y)) (1 / (1 + y))) as D. rewrite (Rminus_diag_eq (1 / (1 + y)) (1 / (1 + y)) eq_refl), Rabs_R0 in D. lra.
Qed.
Lemma fin_num x : Fin x <> NaN.
Proof. discriminate. Qed.
Lemma at_int z : (Z.abs z <= 2 ^ 53)%Z -> rnd b64 (IZR z) = Fin (IZR z).
Proof. intros H. destruct (rnd_between b64 R64 (IZR z) z z H H) as [-> _]; [lra|]. f_equal. now apply (rd_int b64 R64). Qed.
Lemma arg_high k x z : (Z.abs z <= 2 ^ 53)%Z -> IZR z <= k * x -> fle (Fin (IZR z)) (fadd b64 (fmul b64 (Fin k) (Fin x)) (Fin 0)).
Proof.
  intros Hz H. apply rnd_mono in H. rewrite (at_int z Hz) in H. apply (addc_mono _ _ 0) in H. cbn [fadd] in H. rewrite Rplus_0_r, (at_int z Hz) in H. exact H.
Qed.
Lemma arg_low k x z : (Z.abs z <= 2 ^ 53)%Z -> k * x <= IZR z -> fle (fadd b64 (fmul b64 (Fin k) (Fin x)) (Fin 0)) (Fin (IZR z)).
Proof.
  intros Hz H. apply rnd_mono in H. rewrite (at_int z Hz) in H. apply (addc_mono _ _ 0) in H. cbn [fadd] in H. rewrite Rplus_0_r, (at_int z Hz) in H. exact H.
Qed.
Lemma sigmoid_sg k x : sigmoid k 0 x = sg (k * x).
Proof. unfold sigmoid. rewrite sg_neg, Rplus_0_r. reflexivity. Qed.
Lemma sg_range t : 0 < sg t < 1.
Proof.
  rewrite sg_neg. pose proof (exp_pos (- t)). split; [apply Rdiv_lt_0_compat; lra|]. apply (Rmult_lt_reg_r (1 + exp (- t))); [lra|]. replace (1 / (1 + exp (- t)) * (1 + exp (- t))) with 1 by (field; lra). lra.
Qed.
Lemma exp53 : exp (- (53)) <= u64.
Proof.
  pose proof (pow2_exp 53) as K. replace (- INR 53) with (- (53)) in K by (rewrite INR_IZR_INZ; reflexivity). replace (/ 2 ^ 53) with u64 in K by (unfold u64; rewrite <- (bpow_neg 53); reflexivity). exact K.
Qed.
Lemma sg_63 : 1 - u64 <= sg 63 /\ sg (-63) <= u64.
Proof.
  pose proof exp53 as K. assert (L : exp (- (63)) < exp (- (53))) by (apply exp_increasing; lra). rewrite (sg_neg 63). pose proof (exp_pos (- (63))) as P. set (e := exp (- (63))) in *. split.
  - replace (1 / (1 + e)) with (1 - e * (1 / (1 + e))) by (field; lra). pose proof (inv_range (1 + e) ltac:(lra)). nra.
  - unfold sg. replace (-63) with (- (63)) by lra. fold e. replace (e / (1 + e)) with (e * (1 / (1 + e))) by (field; lra). pose proof (inv_range (1 + e) ltac:(lra)). nra.
Qed.
Lemma rating_near k x : exists v, sigmoid_fl b64 k 0 (Fin x) = Fin v /\ Rabs (v - sigmoid k 0 x) <= bpow radix2 (-46).
Proof.
  rewrite sigmoid_sg. pose proof u64_pos as Pu. assert (U : bpow radix2 (-46) = 128 * u64) by (unfold u64; change (-46)%Z with (7 + -53)%Z; rewrite bpow_plus; reflexivity). rewrite U.
  destruct (rating_num k 0 x) as [v [E B]]. exists v. split; [exact E|]. destruct sg_63 as [S1 S2]. pose proof (sg_range (k * x)) as R. pose proof (Rle_lt_dec 63 (k * x)) as [H|H].
  - destruct (logistic_near 63 ltac:(lra)) as [w [Ew Bw]]. assert (L : w <= v) by (apply (logistic_mono _ _ _ _ (fin_num _) (arg_num k 0 x) (arg_high k x 63 ltac:(lia) H) Ew E)).
    apply Rabs_le_inv in Bw. pose proof (sg_lip_le 63 (k * x) H). apply Rabs_le. lra.
  - destruct (Rle_lt_dec (k * x) (-63)) as [G|G].
    + destruct (logistic_near (-63) ltac:(lra)) as [w [Ew Bw]]. assert (L : v <= w) by (apply (logistic_mono _ _ _ _ (arg_num k 0 x) (fin_num _) (arg_low k x (-63) ltac:(lia) G) E Ew)).
      apply Rabs_le_inv in Bw. pose proof (sg_lip_le (k * x) (-63) G). apply Rabs_le. lra.
    + unfold sigmoid_fl in E. cbn [fmul] in E. destruct (rnd_between b64 R64 (k * x) (-63) 63) as [Et Bt]; [lia|lia|lra|]. rewrite Et in E. cbn [fadd] in E. rewrite Rplus_0_r in E.
      destruct (rnd_between b64 R64 (rd b64 (k * x)) (-63) 63) as [Et2 _]; [lia|lia|lra|]. rewrite Et2, rd_idem in E. pose proof (rd_err (k * x)) as O. set (t := rd b64 (k * x)) in *.
      destruct (logistic_near t ltac:(lra)) as [w [Ew Bw]]. rewrite Ew in E. assert (Ev : w = v) by congruence. subst w. change uu with u64 in O. assert (T : ee <= u64) by (apply bpow_le; lia).
      assert (O' : Rabs (t - k * x) <= 64 * u64) by (assert (Rabs (k * x) <= 63) by (apply Rabs_le; lra); nra). pose proof (sg_lip t (k * x)) as L.
      replace (v - sg (k * x)) with ((v - sg t) + (sg t - sg (k * x))) by ring. eapply Rle_trans; [apply Rabs_triang|]. lra.
Qed.
Lemma rating_one k x : 54 <= k * x -> sigmoid_fl b64 k 0 (Fin x) = Fin 1.
Proof.
  intros H. destruct (rating_num k 0 x) as [v [E B]]. rewrite E. f_equal. assert (W : logistic_fl b64 (Fin 54) = Fin 1).
  { unfold logistic_fl. cbn [fneg fexp]. assert (L : exp (- (54)) <= u64) by (apply Rle_trans with (exp (- (53))); [apply Rlt_le, exp_increasing; lra|exact exp53]). pose proof (exp_pos (- (54))) as P.
    pose proof u64_small as Us. destruct (rnd_unit b64 R64 (exp (- (54)))) as [-> Bx]; [lra|]. assert (X : rd b64 (exp (- (54))) <= u64) by (change u64 with (bpow radix2 (-53)); rewrite <- (rd_bpow (-53)) by lia; apply (rd_le b64 R64); exact L).
    set (x0 := rd b64 (exp (- (54)))) in *. cbn [fadd]. destruct (rnd_between b64 R64 (1 + x0) 1 2) as [-> _]; [lia|lia|lra|].
    rewrite (rd_absorb 0 (1 + x0)); [|lia|change (bpow radix2 0) with 1; change (bpow radix2 (0 - 53)) with u64; lra]. change (bpow radix2 0) with 1. destruct (inv_fl 1 ltac:(lra)) as [-> _]. f_equal. replace (1 / 1) with 1 by field. apply (rd_1 b64 R64). }
  assert (1 <= v) by (apply (logistic_mono _ _ _ _ (fin_num _) (arg_num k 0 x) (arg_high k x 54 ltac:(lia) H) W E)). lra.
Qed.
Lemma rating_zero k x : k * x <= -1100 -> sigmoid_fl b64 k 0 (Fin x) = Fin 0.
Proof.
  intros H. destruct (rating_num k 0 x) as [v [E B]]. rewrite E. f_equal. assert (W : logistic_fl b64 (Fin (-1100)) = Fin 0).
  { unfold logistic_fl. cbn [fneg fexp]. assert (L : bpow radix2 1024 <= exp (- -1100)).
    { pose proof (pow2_exp 1024) as K. replace (- INR 1024) with (- (1024)) in K by (rewrite INR_IZR_INZ; reflexivity). replace (2 ^ 1024) with (bpow radix2 1024) in K by (rewrite pow_IZR; reflexivity).
      rewrite exp_Ropp in K. pose proof (exp_pos 1024) as P. apply Rinv_le_contravar in K; [|apply Rinv_0_lt_compat, P]. rewrite !Rinv_inv in K. assert (exp 1024 < exp (- -1100)) by (apply exp_increasing; lra). lra. }
    assert (R : rnd b64 (exp (- -1100)) = PInf); [|rewrite R; reflexivity]. unfold rnd. rewrite (proj2 (Rleb_true _ _)); [reflexivity|]. change (huge b64) with (bpow radix2 1024). rewrite <- (rd_bpow 1024) at 1 by lia. apply (rd_le b64 R64). exact L. }
  assert (v <= 0) by (apply (logistic_mono _ _ _ _ (arg_num k 0 x) (fin_num _) (arg_low k x (-1100) ltac:(lia) H) E W)). lra.
Qed.
(** noisy ratings *)
Lemma noisy_num s y z : fadd b64 (Fin y) (fmul b64 (Fin s) (Fin z)) <> NaN.
Proof. cbn [fmul]. destruct (rnd b64 (s * z)) eqn:E; cbn [fadd]; try discriminate; [now apply rnd_num in E|apply rnd_num]. Qed.
Lemma times_one a : a <> NaN -> fmul b64 (Fin 1) a <> NaN.
Proof.
  destruct a as [| | |x]; intros H; cbn [fmul]; [contradiction| | |apply rnd_num]; unfold inf_times, ninf_times; rewrite (proj2 (Rltb_true 0 1)) by lra; discriminate.
Qed.
Lemma times_one_mono a c : fle a c -> fle (fmul b64 (Fin 1) a) (fmul b64 (Fin 1) c).
Proof.
  destruct a as [| | |x], c as [| | |y]; cbn [fmul]; intros H; try discriminate H; unfold inf_times, ninf_times; rewrite ?(proj2 (Rltb_true 0 1)) by lra; try reflexivity.
  - apply rnd_bot.
  - apply rnd_top.
  - apply fle_fin in H. apply rnd_mono. lra.
Qed.
Lemma human_arg s y z : fadd b64 (fmul b64 (Fin 1) (fadd b64 (Fin y) (fmul b64 (Fin s) (Fin z)))) (Fin 0) <> NaN.
Proof. assert (H := times_one _ (noisy_num s y z)). destruct (fmul b64 (Fin 1) _); cbn [fadd]; try discriminate; [contradiction|apply rnd_num]. Qed.
Lemma human_num s y z : exists v, human_rate_fl b64 s y z = Fin v /\ 0 <= v <= 1.
Proof. apply logistic_num, human_arg. Qed.
Lemma noisy_mono s y y' z : y <= y' -> fle (fadd b64 (Fin y) (fmul b64 (Fin s) (Fin z))) (fadd b64 (Fin y') (fmul b64 (Fin s) (Fin z))).
Proof. intros H. cbn [fmul]. destruct (rnd b64 (s * z)) eqn:E; cbn [fadd]; try reflexivity; [now apply rnd_num in E|]. apply rnd_mono. lra. Qed.
Lemma human_order s y y' z v w : y <= y' -> human_rate_fl b64 s y z = Fin v -> human_rate_fl b64 s y' z = Fin w -> v <= w.
Proof. intros H. apply logistic_mono; [apply human_arg|apply human_arg|]. now apply addc_mono, times_one_mono, noisy_mono. Qed.
Lemma human_ok s y y' z : exists v w, human_rate_fl b64 s y z = Fin v /\ human_rate_fl b64 s y' z = Fin w /\ 0 <= v <= 1 /\ 0 <= w <= 1 /\ (y <= y' -> v <= w).
Proof.
  destruct (human_num s y z) as [v [Ev Bv]], (human_num s y' z) as [w [Ew Bw]]. exists v, w. split; [exact Ev|]. split; [exact Ew|]. split; [exact Bv|]. split; [exact Bw|]. intros H. now apply (human_order s y y' z).
Qed.
Lemma rating_ok k b x y : 0 <= k -> exists v w, sigmoid_fl b64 k b (Fin x) = Fin v /\ sigmoid_fl b64 k b (Fin y) = Fin w /\ 0 <= v <= 1 /\ 0 <= w <= 1 /\ (x <= y -> v <= w).
Proof.
  intros Hk. destruct (rating_num k b x) as [v [Ev Bv]], (rating_num k b y) as [w [Ew Bw]]. exists v, w. split; [exact Ev|]. split; [exact Ew|]. split; [exact Bv|]. split; [exact Bw|]. intros H. now apply (rating_order k b x y).
Qed.
Lemma sg_strict x y : x < y -> sg x < sg y.
Proof.
  intros H. rewrite !sg_neg. pose proof (exp_pos (- y)). assert (exp (- y) < exp (- x)) by (apply exp_increasing; lra). unfold Rdiv. rewrite !Rmult_1_l. apply Rinv_lt_contravar; nra.
Qed.
Lemma rating_tied k x y : 54 <= k * x -> 54 <= k * y -> k * x < k * y -> sigmoid_fl b64 k 0 (Fin x) = Fin 1 /\ sigmoid_fl b64 k 0 (Fin y) = Fin 1 /\ sigmoid k 0 x < sigmoid k 0 y < 1.
Proof. intros Hx Hy H. split; [now apply rating_one|]. split; [now apply rating_one|]. rewrite !sigmoid_sg. split; [now apply sg_strict|apply sg_range]. Qed.
Lemma rating_nought k x : k * x <= -1100 -> sigmoid_fl b64 k 0 (Fin x) = Fin 0 /\ 0 < sigmoid k 0 x.
Proof. intros H. split; [now apply rating_zero|]. rewrite sigmoid_sg. apply sg_range. Qed.
Lemma human_near s y z : Rabs y + Rabs (s * z) <= 60 -> exists v, human_rate_fl b64 s y z = Fin v /\ Rabs (v - sigmoid 1 0 (y + s * z)) <= bpow radix2 (-44).
Proof.
  intros H. pose proof (Rabs_pos y) as Py. pose proof (Rabs_pos (s * z)) as Pz. pose proof u64_pos as Pu. pose proof u64_small as Us. assert (T : ee <= u64) by (apply bpow_le; lia).
  assert (Bz : -60 <= s * z <= 60) by (assert (K : Rabs (s * z) <= 60) by lra; apply Rabs_le_inv in K; lra).
  unfold human_rate_fl. cbn [fmul]. destruct (rnd_between b64 R64 (s * z) (-60) 60) as [-> _]; [lia|lia|exact Bz|]. pose proof (rd_err (s * z)) as O1. set (w := rd b64 (s * z)) in *. change uu with u64 in O1.
  assert (O1' : Rabs (w - s * z) <= 61 * u64) by nra. cbn [fadd]. assert (By : Rabs (y + s * z) <= 60) by (pose proof (Rabs_triang y (s * z)); lra).
  assert (Bw : Rabs (y + w) <= 61) by (replace (y + w) with ((y + s * z) + (w - s * z)) by ring; eapply Rle_trans; [apply Rabs_triang|]; lra).
  destruct (rnd_between b64 R64 (y + w) (-61) 61) as [-> _]; [lia|lia|now apply Rabs_le_inv in Bw|]. pose proof (rd_err (y + w)) as O2. set (t := rd b64 (y + w)) in *. change uu with u64 in O2.
  assert (O2' : Rabs (t - (y + w)) <= 62 * u64) by nra. destruct (rating_near 1 t) as [v [E B]]. exists v. split; [exact E|].
  assert (U : bpow radix2 (-46) = 128 * u64) by (unfold u64; change (-46)%Z with (7 + -53)%Z; rewrite bpow_plus; reflexivity). assert (U' : bpow radix2 (-44) = 512 * u64) by (unfold u64; change (-44)%Z with (9 + -53)%Z; rewrite bpow_plus; reflexivity).
  rewrite U in B. rewrite U'. rewrite sigmoid_sg in B |- *. rewrite Rmult_1_l in B |- *. pose proof (sg_lip t (y + s * z)) as L.
  assert (D : Rabs (t - (y + s * z)) <= 123 * u64) by (replace (t - (y + s * z)) with ((t - (y + w)) + (w - s * z)) by ring; eapply Rle_trans; [apply Rabs_triang|]; lra).
  replace (v - sg (y + s * z)) with ((v - sg t) + (sg t - sg (y + s * z))) by ring. eapply Rle_trans; [apply Rabs_triang|]. lra.
Qed.
Lemma users_near s y z : (exists v, perfect_rate_fl b64 y = Fin v /\ Rabs (v - sigmoid 4 0 y) <= bpow radix2 (-46)) /\
  (Rabs y + Rabs (s * z) <= 60 -> exists v, human_rate_fl b64 s y z = Fin v /\ Rabs (v - sigmoid 1 0 (y + s * z)) <= bpow radix2 (-44)).
Proof. split; [apply rating_near|apply human_near]. Qed.
