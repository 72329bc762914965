(** [normalize_0_1] in binary64. *)
From Coq Require Import Reals ZArith Lra Lia List Bool.
From Flocq Require Import Core Relative.
From Verif Require Import M_Base M_RBase M_Float M_FloatProbit M_FloatNorm S_Float P_RBase P_Float P_FloatProbit.
Import ListNotations.
Local Open Scope R_scope.

Lemma rd_bpow e : (-1074 <= e)%Z -> rd b64 (bpow radix2 e) = bpow radix2 e.
Proof. intro H. rewrite <- (Rmult_1_l (bpow radix2 e)). apply (rd_scaled 1); lia. Qed.
(** half a unit in the last place is absorbed *)
Lemma rd_absorb e x : (-1000 <= e)%Z -> bpow radix2 e <= x <= bpow radix2 e + bpow radix2 (e - 53) -> rd b64 x = bpow radix2 e.
Proof.
  intros He [L U]. apply Rle_antisym; [|rewrite <- (rd_bpow e) at 1 by lia; now apply rdm]. eapply Rle_trans; [apply (rdm _ _ U)|]. apply Req_le. set (y := bpow radix2 e + bpow radix2 (e - 53)).
  assert (P := bpow_gt_0 radix2 e). assert (P2 := bpow_gt_0 radix2 (e - 53)). assert (LT : bpow radix2 (e - 53) < bpow radix2 e) by (apply bpow_lt; lia).
  assert (M : mag radix2 y = (e + 1)%Z :> Z). { apply mag_unique_pos. replace (e + 1 - 1)%Z with e by lia. rewrite bpow_S. unfold y. lra. }
  change (rd b64 y) with (round radix2 (FLT_exp (-1074) 53) ZnearestE y). unfold round, F2R, scaled_mantissa, cexp. cbn [Fnum Fexp]. rewrite M. replace (FLT_exp (-1074) 53 (e + 1)) with (e - 52)%Z by (unfold FLT_exp; lia).
  assert (S : y * bpow radix2 (- (e - 52)) = IZR (2 ^ 52) + / 2). { unfold y. rewrite Rmult_plus_distr_r, <- !bpow_plus. replace (e + - (e - 52))%Z with 52%Z by lia. replace (e - 53 + - (e - 52))%Z with (-1)%Z by lia. reflexivity. }
  rewrite S. assert (Z : ZnearestE (IZR (2 ^ 52) + / 2) = (2 ^ 52)%Z). { unfold Znearest. rewrite (Zfloor_imp (2 ^ 52)) by (rewrite plus_IZR; lra). rewrite Rcompare_Eq by lra. reflexivity. }
  rewrite Z. change (IZR (2 ^ 52)) with (bpow radix2 52). rewrite <- bpow_plus. f_equal. lia.
Qed.
Lemma rd_over_one x : x <= 1 + bpow radix2 (-53) -> rd b64 x <= 1.
Proof. intro H. eapply Rle_trans; [apply (rdm _ _ H)|]. apply Req_le. apply (rd_absorb 0); [lia|]. change (bpow radix2 0) with 1. change (0 - 53)%Z with (-53)%Z. assert (P := bpow_gt_0 radix2 (-53)). lra. Qed.
(** a number times its rounded inverse is at most 1 *)
Lemma inverse_one D : 0 < D <= bpow radix2 1000 -> rd b64 (D * rd b64 (1 / D)) <= 1.
Proof.
  intros [P U]. apply rd_over_one. assert (I : bpow radix2 (-1000) <= 1 / D). { unfold Rdiv. rewrite Rmult_1_l. replace (bpow radix2 (-1000)) with (/ bpow radix2 1000) by (rewrite <- bpow_opp; reflexivity). apply Rinv_le_contravar; lra. }
  assert (B0 := bpow_gt_0 radix2 (-1000)). assert (R := relative_error_N_FLT radix2 (-1074) 53 ltac:(lia) (fun x => negb (Z.even x)) (1 / D)). rewrite (Rabs_right (1 / D)) in R by lra. specialize (R ltac:(eapply Rle_trans; [apply bpow_le|exact I]; lia)).
  change (round radix2 (FLT_exp (-1074) 53) (Znearest (fun x => negb (Z.even x))) (1 / D)) with (rd b64 (1 / D)) in R. apply Rabs_le_inv in R. assert (E : D * (1 / D) = 1) by (field; lra). change (- (53) + 1)%Z with (-53 + 1)%Z in R. rewrite bpow_S in R. replace (/ 2 * (2 * bpow radix2 (-53))) with (bpow radix2 (-53)) in R by field.
  assert (Q : rd b64 (1 / D) <= 1 / D + bpow radix2 (-53) * (1 / D)) by lra. assert (K := Rmult_le_compat_l D _ _ (Rlt_le _ _ P) Q). rewrite Rmult_plus_distr_l, E in K. replace (D * (bpow radix2 (-53) * (1 / D))) with (bpow radix2 (-53) * (D * (1 / D))) in K by ring. rewrite E in K. lra.
Qed.
Lemma normalize_ok x eps : x <> [] -> (forall v, In v x -> Rabs v <= bpow radix2 900) -> bpow radix2 (-100) <= eps <= bpow radix2 900 ->
  exists f, normalize_fl b64 x eps = Ok (map (fun v => Fin (f v)) x) /\ (forall v, In v x -> 0 < f v <= 1) /\ (forall v w, In v x -> In w x -> v <= w -> f v <= f w).
Proof.
  intros NE Hx He. assert (HF := b64_rounding). destruct (np_max_ok x NE) as [mx [Emx [Imx Hmx]]]. destruct (np_min_ok x NE) as [mn [Emn [Imn Hmn]]]. unfold normalize_fl. rewrite Emx, Emn. cbn [bind].
  assert (B0 := bpow_gt_0 radix2 (-100)). assert (B9 := bpow_gt_0 radix2 900).
  assert (DIFF : forall v, In v x -> rnd b64 (v + - mn) = Fin (rd b64 (v - mn)) /\ 0 <= rd b64 (v - mn) <= IZR 2 * bpow radix2 900).
  { intros v Hv. assert (V := Hx v Hv). assert (N := Hx mn Imn). assert (O := Hmn v Hv). destruct (rnd_scaled (v + - mn) 2 900 ltac:(lia) ltac:(lia)) as [-> B]; [eapply Rle_trans; [apply Rabs_triang|]; rewrite Rabs_Ropp; lra|]. split; [reflexivity|]. change (v + - mn) with (v - mn) in B. assert (R := rdm 0 (v - mn) ltac:(lra)). rewrite (rd_0 b64 HF) in R. rewrite Rabs_right in B by lra. lra. }
  assert (E2 : rnd b64 (2 * eps) = Fin (rd b64 (2 * eps)) /\ eps <= rd b64 (2 * eps) <= IZR 2 * bpow radix2 900).
  { destruct (rnd_scaled (2 * eps) 2 900 ltac:(lia) ltac:(lia)) as [-> B]; [rewrite Rabs_right; lra|]. split; [reflexivity|]. assert (T : bpow radix2 (-1074) <= bpow radix2 (-100)) by (apply bpow_le; lia). assert (K := rd_half (2 * eps) ltac:(lra)). rewrite Rabs_right in B by lra. lra. }
  destruct E2 as [E2 E2b]. destruct (DIFF mx Imx) as [Emm Bmm]. set (R := rd b64 (mx - mn)) in *.
  set (D := rd b64 (R + rd b64 (2 * eps))). assert (EB : eps <= bpow radix2 900) by apply He.
  assert (ED : rnd b64 (R + rd b64 (2 * eps)) = Fin D /\ 0 < D <= bpow radix2 902).
  { destruct (rnd_scaled (R + rd b64 (2 * eps)) 4 900 ltac:(lia) ltac:(lia)) as [-> B]; [rewrite Rabs_right; lra|]. split; [reflexivity|]. fold D in B. assert (T := rdm (bpow radix2 (-100)) (R + rd b64 (2 * eps)) ltac:(lra)). rewrite rd_bpow in T by lia. fold D in T. rewrite Rabs_right in B by lra. split; [lra|]. change 902%Z with (2 + 900)%Z. rewrite bpow_plus. exact B. }
  destruct ED as [ED BD].
  set (S := rd b64 (1 / D)). assert (I : bpow radix2 (-902) <= 1 / D <= bpow radix2 100).
  { unfold Rdiv. rewrite Rmult_1_l. split; [replace (bpow radix2 (-902)) with (/ bpow radix2 902) by (rewrite <- bpow_opp; reflexivity)|replace (bpow radix2 100) with (/ bpow radix2 (-100)) by (rewrite <- bpow_opp; reflexivity)]; apply Rinv_le_contravar; try lra. unfold D. rewrite <- (rd_bpow (-100)) by lia. apply rdm. lra. }
  assert (P9 := bpow_gt_0 radix2 (-902)).
  assert (ES : slope_fl b64 mx mn eps = Fin S /\ bpow radix2 (-902) <= S <= bpow radix2 100).
  { unfold slope_fl, fsub. cbn [fneg fadd fmul]. rewrite Emm, E2. cbn [fadd]. rewrite ED. cbn [fdiv]. destruct (Req_EM_T D 0); [lra|]. destruct (rnd_scaled (1 / D) 1 100 ltac:(lia) ltac:(lia)) as [-> B]; [rewrite Rabs_right; lra|]. split; [reflexivity|]. fold S in B. assert (T := rdm _ _ (proj1 I)). rewrite rd_bpow in T by lia. fold S in T. rewrite Rabs_right in B by lra. lra. }
  destruct ES as [-> BS]. set (a := fun v => rd b64 (rd b64 (v - mn) + eps)).
  assert (A : forall v, In v x -> fadd b64 (fsub b64 (Fin v) (Fin mn)) (Fin eps) = Fin (a v) /\ bpow radix2 (-100) <= a v <= D).
  { intros v Hv. unfold fsub. cbn [fneg fadd]. destruct (DIFF v Hv) as [-> B]. cbn [fadd]. destruct (rnd_scaled (rd b64 (v - mn) + eps) 3 900 ltac:(lia) ltac:(lia)) as [-> _]; [rewrite Rabs_right; lra|]. split; [reflexivity|]. unfold a. split.
    - rewrite <- (rd_bpow (-100)) by lia. apply rdm. lra.
    - apply rdm. assert (O := Hmx v Hv). assert (T := rdm (v - mn) (mx - mn) ltac:(lra)). fold R in T. lra. }
  assert (F : forall v, In v x -> rnd b64 (a v * S) = Fin (rd b64 (a v * S)) /\ 0 < rd b64 (a v * S) <= 1).
  { intros v Hv. destruct (A v Hv) as [_ B]. assert (G : 0 < rd b64 (a v * S)). { apply b64_tiny. apply Rle_trans with (bpow radix2 (-100) * bpow radix2 (-902)); [rewrite <- bpow_plus; apply bpow_le; lia|]. apply Rmult_le_compat; lra. }
    assert (U : rd b64 (a v * S) <= 1). { eapply Rle_trans; [apply (rdm (a v * S) (D * S)); apply Rmult_le_compat_r; lra|]. apply inverse_one. split; [apply BD|]. eapply Rle_trans; [apply BD|apply bpow_le; lia]. }
    split; [|lra]. unfold rnd. assert (H1 : 1 < huge b64) by (assert (K := huge_big b64 HF); assert (1 <= IZR (2 ^ 53)) by (apply IZR_le; lia); lra). rewrite (proj2 (Rleb_false _ _)) by lra. rewrite (proj2 (Rleb_false _ _)) by lra. reflexivity. }
  exists (fun v => rd b64 (a v * S)). split; [|split].
  - f_equal. apply map_ext_in. intros v Hv. destruct (A v Hv) as [-> _]. cbn [fmul]. apply F, Hv.
  - intros v Hv. apply F, Hv.
  - intros v w Hv Hw L. apply rdm, Rmult_le_compat_r; [lra|]. unfold a. apply rdm. assert (T := rdm (v - mn) (w - mn) ltac:(lra)). lra.
Qed.
(** ---- what fails ---- *)
Lemma np_two a b : a <= b -> np_max [a; b] = Ok b /\ np_min [a; b] = Ok a.
Proof. intro H. unfold np_max, np_min. cbn. rewrite Rmax_right, Rmin_left by exact H. auto. Qed.
Lemma rnd_bpow e : (-1074 <= e <= 1000)%Z -> forall x, rd b64 x = bpow radix2 e -> 0 <= x -> x <= 2 * bpow radix2 e -> rnd b64 x = Fin (bpow radix2 e).
Proof.
  intros He x E P U. unfold rnd. rewrite E. assert (bpow radix2 e < huge b64) by (apply bpow_lt; lia). assert (G := bpow_gt_0 radix2 e). rewrite (proj2 (Rleb_false _ _)) by lra. rewrite (proj2 (Rleb_false _ _)) by lra. reflexivity.
Qed.
Lemma reaches_one eps : 0 < eps <= 1 -> exists o, normalize_fl b64 [0; bpow radix2 60] eps = Ok [o; Fin 1].
Proof.
  intro He. assert (HF := b64_rounding). assert (P := bpow_gt_0 radix2 60). unfold normalize_fl. destruct (np_two 0 (bpow radix2 60) ltac:(lra)) as [-> ->]. cbn [bind map].
  assert (B7 : bpow radix2 (60 - 53) = 128) by reflexivity. assert (B60 : 128 <= bpow radix2 60) by (change 128 with (bpow radix2 7); apply bpow_le; lia).
  assert (X : forall d, 0 <= d <= 128 -> rnd b64 (bpow radix2 60 + d) = Fin (bpow radix2 60)). { intros d Hd. apply rnd_bpow; [lia|apply rd_absorb; [lia|rewrite B7; lra]|lra|lra]. }
  assert (E2 : rnd b64 (2 * eps) = Fin (rd b64 (2 * eps)) /\ 0 <= rd b64 (2 * eps) <= 2) by (apply (rnd_between b64 HF (2 * eps) 0 2); try lia; lra). destruct E2 as [E2 E2b].
  assert (S : slope_fl b64 (bpow radix2 60) 0 eps = Fin (bpow radix2 (-60))). { unfold slope_fl, fsub. cbn [fneg fadd fmul]. rewrite Ropp_0, X, E2 by lra. cbn [fadd]. rewrite X by lra. cbn [fdiv]. destruct (Req_EM_T (bpow radix2 60) 0); [lra|]. replace (1 / bpow radix2 60) with (bpow radix2 (-60)) by (change (-60)%Z with (- (60))%Z; rewrite bpow_opp; unfold Rdiv; ring). assert (P6 := bpow_gt_0 radix2 (-60)). apply rnd_bpow; [lia|apply rd_bpow; lia|lra|lra]. }
  rewrite S. unfold fsub. cbn [fneg fadd]. rewrite Ropp_0, !Rplus_0_r. eexists. f_equal. f_equal. f_equal.
  assert (X0 : rnd b64 (bpow radix2 60) = Fin (bpow radix2 60)) by (rewrite <- (Rplus_0_r (bpow radix2 60)) at 1; apply X; lra). rewrite X0. cbn [fadd]. rewrite X by lra. cbn [fmul]. rewrite <- bpow_plus. change (60 + -60)%Z with 0%Z. change (bpow radix2 0) with 1. destruct (rnd_unit b64 HF 1 ltac:(lra)) as [-> _]. now rewrite (rd_1 b64 HF).
Qed.
Lemma merges : let eps := bpow radix2 (-13) in exists o o', normalize_fl b64 [0; bpow radix2 (-70); 1] eps = Ok [o; o; o'].
Proof.
  cbv zeta. assert (HF := b64_rounding). assert (P := bpow_gt_0 radix2 (-70)). assert (P3 := bpow_gt_0 radix2 (-13)). assert (L1 : bpow radix2 (-70) <= 1) by (change 1 with (bpow radix2 0); apply bpow_le; lia).
  unfold normalize_fl. assert (MX : np_max [0; bpow radix2 (-70); 1] = Ok 1) by (cbn; repeat (unfold Rmax; destruct Rle_dec; try lra); reflexivity). assert (MN : np_min [0; bpow radix2 (-70); 1] = Ok 0) by (cbn; repeat (unfold Rmin; destruct Rle_dec; try lra); reflexivity). rewrite MX, MN. cbn [bind map].
  assert (A : forall v, v = 0 \/ v = bpow radix2 (-70) -> fadd b64 (fsub b64 (Fin v) (Fin 0)) (Fin (bpow radix2 (-13))) = Fin (bpow radix2 (-13))).
  { intros v Hv. unfold fsub. cbn [fneg fadd]. rewrite Ropp_0, Rplus_0_r. assert (RV : rnd b64 v = Fin v). { destruct (rnd_unit b64 HF v ltac:(destruct Hv; subst; lra)) as [-> _]. f_equal. destruct Hv as [-> | ->]; [apply (rd_0 b64 HF)|apply rd_bpow; lia]. }
    rewrite RV. cbn [fadd]. assert (V : 0 <= v <= bpow radix2 (-13 - 53)) by (assert (bpow radix2 (-70) <= bpow radix2 (-13 - 53)) by (apply bpow_le; lia); assert (0 < bpow radix2 (-13 - 53)) by apply bpow_gt_0; destruct Hv; subst; lra). assert (bpow radix2 (-13 - 53) <= bpow radix2 (-13)) by (apply bpow_le; lia). apply rnd_bpow; [lia|apply rd_absorb; [lia|lra]|lra|lra]. }
  rewrite (A 0 (or_introl eq_refl)), (A _ (or_intror eq_refl)). eauto.
Qed.
Lemma overflows eps : 0 < eps <= 1 -> exists o, normalize_fl b64 [- bpow radix2 1023; bpow radix2 1023] eps = Ok [o; NaN].
Proof.
  intro He. assert (HF := b64_rounding). assert (P := bpow_gt_0 radix2 1023). unfold normalize_fl. destruct (np_two (- bpow radix2 1023) (bpow radix2 1023) ltac:(lra)) as [-> ->]. cbn [bind map].
  assert (E : fsub b64 (Fin (bpow radix2 1023)) (Fin (- bpow radix2 1023)) = PInf). { unfold fsub. cbn [fneg fadd]. rewrite Ropp_involutive. replace (bpow radix2 1023 + bpow radix2 1023) with (bpow radix2 1024) by (change 1024%Z with (1023 + 1)%Z; rewrite bpow_S; ring). unfold rnd. rewrite rd_bpow by lia. rewrite (proj2 (Rleb_true _ _)) by (apply Rle_refl). reflexivity. }
  assert (S : slope_fl b64 (bpow radix2 1023) (- bpow radix2 1023) eps = Fin 0). { unfold slope_fl. rewrite E. cbn [fmul]. destruct (rnd_between b64 HF (2 * eps) 0 2 ltac:(lia) ltac:(lia) ltac:(lra)) as [-> _]. reflexivity. }
  rewrite S, E. eexists. f_equal. f_equal. f_equal. cbn [fadd fmul]. apply inf_times_0.
Qed.
Lemma merges' : let eps := bpow radix2 (-13) in exists o o', 0 < bpow radix2 (-70) < 1 /\ normalize_fl b64 [0; bpow radix2 (-70); 1] eps = Ok [o; o; o'].
Proof. cbv zeta. destruct merges as [o [o' E]]. exists o, o'. split; [|exact E]. split; [apply bpow_gt_0|change 1 with (bpow radix2 0); apply bpow_lt; lia]. Qed.
