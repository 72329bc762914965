(** The comparison probit in binary64. *)
From Coquelicot Require Import Coquelicot.
From Coq Require Import Reals ZArith Lra Lia List Bool.
From Flocq Require Import Core.
From Verif Require Import M_Base M_RBase M_Normal M_PrefProbit M_Float M_FloatProbit S_Float P_RBase P_Normal P_Float.
Import ListNotations.
Local Open Scope R_scope.

Local Instance b64_valid : Valid_exp (FLT_exp (-1074) 53).
Proof. apply FLT_exp_valid. reflexivity. Qed.
Lemma rd_fmt x : generic_format radix2 (FLT_exp (-1074) 53) x -> rd b64 x = x.
Proof. intro H. apply round_generic; auto with typeclass_instances. Qed.
Lemma fmt_scaled k e : (Z.abs k <= 2 ^ 53)%Z -> (-1074 <= e)%Z -> generic_format radix2 (FLT_exp (-1074) 53) (IZR k * bpow radix2 e).
Proof.
  intros Hk He. apply generic_format_FLT. destruct (Z.eq_dec (Z.abs k) (2 ^ 53)) as [E|E].
  - assert (Z2 : k = (2 ^ 53)%Z \/ k = (- 2 ^ 53)%Z) by lia. assert (B : bpow radix2 (53 + e) = IZR (2 ^ 53) * bpow radix2 e) by (rewrite bpow_plus; reflexivity). destruct Z2 as [-> | ->].
    + apply (FLT_spec radix2 (-1074) 53 _ (Float radix2 1 (53 + e))); unfold F2R; cbn [Fnum Fexp]; [rewrite B; ring|cbn; lia|lia].
    + apply (FLT_spec radix2 (-1074) 53 _ (Float radix2 (-1) (53 + e))); unfold F2R; cbn [Fnum Fexp]; [rewrite B, opp_IZR; ring|cbn; lia|lia].
  - apply (FLT_spec radix2 (-1074) 53 _ (Float radix2 k e)); unfold F2R; cbn [Fnum Fexp]; [reflexivity|change (Z.pow_pos 2 53) with (2 ^ 53)%Z; cbn; lia|lia].
Qed.
Lemma rd_scaled k e : (Z.abs k <= 2 ^ 53)%Z -> (-1074 <= e)%Z -> rd b64 (IZR k * bpow radix2 e) = IZR k * bpow radix2 e.
Proof. intros. apply rd_fmt, fmt_scaled; auto. Qed.
Lemma rd_opp x : rd b64 (- x) = - rd b64 x.
Proof. apply round_NE_opp. Qed.
Lemma rdm x y : x <= y -> rd b64 x <= rd b64 y.
Proof. apply (rd_le b64 b64_rounding). Qed.
Lemma rnd_scaled x k e : (0 <= k <= 2 ^ 53)%Z -> (-1074 <= e <= 970)%Z -> Rabs x <= IZR k * bpow radix2 e ->
  rnd b64 x = Fin (rd b64 x) /\ Rabs (rd b64 x) <= IZR k * bpow radix2 e.
Proof.
  intros Hk He Hx. apply Rabs_le_between in Hx. assert (U := rdm _ _ (proj2 Hx)). assert (L := rdm _ _ (proj1 Hx)). rewrite rd_opp in L. rewrite rd_scaled in U, L by lia.
  assert (B : IZR k * bpow radix2 e < huge b64). { apply Rle_lt_trans with (IZR (2 ^ 53) * bpow radix2 e); [apply Rmult_le_compat_r; [apply bpow_ge_0|apply IZR_le; lia]|]. change (IZR (2 ^ 53)) with (bpow radix2 53). rewrite <- bpow_plus. apply bpow_lt. lia. }
  split; [|apply Rabs_le; lra]. unfold rnd. rewrite (proj2 (Rleb_false _ _)) by lra. rewrite (proj2 (Rleb_false _ _)) by lra. reflexivity.
Qed.
Lemma mag_bounds x : bpow radix2 (-1074) <= x -> exists e, (-1074 <= e)%Z /\ bpow radix2 e <= x < bpow radix2 (e + 1).
Proof.
  intro H. assert (P := bpow_gt_0 radix2 (-1074)). destruct (mag radix2 x) as [ex Hex]. specialize (Hex ltac:(lra)). rewrite Rabs_right in Hex by lra. exists (ex - 1)%Z. replace (ex - 1 + 1)%Z with ex by lia. split; [|exact Hex].
  assert (-1074 < ex)%Z by (apply (lt_bpow radix2); lra). lia.
Qed.
Lemma bpow_S e : bpow radix2 (e + 1) = 2 * bpow radix2 e.
Proof. rewrite bpow_plus. change (bpow radix2 1) with 2. ring. Qed.
Lemma rd_double x : bpow radix2 (-1074) <= x -> rd b64 x <= 2 * x.
Proof. intro H. destruct (mag_bounds x H) as [e [He [L U]]]. assert (R := rdm _ _ (Rlt_le _ _ U)). rewrite <- (Rmult_1_l (bpow radix2 (e + 1))), (rd_scaled 1) in R by lia. rewrite bpow_S in R. lra. Qed.
Lemma rd_half x : bpow radix2 (-1074) <= x -> x / 2 <= rd b64 x.
Proof. intro H. destruct (mag_bounds x H) as [e [He [L U]]]. assert (R := rdm _ _ L). rewrite <- (Rmult_1_l (bpow radix2 e)), (rd_scaled 1) in R by lia. rewrite bpow_S in U. lra. Qed.

(** ---- the density ---- *)
Lemma s2pi_two : 2 <= s2pi_fl b64.
Proof.
  unfold s2pi_fl. assert (HF := b64_rounding). assert (K := PI2_3_2). assert (P : 2 <= rd b64 PI). { assert (R := rdm 2 PI ltac:(lra)). rewrite (rd_int b64 HF 2) in R by lia. exact R. }
  assert (Q : 4 <= rd b64 (2 * rd b64 PI)). { assert (R := rdm 4 (2 * rd b64 PI) ltac:(lra)). rewrite (rd_int b64 HF 4) in R by lia. exact R. }
  assert (S : 2 <= sqrt (rd b64 (2 * rd b64 PI))). { replace 2 with (sqrt (2 * 2)) at 1 by (rewrite sqrt_square; lra). apply sqrt_le_1_alt. lra. }
  assert (R := rdm _ _ S). rewrite (rd_int b64 HF 2) in R by lia. exact R.
Qed.
(** the exponent is at most minus half of any whole number below the square *)
Lemma exponent_le z w : (0 <= w <= 2 ^ 53)%Z -> IZR w <= z * z ->
  fdiv b64 (fneg (fmul b64 (Fin z) (Fin z))) (Fin 2) = NInf \/ exists e, fdiv b64 (fneg (fmul b64 (Fin z) (Fin z))) (Fin 2) = Fin e /\ e <= - (IZR w / 2).
Proof.
  intros Hw L. assert (HF := b64_rounding). assert (P := huge_pos b64 HF). assert (R := rdm _ _ L). rewrite (rd_int b64 HF w) in R by lia. assert (W : 0 <= IZR w) by (apply (IZR_le 0); lia). cbn [fmul].
  unfold rnd. destruct (Rleb (huge b64) (rd b64 (z * z))) eqn:E1; [left; cbn; rewrite (proj2 (Rltb_false 2 0)) by lra; reflexivity|]. apply Rleb_false in E1. rewrite (proj2 (Rleb_false _ _)) by lra. cbn [fneg fdiv].
  destruct (Req_EM_T 2 0); [lra|]. assert (R2 := rdm (- rd b64 (z * z) / 2) (IZR (- w) * bpow radix2 (-1)) ltac:(rewrite opp_IZR; change (bpow radix2 (-1)) with (/ 2); lra)). rewrite rd_scaled in R2 by lia. rewrite opp_IZR in R2. change (bpow radix2 (-1)) with (/ 2) in R2.
  unfold rnd. rewrite (proj2 (Rleb_false (huge b64) _)) by lra. destruct (Rleb _ _) eqn:E2; [now left|right]. eexists. split; [reflexivity|]. lra.
Qed.
Lemma exp_neg1 e : e <= 0 -> exp e <= 1.
Proof. intro H. rewrite <- exp_0. destruct H as [H|H]; [apply Rlt_le, exp_increasing, H|rewrite H; lra]. Qed.
Lemma exp_le a b : a <= b -> exp a <= exp b.
Proof. intros [H|H]; [apply Rlt_le, exp_increasing, H|rewrite H; lra]. Qed.
Lemma pdf_le z w : (0 <= w <= 2 ^ 53)%Z -> IZR w <= z * z -> exists p, pdf_fl b64 (Fin z) = Fin p /\ 0 <= p <= 1 /\ p <= rd b64 (exp (- (IZR w / 2))).
Proof.
  intros Hw L. assert (HF := b64_rounding). assert (S := s2pi_two). assert (W : 0 <= IZR w) by (apply (IZR_le 0); lia). unfold pdf_fl.
  assert (G : exists E, fexp b64 (fdiv b64 (fneg (fmul b64 (Fin z) (Fin z))) (Fin 2)) = Fin E /\ 0 <= E <= 1 /\ rd b64 E = E /\ E <= rd b64 (exp (- (IZR w / 2)))).
  { destruct (exponent_le z w Hw L) as [-> |[e [-> Le]]].
    - exists 0. split; [reflexivity|]. split; [lra|]. split; [apply (rd_0 b64 HF)|]. rewrite <- (rd_0 b64 HF). apply rdm, Rlt_le, exp_pos.
    - cbn [fexp]. assert (E1 : 0 <= exp e <= 1) by (split; [apply Rlt_le, exp_pos|apply exp_neg1; lra]). destruct (rnd_unit b64 HF _ E1) as [-> B]. exists (rd b64 (exp e)). split; [reflexivity|]. split; [exact B|]. split; [apply HF|]. apply rdm, exp_le, Le. }
  destruct G as [E [-> [B [RE LE]]]]. cbn [fdiv]. destruct (Req_EM_T (s2pi_fl b64) 0); [lra|]. assert (D : 0 <= E / s2pi_fl b64 <= E). { split; [apply Rle_mult_inv_pos; lra|]. apply Rle_div_l; [lra|]. nra. }
  destruct (rnd_unit b64 HF (E / s2pi_fl b64) ltac:(lra)) as [-> B2]. eexists. split; [reflexivity|]. split; [exact B2|]. apply Rle_trans with E; [|exact LE]. rewrite <- RE at 2. apply rdm. lra.
Qed.
(** far away the density is 0 *)
Lemma pdf_far z : 47 <= Rabs z -> pdf_fl b64 (Fin z) = Fin 0.
Proof.
  intro H. assert (Q : IZR 2209 <= z * z). { rewrite <- (Rabs_right (z * z)) by nra. rewrite Rabs_mult. nra. } destruct (pdf_le z 2209 ltac:(lia) Q) as [p [-> [B L]]]. f_equal. assert (Z : rd b64 (exp (- (IZR 2209 / 2))) = 0); [|lra].
  apply b64_flushes. split; [apply Rlt_le, exp_pos|]. apply Rle_lt_trans with (exp (- INR (Z.to_nat 1104))); [apply exp_le; rewrite INR_IZR_INZ, Z2Nat.id by lia; lra|]. eapply Rle_lt_trans; [apply pow2_exp|]. rewrite <- bpow_neg. apply bpow_lt. rewrite Z2Nat.id; lia.
Qed.

(** ---- the distribution function ---- *)
Lemma npdf_incr a b : a <= b <= 0 -> npdf a <= npdf b.
Proof. intro H. unfold npdf. apply Rmult_le_compat_r; [apply Rlt_le, Rinv_0_lt_compat, s2pi_pos|]. apply exp_le. nra. Qed.
Lemma ndtr_low z d : 0 < d -> z <= 0 -> d * npdf (z - d) <= ndtr z.
Proof.
  intros Hd Hz. destruct (MVT_gen ndtr (z - d) z npdf) as [c [Hc E]].
  - intros x _. apply ndtr_derive.
  - intros x _. apply ndtr_continuous.
  - rewrite Rmin_left, Rmax_right in Hc by lra. assert (K := npdf_incr (z - d) c ltac:(lra)). assert (P := ndtr_range (z - d)). replace (z - (z - d)) with d in E by ring. nra.
Qed.
Lemma s2pi_three : sqrt (2 * PI) <= 3.
Proof. replace 3 with (sqrt (3 * 3)) by (rewrite sqrt_square; lra). apply sqrt_le_1_alt. assert (K := PI_4). lra. Qed.
Lemma ndtr_lower z : -30 <= z <= 0 -> exp (- (z * z) / 2 - 3 / 2) / 90 <= ndtr z.
Proof.
  intro H. eapply Rle_trans; [|apply (ndtr_low z (1 / 30)); lra]. unfold npdf. assert (S := s2pi_pos). assert (S3 := s2pi_three). assert (E : exp (- (z * z) / 2 - 3 / 2) <= exp (- (z - 1 / 30) ^ 2 / 2)) by (apply exp_le; nra).
  assert (P := exp_pos (- (z * z) / 2 - 3 / 2)). assert (I : / 3 <= / sqrt (2 * PI)) by (apply Rinv_le_contravar; lra). unfold Rdiv at 1 4. assert (J : exp (- (z * z) / 2 - 3 / 2) * / 3 <= exp (- (z - 1 / 30) ^ 2 / 2) * / sqrt (2 * PI)) by (apply Rmult_le_compat; lra). lra.
Qed.
Lemma ndtr_tiny z : -30 <= z -> bpow radix2 (-1074) <= ndtr z.
Proof.
  intro H. apply Rle_trans with (ndtr (-30)); [|now apply ndtr_le]. eapply Rle_trans; [|apply ndtr_lower; lra]. apply Rle_trans with (exp (- INR (Z.to_nat 452)) / 90); [|apply Rmult_le_compat_r; [lra|]; apply exp_le; rewrite INR_IZR_INZ, Z2Nat.id by lia; lra].
  assert (K := exp_pow4 (Z.to_nat 452)). rewrite <- bpow_neg in K. assert (B : bpow radix2 (-1074) <= bpow radix2 (-911)) by (apply bpow_le; lia). replace (bpow radix2 (-911)) with (bpow radix2 (- Z.of_nat (2 * Z.to_nat 452)) * / 128) in B. 2:{ replace (- Z.of_nat (2 * Z.to_nat 452))%Z with (-904)%Z by lia. change (-911)%Z with (-904 + -7)%Z. rewrite bpow_plus. f_equal. }
  assert (0 < bpow radix2 (- Z.of_nat (2 * Z.to_nat 452))) by apply bpow_gt_0. lra.
Qed.
Lemma cdf_ok z : exists c, cdf_fl b64 (Fin z) = Fin c /\ ndtr (rclip (-30) 100 z) / 2 <= c <= 1 /\ 0 < c /\ (0 <= z -> 1 / 2 <= c).
Proof.
  assert (HF := b64_rounding). assert (C := rclip_range (-30) 100 z ltac:(lra)). assert (N := ndtr_range (rclip (-30) 100 z)). unfold cdf_fl. cbn [fclip]. destruct (rnd_unit b64 HF (ndtr (rclip (-30) 100 z)) ltac:(lra)) as [-> B]. eexists. split; [reflexivity|].
  assert (T := ndtr_tiny _ (proj1 C)). assert (L := rd_half _ T). split; [lra|]. split; [lra|]. intro Hz. assert (M : 1 / 2 <= ndtr (rclip (-30) 100 z)). { rewrite <- ndtr_0. apply ndtr_le. rewrite <- (rclip_id (-30) 100 0) by lra. now apply rclip_le. }
  assert (R := rdm _ _ M). replace (1 / 2) with (IZR 1 * bpow radix2 (-1)) in R at 1 by (change (bpow radix2 (-1)) with (/ 2); lra). rewrite rd_scaled in R by lia. change (bpow radix2 (-1)) with (/ 2) in R. lra.
Qed.
(** ---- the ratio ---- *)
Lemma feq0_pos c : 0 < c -> feq0 (Fin c) = false.
Proof. intro H. cbn. destruct (Req_EM_T c 0); [lra|reflexivity]. Qed.
Lemma quot_bound z p c : pdf_fl b64 (Fin z) = Fin p -> cdf_fl b64 (Fin z) = Fin c -> 0 <= p / c <= 4096.
Proof.
  intros Ep Ec. assert (HF := b64_rounding). destruct (cdf_ok z) as [c' [Ec' [[L _] [P Hz]]]]. rewrite Ec in Ec'. injection Ec' as <-. destruct (Rle_lt_dec 0 z) as [Z|Z].
  - destruct (pdf_le z 0 ltac:(lia) ltac:(nra)) as [p' [Ep' [B _]]]. rewrite Ep in Ep'. injection Ep' as <-. specialize (Hz Z). split; [apply Rle_mult_inv_pos; lra|]. apply Rle_div_l; [lra|]. nra.
  - assert (G : exists a, exp (a - 3 / 2) / 90 <= ndtr (rclip (-30) 100 z) /\ p <= 2 * exp (a + 1 / 2) /\ 0 <= p).
    { destruct (Rle_lt_dec (-30) z) as [Z2|Z2].
      - exists (- (z * z) / 2). rewrite rclip_id by lra. split; [apply ndtr_lower; lra|]. set (w := Zfloor (z * z)). assert (F1 := Zfloor_lb (z * z)). assert (F2 := Zfloor_ub (z * z)). fold w in F1, F2. assert (W0 : (0 <= w)%Z) by (apply Zfloor_lub; nra). assert (W1 : (w <= 900)%Z) by (apply le_IZR; nra).
        destruct (pdf_le z w ltac:(lia) F1) as [p' [Ep' [B L2]]]. rewrite Ep in Ep'. injection Ep' as <-. split; [|lra]. eapply Rle_trans; [exact L2|]. eapply Rle_trans; [apply rd_double|apply Rmult_le_compat_l; [lra|]; apply exp_le; lra].
        apply Rle_trans with (exp (- INR (Z.to_nat 450))); [|apply exp_le; rewrite INR_IZR_INZ, Z2Nat.id by lia; apply IZR_le in W1; lra]. eapply Rle_trans; [|apply exp_pow4]. rewrite <- bpow_neg. apply bpow_le. lia.
      - exists (-450). rewrite rclip_low by lra. split; [replace (-450) with (- (-30 * -30) / 2) by lra; apply ndtr_lower; lra|]. destruct (pdf_le z 900 ltac:(lia) ltac:(nra)) as [p' [Ep' [B L2]]]. rewrite Ep in Ep'. injection Ep' as <-. split; [|lra].
        eapply Rle_trans; [exact L2|]. eapply Rle_trans; [apply rd_double|apply Rmult_le_compat_l; [lra|]; apply exp_le; lra]. apply Rle_trans with (exp (- INR (Z.to_nat 450))); [|apply exp_le; rewrite INR_IZR_INZ, Z2Nat.id by lia; lra]. eapply Rle_trans; [|apply exp_pow4]. rewrite <- bpow_neg. apply bpow_le. lia. }
    destruct G as [a [G1 [G2 G3]]]. split; [apply Rle_mult_inv_pos; lra|]. apply Rle_div_l; [lra|]. assert (E3 := exp_le_3). assert (E1 : 0 < exp 1) by apply exp_pos. replace (a + 1 / 2) with ((a - 3 / 2) + (1 + 1)) in G2 by lra. rewrite exp_plus, (exp_plus 1 1) in G2. assert (0 < exp (a - 3 / 2)) by apply exp_pos. assert (exp 1 * exp 1 <= 9) by nra. nra.
Qed.
Lemma ratio_ok z : exists r r2, ratio_fl b64 (Fin z) = (Fin r, Fin r2) /\ 0 <= r <= 4096 /\ 0 <= r2 <= 16777216 /\ (47 <= Rabs z -> r = 0 /\ r2 = 0).
Proof.
  assert (HF := b64_rounding). destruct (pdf_le z 0 ltac:(lia) ltac:(nra)) as [p [Ep _]]. destruct (cdf_ok z) as [c [Ec [_ [P _]]]]. assert (Q := quot_bound z p c Ep Ec). unfold ratio_fl. rewrite Ec, feq0_pos by exact P. rewrite Ep. cbn [fdiv]. destruct (Req_EM_T c 0); [lra|].
  destruct (rnd_between b64 HF (p / c) 0 4096 ltac:(lia) ltac:(lia) Q) as [-> B]. cbn [fisinf fmul]. set (r := rd b64 (p / c)) in *. destruct (rnd_between b64 HF (r * r) 0 16777216 ltac:(lia) ltac:(lia) ltac:(nra)) as [-> B2]. do 2 eexists. split; [reflexivity|]. split; [exact B|]. split; [exact B2|].
  intro F. rewrite (pdf_far z F) in Ep. injection Ep as <-. assert (r = 0) as -> by (unfold r; replace (0 / c) with 0 by (field; lra); apply (rd_0 b64 HF)). split; [reflexivity|]. rewrite Rmult_0_l. apply (rd_0 b64 HF).
Qed.
Lemma paren_ok z : exists x, paren_fl b64 (Fin z) = Fin x /\ Rabs x <= IZR 33554432 /\ (47 <= Rabs z -> x = 0).
Proof.
  assert (HF := b64_rounding). destruct (ratio_ok z) as [r [r2 [E [B [B2 F]]]]]. unfold paren_fl. rewrite E. cbn [fisinf]. rewrite andb_false_r. cbn [fmul]. assert (A : Rabs (z * r) <= IZR 262144). { destruct (Rle_lt_dec 47 (Rabs z)) as [Z|Z]; [destruct (F Z) as [-> _]; rewrite Rmult_0_r, Rabs_R0; lra|]. rewrite Rabs_mult, (Rabs_right r) by lra. assert (0 <= Rabs z) by apply Rabs_pos. nra. }
  apply Rabs_le_between in A. destruct (rnd_between b64 HF (z * r) (-262144) 262144 ltac:(lia) ltac:(lia) ltac:(lra)) as [-> C]. cbn [fadd]. set (t := rd b64 (z * r)) in *. destruct (rnd_between b64 HF (t + r2) (-33554432) 33554432 ltac:(lia) ltac:(lia) ltac:(lra)) as [-> D]. eexists. split; [reflexivity|]. split; [apply Rabs_le; lra|].
  intro Z. destruct (F Z) as [-> ->]. subst t. rewrite Rmult_0_r, (rd_0 b64 HF), Rplus_0_r. apply (rd_0 b64 HF).
Qed.
