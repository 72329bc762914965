(** Ordinal labels in binary64. *)
From Coquelicot Require Import Coquelicot.
From Coq Require Import Reals ZArith Lra Lia List Bool Permutation.
From Flocq Require Import Core.
From Verif Require Import M_Base M_RBase M_Normal M_Hyper M_OrdProbit M_Float M_FloatProbit M_FloatOrd S_Float S_FloatProbit S_FloatOrd P_RBase P_Normal P_Float P_FloatProbit P_FloatProbit2 P_FloatNorm.
Import ListNotations.
Local Open Scope R_scope.

(** ---- products ---- *)
Lemma mult_upper l a : multiplies b64 l a -> (forall v, In v l -> exists x, v = Fin x /\ 0 <= x <= 1 / 2) ->
  exists x, a = Fin x /\ 0 <= x <= bpow radix2 (- Z.of_nat (length l)) /\ ((1076 <= Z.of_nat (length l))%Z -> x = 0).
Proof.
  induction 1 as [x|l1 l2 l a b A1 IH1 A2 IH2 P]; intros HV.
  - destruct (HV x ltac:(now left)) as [v [-> B]]. exists v. split; [reflexivity|]. split; [|cbn; lia]. cbn [length]. change (bpow radix2 (- Z.of_nat 1)) with (/ 2). lra.
  - assert (E : length l = (length l1 + length l2)%nat) by (rewrite (Permutation_length P), app_length; reflexivity).
    destruct IH1 as [v1 [-> [B1 _]]]; [intros v Hv; apply HV; apply (Permutation_in _ (Permutation_sym P)), in_or_app; now left|]. destruct IH2 as [v2 [-> [B2 _]]]; [intros v Hv; apply HV; apply (Permutation_in _ (Permutation_sym P)), in_or_app; now right|].
    cbn [fmul]. assert (U : 0 <= v1 * v2 <= bpow radix2 (- Z.of_nat (length l))). { split; [nra|]. rewrite E, Nat2Z.inj_add, Z.opp_add_distr, bpow_plus. apply Rmult_le_compat; lra. }
    assert (O : bpow radix2 (- Z.of_nat (length l)) <= 1) by (change 1 with (bpow radix2 0); apply bpow_le; lia).
    destruct (rnd_unit b64 b64_rounding (v1 * v2) ltac:(lra)) as [-> B]. eexists. split; [reflexivity|]. destruct (Z_lt_le_dec (Z.of_nat (length l)) 1076) as [S|S].
    + split; [|lia]. split; [apply B|]. destruct (Z_lt_le_dec (Z.of_nat (length l)) 1075) as [S'|S'].
      * eapply Rle_trans; [apply rdm, U|]. rewrite rd_bpow by lia. apply Rle_refl.
      * assert (Q : (- Z.of_nat (length l))%Z = (-1075)%Z) by lia. rewrite Q in *. destruct (proj2 U) as [S2|S2].
        -- rewrite b64_flushes by lra. apply bpow_ge_0.
        -- rewrite S2. assert (R : rd b64 (bpow radix2 (-1075)) = 0); [|rewrite R; apply bpow_ge_0].
           change (round radix2 (FLT_exp (-1074) 53) ZnearestE (bpow radix2 (-1075)) = 0). unfold round, F2R, scaled_mantissa, cexp. cbn [Fnum Fexp]. rewrite mag_bpow. replace (FLT_exp (-1074) 53 (-1075 + 1)) with (-1074)%Z by reflexivity. rewrite <- bpow_plus. change (-1075 + - (-1074))%Z with (-1)%Z. change (bpow radix2 (-1)) with (/ 2).
           assert (Z : ZnearestE (/ 2) = 0%Z). { unfold Znearest. rewrite (Zfloor_imp 0) by (cbn; lra). rewrite Rcompare_Eq by (cbn; lra). reflexivity. } rewrite Z. cbn. ring.
    + assert (Z : rd b64 (v1 * v2) = 0). { apply b64_flushes. split; [lra|]. eapply Rle_lt_trans; [apply U|]. apply bpow_lt. lia. } rewrite Z. split; [split; [lra|apply bpow_ge_0]|auto].
Qed.
Lemma mult_lower k l a : (0 <= k)%Z -> multiplies b64 l a -> (k * Z.of_nat (length l) <= 1074)%Z -> (forall v, In v l -> exists x, v = Fin x /\ bpow radix2 (- k) <= x <= 1) ->
  exists x, a = Fin x /\ bpow radix2 (- (k * Z.of_nat (length l))) <= x <= 1.
Proof.
  intros Hk. induction 1 as [x|l1 l2 l a b A1 IH1 A2 IH2 P]; intros HL HV.
  - destruct (HV x ltac:(now left)) as [v [-> B]]. exists v. split; [reflexivity|]. cbn [length]. now rewrite Z.mul_1_r.
  - assert (E : length l = (length l1 + length l2)%nat) by (rewrite (Permutation_length P), app_length; reflexivity). rewrite E in *.
    destruct IH1 as [v1 [-> B1]]; [nia|intros v Hv; apply HV; apply (Permutation_in _ (Permutation_sym P)), in_or_app; now left|]. destruct IH2 as [v2 [-> B2]]; [nia|intros v Hv; apply HV; apply (Permutation_in _ (Permutation_sym P)), in_or_app; now right|].
    cbn [fmul]. assert (P1 := bpow_gt_0 radix2 (- (k * Z.of_nat (length l1)))). assert (P2 := bpow_gt_0 radix2 (- (k * Z.of_nat (length l2)))).
    assert (U : bpow radix2 (- (k * Z.of_nat (length l1 + length l2))) <= v1 * v2 <= 1). { split; [|nra]. replace (- (k * Z.of_nat (length l1 + length l2)))%Z with (- (k * Z.of_nat (length l1)) + - (k * Z.of_nat (length l2)))%Z by nia. rewrite bpow_plus. apply Rmult_le_compat; lra. }
    assert (P3 := bpow_gt_0 radix2 (- (k * Z.of_nat (length l1 + length l2)))). destruct (rnd_unit b64 b64_rounding (v1 * v2) ltac:(lra)) as [-> B]. eexists. split; [reflexivity|]. split; [|apply B]. rewrite <- rd_bpow by nia. apply rdm, U.
Qed.
Lemma mult_zero l a : multiplies b64 l a -> (forall v, In v l -> small 0 1 v) -> small 0 1 a /\ (In (Fin 0) l -> a = Fin 0).
Proof.
  induction 1 as [x|l1 l2 l a b A1 IH1 A2 IH2 P]; intros HV.
  - split; [apply HV; now left|]. intros [E|[]]. exact E.
  - destruct IH1 as [S1 Z1]; [intros v Hv; apply HV; apply (Permutation_in _ (Permutation_sym P)), in_or_app; now left|]. destruct IH2 as [S2 Z2]; [intros v Hv; apply HV; apply (Permutation_in _ (Permutation_sym P)), in_or_app; now right|].
    split; [apply (small_mul 0 1 0 1); auto; lia|]. intro I. apply (Permutation_in _ P), in_app_or in I. destruct I as [I|I].
    + rewrite (Z1 I). destruct S2 as [x [-> _]]. cbn [fmul]. rewrite Rmult_0_l. destruct (rnd_unit b64 b64_rounding 0 ltac:(lra)) as [-> _]. now rewrite (rd_0 b64 b64_rounding).
    + rewrite (Z2 I). destruct S1 as [x [-> _]]. cbn [fmul]. rewrite Rmult_0_r. destruct (rnd_unit b64 b64_rounding 0 ltac:(lra)) as [-> _]. now rewrite (rd_0 b64 b64_rounding).
Qed.
(** ---- logarithms ---- *)
Lemma fln_0 : fln b64 (Fin 0) = NInf.
Proof. cbn [fln]. rewrite (proj2 (Rltb_false 0 0)) by lra. destruct (Req_EM_T 0 0); [reflexivity|lra]. Qed.
Lemma ln_bpow_low n : (0 <= n)%Z -> - IZR n <= ln (bpow radix2 (- n)).
Proof.
  intro H. rewrite <- (ln_exp (- IZR n)). apply Rcomplements.ln_le; [apply exp_pos|]. assert (K := pow2_exp (Z.to_nat n)). rewrite INR_IZR_INZ, Z2Nat.id in K by lia. rewrite <- bpow_neg, Z2Nat.id in K by lia. exact K.
Qed.
Lemma fln_ok n x : (0 <= n <= 1074)%Z -> bpow radix2 (- n) <= x <= 1 -> exists v, fln b64 (Fin x) = Fin v /\ - IZR n <= v <= 0.
Proof.
  intros Hn [L U]. assert (P := bpow_gt_0 radix2 (- n)). cbn [fln]. rewrite (proj2 (Rltb_false x 0)) by lra. destruct (Req_EM_T x 0); [lra|].
  assert (B : - IZR n <= ln x <= 0). { split; [eapply Rle_trans; [apply ln_bpow_low; lia|apply Rcomplements.ln_le; lra]|rewrite <- ln_1; apply Rcomplements.ln_le; lra]. }
  destruct (rnd_between b64 b64_rounding (ln x) (- n) 0 ltac:(lia) ltac:(lia)) as [-> B2]; [rewrite opp_IZR; lra|]. eexists. split; [reflexivity|]. rewrite opp_IZR in B2. exact B2.
Qed.
(** ---- parts of the probit ---- *)
Section probit.
Variables (o : ord_probit) (f : nat -> R).
Hypothesis H : ordinary o f.
Lemma isigma_ok : exists k, isigma_fl b64 o = Fin k /\ k = rd b64 (1 / o_sigma o) /\ 0 < k <= bpow radix2 100.
Proof.
  destruct H as (_ & [L U] & _ & _). unfold isigma_fl. cbn [fdiv]. assert (P := bpow_gt_0 radix2 (-100)). destruct (Req_EM_T (o_sigma o) 0); [lra|].
  assert (I : bpow radix2 (-100) <= 1 / o_sigma o <= bpow radix2 100). { unfold Rdiv. rewrite Rmult_1_l. replace (bpow radix2 (-100)) with (/ bpow radix2 100) by (rewrite <- bpow_opp; reflexivity). replace (bpow radix2 100) with (/ bpow radix2 (-100)) at 2 by (rewrite <- bpow_opp; reflexivity). split; apply Rinv_le_contravar; lra. }
  destruct (rnd_scaled (1 / o_sigma o) 1 100 ltac:(lia) ltac:(lia)) as [-> B]; [rewrite Rabs_right; lra|]. eexists. split; [reflexivity|]. split; [reflexivity|]. split; [apply b64_tiny; eapply Rle_trans; [apply bpow_le|apply I]; lia|]. apply Rabs_le_inv in B. lra.
Qed.
Lemma isigma_small : small 100 1 (isigma_fl b64 o).
Proof. destruct isigma_ok as (k & -> & _ & B). exists k. split; [reflexivity|]. rewrite Rabs_right; lra. Qed.
Lemma ivar_small : small 200 1 (ivar_fl b64 o).
Proof. apply (small_mul 100 1 100 1); try lia; apply isigma_small. Qed.
Lemma oz_small k i : small 200 2 (oz_fl b64 o k (f i)).
Proof.
  apply (small_mul 100 1 100 2); try lia; [apply isigma_small|]. destruct H as (_ & _ & B & Fi). apply (small_add 100 1 1); try lia; [exists (breakpoint o k); split; [reflexivity|rewrite Rmult_1_l; apply B]|].
  apply small_neg. exists (f i). split; [reflexivity|]. rewrite Rmult_1_l. apply Fi.
Qed.
Lemma ncdf_ok k i : (k <= o_n o)%nat -> exists c, norm_cdf_fl b64 o k (f i) = Ok (Fin c) /\ 0 <= c <= 1 /\ ((1 <= k)%nat -> 0 < c).
Proof.
  intro Hk. unfold norm_cdf_fl. destruct (Nat.eqb_spec k (o_n o)); [exists 1; repeat split; lra|]. destruct (Nat.eqb_spec k 0); [exists 0; repeat split; try lra; lia|].
  destruct (Nat.ltb_spec (o_n o) k); [lia|]. destruct (oz_small k i) as [z [-> _]]. destruct (cdf_ok z) as (c & -> & B & P & _). exists c. repeat split; lra.
Qed.
Lemma npdf_ok k i : small 0 1 (norm_pdf_fl b64 o k (f i)).
Proof.
  unfold norm_pdf_fl. destruct (_ || _); [exists 0; split; [reflexivity|rewrite Rabs_R0, Rmult_1_l; apply bpow_ge_0]|]. destruct (oz_small k i) as [z [-> _]]. destruct (pdf_le z 0 ltac:(lia) ltac:(nra)) as (p & -> & B & _). exists p. split; [reflexivity|]. rewrite Rabs_right by lra. change (bpow radix2 0) with 1. lra.
Qed.
Lemma like_small y : (1 <= fst y <= o_n o)%nat -> exists l, like_one_fl b64 o f y = Ok l /\ small 0 1 l.
Proof.
  intro Hk. destruct (ncdf_ok (fst y) (snd y) ltac:(lia)) as (a & Ea & Ba & _). destruct (ncdf_ok (fst y - 1) (snd y) ltac:(lia)) as (b & Eb & Bb & _). unfold like_one_fl. rewrite Ea, Eb. cbn [bind]. eexists. split; [reflexivity|].
  unfold fsub. cbn [fneg fadd]. destruct (rnd_scaled (a + - b) 1 0 ltac:(lia) ltac:(lia)) as [-> B]; [|eexists; split; [reflexivity|exact B]]. change (bpow radix2 0) with 1. apply Rabs_le. lra.
Qed.
Lemma each_small y : labelled o y -> exists l, like_each_fl b64 o y f = Ok l /\ Forall2 (fun p v => like_one_fl b64 o f p = Ok v /\ small 0 1 v) y l.
Proof.
  intro L. unfold like_each_fl. assert (E : existsb (fun ku => Nat.eqb (fst ku) 0) y = false). { apply not_true_is_false. intro X. apply existsb_exists in X. destruct X as [[k u] [I X]]. cbn in X. apply Nat.eqb_eq in X. specialize (L k u I). lia. }
  rewrite E. clear E. induction y as [|[k u] y IH]; [exists []; split; [reflexivity|constructor]|]. destruct (like_small (k, u) (L k u ltac:(now left))) as (v & Ev & Sv). destruct IH as (l & El & Fl); [intros k' u' I; apply (L k' u'); now right|].
  exists (v :: l). cbn [mapM]. rewrite Ev, El. cbn [bind]. split; [reflexivity|]. constructor; auto.
Qed.
(** the label of the lowest category has a positive likelihood *)
Lemma bottom_like i : exists x, like_one_fl b64 o f (1%nat, i) = Ok (Fin x) /\ bpow radix2 (-1074) <= x <= 1.
Proof.
  destruct H as (N & _). unfold like_one_fl. cbn [fst snd]. unfold norm_cdf_fl. destruct (Nat.eqb_spec 1 (o_n o)); [lia|]. destruct (Nat.eqb_spec (1 - 1) (o_n o)); [lia|]. cbn [Nat.eqb Nat.sub]. destruct (Nat.ltb_spec (o_n o) 1); [lia|].
  destruct (oz_small 1 i) as [z [-> _]]. cbn [bind]. assert (C := rclip_range (-30) 100 z ltac:(lra)). assert (N' := ndtr_range (rclip (-30) 100 z)). unfold cdf_fl. cbn [fclip]. destruct (rnd_unit b64 b64_rounding (ndtr (rclip (-30) 100 z)) ltac:(lra)) as [-> B].
  assert (T := ndtr_tiny _ (proj1 C)). assert (R := rdm _ _ T). rewrite rd_bpow in R by lia. unfold fsub. cbn [fneg fadd]. replace (rd b64 (ndtr (rclip (-30) 100 z)) + - 0) with (rd b64 (ndtr (rclip (-30) 100 z))) by lra. destruct (rnd_unit b64 b64_rounding (rd b64 (ndtr (rclip (-30) 100 z))) B) as [-> B2]. eexists. split; [reflexivity|]. split; [|apply B2].
  rewrite (proj1 (proj2 b64_rounding)). exact R.
Qed.
End probit.
(** ---- the label of the highest category ---- *)
Lemma rd_near_one x : 1 - bpow radix2 (-55) <= x <= 1 -> rd b64 x = 1.
Proof.
  intros [L U]. apply Rle_antisym; [rewrite <- (rd_1 b64 b64_rounding); now apply rdm|]. set (y := 1 - bpow radix2 (-55)) in *. apply Rle_trans with (rd b64 y); [|now apply rdm]. apply Req_le. symmetry. assert (P := bpow_gt_0 radix2 (-55)). assert (Q : bpow radix2 (-55) <= / 2) by (change (/ 2) with (bpow radix2 (-1)); apply bpow_le; lia).
  assert (M : mag radix2 y = 0%Z :> Z). { apply mag_unique_pos. change (bpow radix2 (0 - 1)) with (/ 2). change (bpow radix2 0) with 1. unfold y. lra. }
  change (rd b64 y) with (round radix2 (FLT_exp (-1074) 53) ZnearestE y). unfold round, F2R, scaled_mantissa, cexp. cbn [Fnum Fexp]. rewrite M. replace (FLT_exp (-1074) 53 0) with (-53)%Z by reflexivity.
  assert (S : y * bpow radix2 (- (-53)) = IZR (2 ^ 53) - / 4). { unfold y. rewrite Rmult_minus_distr_r, <- bpow_plus. change (-55 + - (-53))%Z with (-2)%Z. rewrite Rmult_1_l. reflexivity. }
  rewrite S. assert (Z : ZnearestE (IZR (2 ^ 53) - / 4) = (2 ^ 53)%Z). { apply Znearest_imp. rewrite Rabs_left; lra. }
  rewrite Z. change (IZR (2 ^ 53)) with (bpow radix2 53). rewrite <- bpow_plus. reflexivity.
Qed.
Lemma cdf_top z : 12 <= z -> cdf_fl b64 (Fin z) = Fin 1.
Proof.
  intro Hz. unfold cdf_fl. cbn [fclip]. set (c := rclip (-30) 100 z). assert (C : 12 <= c) by (unfold c; rewrite <- (rclip_id (-30) 100 12) by lra; now apply rclip_le). assert (N := ndtr_range c). assert (T := ndtr_tail c ltac:(lra)).
  assert (E : exp (- c ^ 2 / 2) <= bpow radix2 (-55)). { apply Rle_trans with (exp (- INR (Z.to_nat 72))); [apply exp_le; rewrite INR_IZR_INZ, Z2Nat.id by lia; nra|]. eapply Rle_trans; [apply pow2_exp|]. rewrite <- bpow_neg. apply bpow_le. lia. }
  assert (P := exp_pos (- c ^ 2 / 2)). destruct (rnd_unit b64 b64_rounding (ndtr c) ltac:(lra)) as [-> _]. f_equal. apply rd_near_one. lra.
Qed.
Lemma oz_large o f k i : ordinary o f -> 96 * o_sigma o <= breakpoint o k - f i -> exists z, oz_fl b64 o k (f i) = Fin z /\ 12 <= z.
Proof.
  intros Hh L. destruct (isigma_ok o f Hh) as (s & Es & Vs & Bs). destruct Hh as (_ & [Ls Us] & B & Fi). unfold oz_fl. rewrite Es. unfold fsub. cbn [fneg fadd]. assert (P := bpow_gt_0 radix2 (-100)).
  assert (D : Rabs (breakpoint o k + - f i) <= IZR 2 * bpow radix2 100) by (eapply Rle_trans; [apply Rabs_triang|]; rewrite Rabs_Ropp; specialize (B k); specialize (Fi i); lra).
  destruct (rnd_scaled _ 2 100 ltac:(lia) ltac:(lia) D) as [-> D2]. cbn [fmul]. set (d := rd b64 (breakpoint o k + - f i)) in *.
  assert (Q : bpow radix2 (-1074) <= bpow radix2 (-100)) by (apply bpow_le; lia). assert (G : 48 * o_sigma o <= d). { eapply Rle_trans; [|apply rd_half]; lra. }
  assert (I : bpow radix2 (-100) <= 1 / o_sigma o). { unfold Rdiv. rewrite Rmult_1_l. replace (bpow radix2 (-100)) with (/ bpow radix2 100) by (rewrite <- bpow_opp; reflexivity). apply Rinv_le_contravar; lra. }
  assert (K : 1 / o_sigma o / 2 <= s) by (rewrite Vs; apply rd_half; lra). assert (X : 24 <= s * d). { apply Rle_trans with ((1 / o_sigma o / 2) * (48 * o_sigma o)); [right; field; lra|]. apply Rmult_le_compat; try lra. }
  assert (Y : Rabs (s * d) <= IZR 2 * bpow radix2 200). { rewrite Rabs_mult. replace 200%Z with (100 + 100)%Z by lia. rewrite bpow_plus. replace (IZR 2 * (bpow radix2 100 * bpow radix2 100)) with (bpow radix2 100 * (IZR 2 * bpow radix2 100)) by ring. apply Rmult_le_compat; try apply Rabs_pos; [rewrite Rabs_right; lra|exact D2]. }
  destruct (rnd_scaled _ 2 200 ltac:(lia) ltac:(lia) Y) as [-> _]. eexists. split; [reflexivity|]. assert (W : bpow radix2 (-1074) <= 1) by (change 1 with (bpow radix2 0); apply bpow_le; lia). apply Rle_trans with (s * d / 2); [lra|]. apply rd_half. lra.
Qed.
Lemma top_like o f i : ordinary o f -> 96 * o_sigma o <= breakpoint o (o_n o - 1) - f i -> like_one_fl b64 o f (o_n o, i) = Ok (Fin 0).
Proof.
  intros Hh L. assert (N := proj1 Hh). unfold like_one_fl. cbn [fst snd]. unfold norm_cdf_fl. rewrite Nat.eqb_refl. destruct (Nat.eqb_spec (o_n o - 1) (o_n o)); [lia|]. destruct (Nat.eqb_spec (o_n o - 1) 0); [lia|]. destruct (Nat.ltb_spec (o_n o) (o_n o - 1)); [lia|].
  destruct (oz_large o f _ i Hh L) as (z & -> & Z). rewrite (cdf_top z Z). cbn [bind]. unfold fsub. cbn [fneg fadd]. replace (1 + - (1)) with 0 by lra. destruct (rnd_unit b64 b64_rounding 0 ltac:(lra)) as [-> _]. now rewrite (rd_0 b64 b64_rounding).
Qed.
(** ---- what users see ---- *)
Lemma top_loglik pr o f y i : products b64 pr -> ordinary o f -> labelled o y -> In (o_n o, i) y -> 96 * o_sigma o <= breakpoint o (o_n o - 1) - f i -> ord_loglik_fl b64 pr o y f = Ok NInf.
Proof.
  intros PR Hh L I G. destruct (each_small o f Hh y L) as (l & E & F2). unfold ord_loglik_fl. rewrite E. cbn [bind]. assert (Z : In (Fin 0) l).
  { clear E L. induction F2 as [|p v y l [Ev _] F2 IH]; [destruct I|]. destruct I as [->|I]; [left|right; auto]. rewrite (top_like o f i Hh G) in Ev. now injection Ev. }
  assert (S : forall v, In v l -> small 0 1 v). { intros v Iv. clear E Z L I. induction F2 as [|p w y l [_ Sw] F2 IH]; [destruct Iv|]. destruct Iv as [<-|Iv]; auto. }
  destruct (mult_zero l (pr l) (PR l ltac:(intro; subst l; destruct Z)) S) as [_ M]. rewrite (M Z), fln_0. reflexivity.
Qed.
Lemma bottom_loglik pr o f i : products b64 pr -> ordinary o f -> exists x, ord_loglik_fl b64 pr o [(1%nat, i)] f = Ok (Fin x) /\ -1074 <= x <= 0.
Proof.
  intros PR Hh. destruct (bottom_like o f Hh i) as (x & E & B). unfold ord_loglik_fl, like_each_fl. cbn [existsb fst Nat.eqb orb mapM]. rewrite E. cbn [bind]. assert (M := PR [Fin x] ltac:(discriminate)).
  destruct (mult_lower 1074 [Fin x] (pr [Fin x]) ltac:(lia) M ltac:(cbn; lia)) as (p & -> & Bp); [intros v [<-|[]]; exists x; split; [reflexivity|exact B]|]. destruct (fln_ok 1074 p ltac:(lia)) as (v & -> & Bv); [exact Bp|]. exists v. split; [reflexivity|]. lra.
Qed.
Lemma many_loglik pr o f y l : products b64 pr -> like_each_fl b64 o y f = Ok l -> (1076 <= Z.of_nat (length y))%Z -> (forall v, In v l -> exists x, v = Fin x /\ 0 <= x <= 1 / 2) -> ord_loglik_fl b64 pr o y f = Ok NInf.
Proof.
  intros PR E Ly B. unfold ord_loglik_fl. rewrite E. cbn [bind]. assert (Le : length l = length y). { unfold like_each_fl in E. destruct (existsb _ y); [discriminate|]. revert l E B. clear Ly. induction y as [|p y IH]; intros l E B; cbn [mapM] in E; [now injection E as <-|]. destruct (like_one_fl b64 o f p) as [v|]; [|discriminate]. destruct (mapM _ y) as [l'|]; [|discriminate]. cbn in E. injection E as <-. cbn. f_equal. apply IH; [reflexivity|]. intros w I. apply B. now right. }
  assert (NE : l <> []) by (intro X; subst l; cbn in Le; lia). destruct (mult_upper l (pr l) (PR l NE) B) as (x & -> & _ & Z). rewrite Z by lia. now rewrite fln_0.
Qed.
Lemma few_loglik pr o f y l k : products b64 pr -> like_each_fl b64 o y f = Ok l -> l <> [] -> (0 <= k)%Z -> (k * Z.of_nat (length l) <= 1074)%Z -> (forall v, In v l -> exists x, v = Fin x /\ bpow radix2 (- k) <= x <= 1) ->
  exists x, ord_loglik_fl b64 pr o y f = Ok (Fin x) /\ - IZR (k * Z.of_nat (length l)) <= x <= 0.
Proof.
  intros PR E NE Hk HL B. unfold ord_loglik_fl. rewrite E. cbn [bind]. destruct (mult_lower k l (pr l) Hk (PR l NE) HL B) as (x & -> & Bx). destruct (fln_ok (k * Z.of_nat (length l)) x ltac:(nia) Bx) as (v & -> & Bv). exists v. split; [reflexivity|exact Bv].
Qed.
Lemma sum_finite sm o f y l : sums b64 sm -> like_each_fl b64 o y f = Ok l -> l <> [] -> (Z.of_nat (length l) <= 2 ^ 40)%Z -> (forall v, In v l -> exists x, v = Fin x /\ bpow radix2 (-512) <= x <= 1) ->
  exists x, ord_sum_fl b64 sm o y f = Ok (Fin x) /\ - (512 * IZR (Z.of_nat (length l))) <= x <= 0.
Proof.
  intros SM E NE HL B. unfold ord_sum_fl. rewrite E. cbn [bind]. destruct (adds_between (map (fln b64) l) (sm (map (fln b64) l)) (-512) 0 ltac:(lia) ltac:(lia)) as (x & -> & Bx).
  - apply SM. destruct l; [contradiction|discriminate].
  - now rewrite map_length.
  - intros v I. apply in_map_iff in I. destruct I as (w & <- & Iw). destruct (B w Iw) as (x & -> & Bx). destruct (fln_ok 512 x ltac:(lia) Bx) as (v & -> & Bv). exists v. split; [reflexivity|]. lra.
  - exists x. split; [reflexivity|]. rewrite map_length, !mult_IZR in Bx. lra.
Qed.
(** ---- derivatives ---- *)
Lemma small_div e k v x : (0 <= k <= 2 ^ 53)%Z -> (-1000 <= e <= 900)%Z -> small e k v -> bpow radix2 (-40) <= x -> small (e + 40) k (fdiv b64 v (Fin x)).
Proof.
  intros Hk He [a [-> La]] Lx. assert (P := bpow_gt_0 radix2 (-40)). cbn [fdiv]. destruct (Req_EM_T x 0); [lra|]. destruct (rnd_scaled (a / x) k (e + 40) ltac:(lia) ltac:(lia)) as [-> B]; [|eexists; split; [reflexivity|exact B]].
  unfold Rdiv. rewrite Rabs_mult, Rabs_inv, (Rabs_right x) by lra. rewrite bpow_plus. assert (I : / x <= bpow radix2 40). { replace (bpow radix2 40) with (/ bpow radix2 (-40)) by (rewrite <- bpow_opp; reflexivity). apply Rinv_le_contravar; lra. }
  assert (0 < / x) by (apply Rinv_0_lt_compat; lra). replace (IZR k * (bpow radix2 e * bpow radix2 40)) with (IZR k * bpow radix2 e * bpow radix2 40) by ring. apply Rmult_le_compat; try lra. apply Rabs_pos.
Qed.
Lemma derv_likely o f eps k i x : ordinary o f -> bpow radix2 (-40) <= eps -> eps <= x -> finite (fst (ord_derv_fl b64 o eps k (f i) (Fin x))) /\ finite (snd (ord_derv_fl b64 o eps k (f i) (Fin x))).
Proof.
  intros Hh He Hx. unfold ord_derv_fl. assert (X : fltb (Fin x) (Fin eps) = false). { cbn [fltb fleb]. rewrite (proj2 (Rleb_true eps x)) by lra. reflexivity. } rewrite X. cbn [fst snd].
  assert (G : small 0 2 (fsub b64 (norm_pdf_fl b64 o k (f i)) (norm_pdf_fl b64 o (k - 1) (f i)))). { apply (small_add 0 1 1); try lia; [now apply npdf_ok|]. apply small_neg. now apply npdf_ok. }
  set (g := fsub b64 _ _) in *. assert (D : small 140 2 (fdiv b64 (fmul b64 (fneg (isigma_fl b64 o)) g) (Fin x))). { apply (small_div 100); try lia; [|lra]. apply (small_mul 100 1 0 2); try lia; auto. apply small_neg. now apply (isigma_small o f). }
  set (d := fdiv b64 _ _) in *. split; [exact (small_finite _ _ _ D)|]. apply (small_finite 280 6). apply small_neg. apply (small_add 280 4 2); try lia; [apply (small_mul 140 2 140 2); auto; lia|].
  assert (V : small 240 2 (fdiv b64 (fmul b64 (ivar_fl b64 o) g) (Fin x))). { apply (small_div 200); try lia; [|lra]. apply (small_mul 200 1 0 2); try lia; auto. now apply (ivar_small o f). }
  destruct V as [v [-> Lv]]. exists v. split; [reflexivity|]. eapply Rle_trans; [exact Lv|]. apply Rmult_le_compat_l; [lra|]. apply bpow_le. lia.
Qed.
Lemma derv_ends o f eps k i x : ordinary o f -> bpow radix2 (-40) <= eps -> k = 1%nat \/ k = o_n o -> finite (fst (ord_derv_fl b64 o eps k (f i) (Fin x))) /\ finite (snd (ord_derv_fl b64 o eps k (f i) (Fin x))).
Proof.
  intros Hh He Hk. destruct (Rle_lt_dec eps x) as [G|G]; [now apply derv_likely|]. unfold ord_derv_fl. assert (X : fltb (Fin x) (Fin eps) = true). { cbn [fltb fleb]. rewrite (proj2 (Rleb_false eps x)) by lra. reflexivity. } rewrite X. unfold eps_branch_fl.
  assert (V : finite (fneg (ivar_fl b64 o))) by (apply (small_finite 200 1), small_neg; now apply (ivar_small o f)).
  destruct (Nat.eqb_spec k 1) as [->|N1]; [|destruct (Nat.eqb_spec k (o_n o)) as [->|N2]; [|destruct Hk; contradiction]]; cbn [fst snd]; (split; [|exact V]); apply (small_finite 300 2); apply (small_mul 100 1 200 2); try lia; try (now apply (isigma_small o f)); now apply oz_small.
Qed.
(** ---- a middle label far below the value ---- *)
Lemma rnd_int z : (Z.abs z <= 2 ^ 53)%Z -> rnd b64 (IZR z) = Fin (IZR z).
Proof. intro Hz. destruct (rnd_between b64 b64_rounding (IZR z) z z Hz Hz ltac:(lra)) as [-> _]. now rewrite (rd_int b64 b64_rounding). Qed.
Definition int_ord : ord_probit := mkOrd 5 1 [0; 1; 2; 3].
Lemma int_oz k m : (1 <= k <= 4)%nat -> (Z.abs m <= 2 ^ 20)%Z -> oz_fl b64 int_ord k (IZR m) = Fin (IZR (Z.of_nat k - 1 - m)).
Proof.
  intros Hk Hm. unfold oz_fl, isigma_fl. cbn [fdiv o_sigma int_ord]. destruct (Req_EM_T 1 0); [lra|]. replace (1 / 1) with (IZR 1) by lra. rewrite rnd_int by lia. 
  assert (B : breakpoint int_ord k = IZR (Z.of_nat k - 1)). { unfold breakpoint, int_ord. cbn [o_b]. destruct k as [|[|[|[|[|k]]]]]; try lia; cbn; lra. } rewrite B. unfold fsub. cbn [fneg fadd]. rewrite <- opp_IZR, <- plus_IZR, rnd_int by lia. cbn [fmul]. rewrite <- mult_IZR, rnd_int by lia. f_equal. f_equal. lia.
Qed.
Lemma exp_huge a : 1024 <= a -> fexp b64 (Fin a) = PInf.
Proof.
  intro Ha. cbn [fexp]. unfold rnd. assert (L : bpow radix2 1024 <= exp a). { apply Rle_trans with (exp (INR (Z.to_nat 1024))); [|apply exp_le; rewrite INR_IZR_INZ, Z2Nat.id by lia; exact Ha]. assert (K := pow2_exp (Z.to_nat 1024)). rewrite exp_Ropp in K. rewrite <- bpow_neg, Z2Nat.id in K by lia. rewrite bpow_opp in K.
    assert (P := exp_pos (INR (Z.to_nat 1024))). assert (Q := bpow_gt_0 radix2 1024). apply Rinv_le_contravar in K; [|apply Rinv_0_lt_compat; lra]. now rewrite !Rinv_inv in K. }
  assert (R := rdm _ _ L). rewrite rd_bpow in R by lia. rewrite (proj2 (Rleb_true _ _)); [reflexivity|exact R].
Qed.
Lemma cdf_floor z : z <= -30 -> cdf_fl b64 (Fin z) = rnd b64 (ndtr (-30)).
Proof. intro Hz. unfold cdf_fl. cbn [fclip]. now rewrite rclip_low by lra. Qed.
Lemma middle_nan eps k m : 0 < eps -> (2 <= k <= 4)%nat -> (1100 <= m <= 2 ^ 20)%Z -> exists l, like_one_fl b64 int_ord (fun _ => IZR m) (k, 0%nat) = Ok l /\ fst (ord_derv_fl b64 int_ord eps k (IZR m) l) = NaN.
Proof.
  intros He Hk Hm. assert (Z1 := int_oz k m ltac:(lia) ltac:(lia)). assert (Z2 := int_oz (k - 1) m ltac:(lia) ltac:(lia)). set (a := (Z.of_nat k - 1 - m)%Z) in *. replace (Z.of_nat (k - 1) - 1 - m)%Z with (a - 1)%Z in Z2 by (unfold a; lia).
  assert (A1 : IZR a <= -30) by (apply (IZR_le a (-30)); unfold a; lia). assert (A2 : IZR (a - 1) <= -30) by (apply (IZR_le (a - 1) (-30)); unfold a; lia).
  exists (Fin 0). split.
  - unfold like_one_fl. cbn [fst snd]. unfold norm_cdf_fl. cbn [o_n int_ord]. destruct (Nat.eqb_spec k 5); [lia|]. destruct (Nat.eqb_spec k 0); [lia|]. destruct (Nat.ltb_spec 5 k); [lia|]. destruct (Nat.eqb_spec (k - 1) 5); [lia|]. destruct (Nat.eqb_spec (k - 1) 0); [lia|]. destruct (Nat.ltb_spec 5 (k - 1)); [lia|].
    fold int_ord. rewrite Z1, Z2, !cdf_floor by assumption. cbn [bind]. assert (N := ndtr_range (-30)). destruct (rnd_unit b64 b64_rounding (ndtr (-30)) ltac:(lra)) as [-> _]. unfold fsub. cbn [fneg fadd]. rewrite Rplus_opp_r. now rewrite (rnd_int 0) by lia.
  - unfold ord_derv_fl. assert (X : fltb (Fin 0) (Fin eps) = true). { cbn [fltb fleb]. rewrite (proj2 (Rleb_false eps 0)) by lra. reflexivity. } rewrite X. unfold eps_branch_fl. destruct (Nat.eqb_spec k 1); [lia|]. cbn [o_n int_ord]. destruct (Nat.eqb_spec k 5); [lia|]. fold int_ord. rewrite Z1, Z2. cbn [fst].
    assert (S : (Z.abs a <= 2 ^ 21)%Z) by (unfold a; lia). assert (Ep : fexp b64 (fmul b64 (Fin (- (1 / 2))) (fsub b64 (fmul b64 (Fin (IZR a)) (Fin (IZR a))) (fmul b64 (Fin (IZR (a - 1))) (Fin (IZR (a - 1)))))) = PInf).
    { cbn [fmul]. rewrite <- !mult_IZR, !rnd_int by nia. unfold fsub. cbn [fneg fadd]. rewrite <- opp_IZR, <- plus_IZR, rnd_int by nia. cbn [fmul]. replace (a * a + - ((a - 1) * (a - 1)))%Z with (2 * a - 1)%Z by ring.
      assert (V : - (1 / 2) * IZR (2 * a - 1) = IZR (1 - 2 * a) * bpow radix2 (-1)). { change (bpow radix2 (-1)) with (/ 2). rewrite !minus_IZR, !mult_IZR. lra. }
      rewrite V. destruct (rnd_scaled (IZR (1 - 2 * a) * bpow radix2 (-1)) (1 - 2 * a) (-1) ltac:(unfold a in *; lia) ltac:(lia)) as [-> _]; [assert (0 <= IZR (1 - 2 * a)) by (apply (IZR_le 0); unfold a; lia); assert (Q := bpow_gt_0 radix2 (-1)); rewrite Rabs_right; [lra|nra]|]. rewrite rd_scaled by (unfold a in *; lia). apply exp_huge.
      change (bpow radix2 (-1)) with (/ 2). assert (IZR 2048 <= IZR (1 - 2 * a)) by (apply IZR_le; unfold a; lia). lra. }
    rewrite Ep. assert (I : isigma_fl b64 int_ord = Fin 1). { unfold isigma_fl. cbn [fdiv o_sigma int_ord]. destruct (Req_EM_T 1 0); [lra|]. replace (1 / 1) with (IZR 1) by lra. now rewrite rnd_int by lia. } rewrite I.
    cbn [fmul]. unfold inf_times. rewrite (proj2 (Rltb_false 0 (IZR a))) by lra. rewrite (proj2 (Rltb_true (IZR a) 0)) by lra. unfold fsub. cbn [fneg fadd fmul]. unfold ninf_times. rewrite (proj2 (Rltb_true 0 1)) by lra. reflexivity.
Qed.
Lemma like_label o f y : ordinary o f -> (1 <= fst y <= o_n o)%nat -> exists x, like_one_fl b64 o f y = Ok (Fin x) /\ -1 <= x <= 1 /\ (fst y = 1%nat -> bpow radix2 (-1074) <= x).
Proof.
  intros Hh Hk. destruct (like_small o f Hh y Hk) as (l & E & x & -> & B). exists x. split; [exact E|]. split; [change (bpow radix2 0) with 1 in B; apply Rabs_le_inv in B; lra|]. intro K. destruct y as [k i]. cbn in K. subst k. destruct (bottom_like o f Hh i) as (x' & E' & B'). rewrite E in E'. injection E' as <-. apply B'.
Qed.
