(** The chance of a pair in binary64 against the exact one. *)
From Coq Require Import Reals ZArith Lra Lia List Bool Permutation.
From Flocq Require Import Core.
From Verif Require Import M_Base M_RBase M_Normal M_User M_Float M_FloatProbit M_FloatPer M_FloatTune S_User S_Float P_RBase P_Float P_FloatKern P_FloatKern5 P_FloatTune.
Import ListNotations.
Local Open Scope R_scope.

Definition u64 : R := bpow radix2 (-53).
Lemma u64_pos : 0 < u64.
Proof. apply bpow_gt_0. Qed.
Lemma rd_off x : 0 <= x -> Rabs (rd b64 x - x) <= u64 * (x + 1).
Proof.
  intros H. pose proof (rd_err_pos x H) as E. assert (T : ee <= u64) by (apply bpow_le; lia). change uu with u64 in E. apply Rabs_le. lra.
Qed.
Definition sg (t : R) : R := exp t / (1 + exp t).
Lemma quot_diff x y : 0 < x -> 0 < y -> y / (1 + y) - x / (1 + x) = (y - x) / ((1 + x) * (1 + y)).
Proof. intros. field. lra. Qed.
Lemma sg_lip_le a b : a <= b -> 0 <= sg b - sg a <= b - a.
Proof.
  intros H. unfold sg. pose proof (exp_pos a) as Pa. pose proof (exp_pos b) as Pb.
  assert (Eab : exp a = exp b * exp (a - b)) by (rewrite <- exp_plus; f_equal; ring).
  pose proof (exp_ineq1_le (a - b)) as L. pose proof (exp_pos (a - b)).
  assert (Le : exp a <= exp b) by (destruct H as [H| ->]; [apply Rlt_le, exp_increasing, H|lra]).
  rewrite quot_diff by assumption. set (x := exp a) in *. set (y := exp b) in *.
  assert (D : 0 < (1 + x) * (1 + y)) by (apply Rmult_lt_0_compat; lra). split.
  - apply Rmult_le_pos; [lra|]. apply Rlt_le, Rinv_0_lt_compat, D.
  - apply (Rmult_le_reg_r ((1 + x) * (1 + y))); [exact D|]. replace ((y - x) / ((1 + x) * (1 + y)) * ((1 + x) * (1 + y))) with (y - x) by (field; lra).
    assert (y - x <= y * (b - a)) by nra. assert (y <= (1 + x) * (1 + y)) by nra. assert (y * (b - a) <= (b - a) * ((1 + x) * (1 + y))) by (rewrite (Rmult_comm y); apply Rmult_le_compat_l; lra). lra.
Qed.
Lemma sg_lip a b : Rabs (sg a - sg b) <= Rabs (a - b).
Proof.
  destruct (Rle_dec a b) as [H|H].
  - pose proof (sg_lip_le a b H). rewrite !Rabs_left1 by lra. lra.
  - pose proof (sg_lip_le b a ltac:(lra)). rewrite !Rabs_pos_eq by lra. lra.
Qed.
Lemma exp_cap z : z <= 64 -> exp z <= bpow radix2 128.
Proof.
  intros H. apply Rle_trans with (exp 64); [destruct H as [H| ->]; [apply Rlt_le, exp_increasing, H|lra]|].
  pose proof (exp_pow4 64) as K. replace (- INR 64) with (- (64)) in K by (rewrite INR_IZR_INZ; reflexivity). rewrite exp_Ropp in K.
  pose proof (exp_pos 64) as P. replace (bpow radix2 128) with (2 ^ (2 * 64)); [|rewrite pow_IZR; reflexivity].
  assert (P2 : 0 < 2 ^ (2 * 64)) by (apply pow_lt; lra). set (w := 2 ^ (2 * 64)) in *. clearbody w.
  apply Rnot_lt_le. intros C. apply (Rinv_lt_contravar w (exp 64)) in C; [lra|now apply Rmult_lt_0_compat].
Qed.
Lemma dist3 a b c d e : Rabs (a - b) + Rabs (b - c) + Rabs (c - d) + Rabs (d - e) >= Rabs (a - e).
Proof.
  replace (a - e) with ((a - b) + (b - c) + (c - d) + (d - e)) by ring.
  pose proof (Rabs_triang ((a - b) + (b - c) + (c - d)) (d - e)). pose proof (Rabs_triang ((a - b) + (b - c)) (c - d)). pose proof (Rabs_triang (a - b) (b - c)). lra.
Qed.
Lemma chance_near b d : 0 <= b -> exists x, chance_fl b64 b d = Fin x /\ Rabs (x - pair_probability b d) <= bpow radix2 (-47).
Proof.
  intros Hb. change (pair_probability b d) with (sg (Rabs d * b)). set (P := Rabs d * b). assert (HP : 0 <= P) by (apply Rmult_le_pos; [apply Rabs_pos|exact Hb]).
  pose proof u64_pos as Pu. assert (U47 : bpow radix2 (-47) = 64 * u64) by (unfold u64; change (-47)%Z with (6 + -53)%Z; rewrite bpow_plus; reflexivity). rewrite U47.
  destruct (Rle_lt_dec 54 P) as [L|L].
  - destruct (chance_ok b d Hb) as [x [E [_ [_ X]]]]. exists x. split; [exact E|]. rewrite (X L).
    pose proof (pow2_exp 53) as K. replace (- INR 53) with (- (53)) in K by (rewrite INR_IZR_INZ; reflexivity).
    replace (/ 2 ^ 53) with u64 in K by (unfold u64; rewrite <- (bpow_neg 53); reflexivity).
    unfold sg. pose proof (exp_pos P) as Pp. replace (1 - exp P / (1 + exp P)) with (/ (1 + exp P)) by (field; lra).
    rewrite Rabs_pos_eq by (apply Rlt_le, Rinv_0_lt_compat; lra). apply Rle_trans with u64; [|lra]. eapply Rle_trans; [|exact K]. rewrite exp_Ropp.
    apply Rinv_le_contravar; [apply exp_pos|]. assert (exp 53 < exp P) by (apply exp_increasing; lra). lra.
  - unfold chance_fl. cbn [fabs fmul]. fold P. destruct (rnd_small P 6) as [-> Bz]; [lia|lia|cbn; lra|]. cbn [fexp].
    pose proof (rd_off P HP) as Oz. set (z := rd b64 P) in *. assert (Z64 : z <= 64) by (change (bpow radix2 6) with 64 in Bz; lra).
    assert (Y1 : 1 <= exp z) by (rewrite <- exp_0; destruct (proj1 Bz) as [H| <-]; [apply Rlt_le, exp_increasing, H|lra]).
    destruct (rnd_small (exp z) 128) as [-> Bx]; [lia|lia|split; [lra|now apply exp_cap]|].
    pose proof (rd_off (exp z) ltac:(lra)) as Ox. set (y := exp z) in *. set (x := rd b64 y) in *.
    assert (X1 : 1 <= x) by (unfold x; rewrite <- (rd_1 b64 R64) at 1; apply (rd_le b64 R64); exact Y1).
    cbn [fadd]. assert (B1 : 1 + x <= bpow radix2 129).
    { assert (E : bpow radix2 129 = 2 * bpow radix2 128) by (change 129%Z with (1 + 128)%Z; rewrite bpow_plus; reflexivity).
      assert (1 <= bpow radix2 128) by (change 1 with (bpow radix2 0); apply bpow_le; lia). lra. }
    destruct (rnd_small (1 + x) 129) as [-> Bs]; [lia|lia|lra|]. pose proof (rd_off (1 + x) ltac:(lra)) as Os.
    assert (S0 : x <= rd b64 (1 + x)) by (unfold x at 1; rewrite <- (rd_idem y); fold x; apply (rd_le b64 R64); lra).
    set (s := rd b64 (1 + x)) in *. cbn [fdiv]. destruct (Req_EM_T s 0) as [E|_]; [lra|].
    assert (Q : 0 <= x / s <= 1) by (split; [apply Rmult_le_pos; [lra|apply Rlt_le, Rinv_0_lt_compat; lra]|apply (Rmult_le_reg_r s); [lra|]; replace (x / s * s) with x by (field; lra); lra]).
    destruct (rnd_unit b64 R64 (x / s) Q) as [-> Bq]. cbn [fisnan]. exists (rd b64 (x / s)). split; [reflexivity|].
    pose proof (rd_off (x / s) (proj1 Q)) as Oq.
    assert (D1 : Rabs (rd b64 (x / s) - x / s) <= 2 * u64) by nra.
    assert (D2 : Rabs (x / s - x / (1 + x)) <= 2 * u64).
    { replace (x / s - x / (1 + x)) with (x / s * ((1 + x - s) / (1 + x))) by (field; lra). rewrite Rabs_mult, (Rabs_pos_eq (x / s)) by lra.
      assert (W : Rabs ((1 + x - s) / (1 + x)) <= 2 * u64).
      { unfold Rdiv. rewrite Rabs_mult, (Rabs_pos_eq (/ (1 + x))) by (apply Rlt_le, Rinv_0_lt_compat; lra). rewrite <- Rabs_Ropp. replace (- (1 + x - s)) with (s - (1 + x)) by ring.
        apply (Rmult_le_reg_r (1 + x)); [lra|]. rewrite Rmult_assoc, Rinv_l by lra. nra. }
      pose proof (Rabs_pos ((1 + x - s) / (1 + x))). nra. }
    assert (D3 : Rabs (x / (1 + x) - y / (1 + y)) <= 2 * u64).
    { rewrite quot_diff by lra. unfold Rdiv. assert (Dp : 0 < (1 + y) * (1 + x)) by (apply Rmult_lt_0_compat; lra).
      rewrite Rabs_mult, (Rabs_pos_eq (/ _)) by (apply Rlt_le, Rinv_0_lt_compat; exact Dp).
      apply (Rmult_le_reg_r ((1 + y) * (1 + x))); [exact Dp|]. rewrite Rmult_assoc, Rinv_l by lra. assert (y + 1 <= (1 + y) * (1 + x)) by nra. nra. }
    assert (D4 : Rabs (y / (1 + y) - sg P) <= 55 * u64).
    { unfold y. fold (sg z). eapply Rle_trans; [apply sg_lip|]. nra. }
    pose proof (dist3 (rd b64 (x / s)) (x / s) (x / (1 + x)) (y / (1 + y)) (sg P)). lra.
Qed.
