(** The RBF kernel in binary64: near and far points, matrices. *)
From Coq Require Import Reals ZArith Lra Lia List Bool Permutation.
From Flocq Require Import Core Relative.
From Verif Require Import M_Base M_RBase M_Kernel M_Float M_FloatProbit M_FloatKern S_Float S_FloatProbit P_RBase P_Base P_Float P_FloatProbit P_FloatProbit2 P_FloatProbit3 P_FloatNorm P_FloatOrd P_FloatKern.
Import ListNotations.
Local Open Scope R_scope.

(** ---- near points ---- *)
Lemma adds_small e l a : (-1074 <= e <= 970)%Z -> adds b64 l a -> (Z.of_nat (length l) <= 2 ^ 53)%Z -> (forall v, In v l -> small e 1 v) -> small e (Z.of_nat (length l)) a.
Proof.
  intro He. induction 1 as [x|l1 l2 l a b A1 IH1 A2 IH2 P]; intros HL HV; [apply HV; now left|].
  assert (E : length l = (length l1 + length l2)%nat) by (rewrite (Permutation_length P), app_length; reflexivity).
  rewrite E, Nat2Z.inj_add. apply small_add; try lia.
  - apply IH1; [lia|]. intros v Hv. apply HV. apply (Permutation_in _ (Permutation_sym P)), in_or_app. now left.
  - apply IH2; [lia|]. intros v Hv. apply HV. apply (Permutation_in _ (Permutation_sym P)), in_or_app. now right.
Qed.
Lemma near_exp sm l u v : sums b64 sm -> u <> [] -> length u = length v -> (Z.of_nat (length u) <= 2 ^ 20)%Z -> bpow radix2 (-400) <= Rabs l <= bpow radix2 400 ->
  (forall a b, In (a, b) (combine u v) -> Rabs (a - b) <= bpow radix2 (-41) * Rabs l) -> unit_exp sm l u v = Fin 1.
Proof.
  intros Hs Hu HL HD Hl HN. destruct (two_l2_ok l) as [q [Eq [Hq [Q1 _]]]].
  { split; [apply Rle_trans with (bpow radix2 (-400)); [apply bpow_le; lia|lra]|apply Rle_trans with (bpow radix2 400); [lra|apply bpow_le; lia]]. }
  destruct (mag_bounds (Rabs l)) as [e [_ [E1 E2]]]; [apply Rle_trans with (bpow radix2 (-400)); [apply bpow_le; lia|lra]|].
  assert (H1 : (-400 < e + 1)%Z) by (apply (lt_bpow radix2); lra). assert (H2 : (e <= 400)%Z) by (apply (le_bpow radix2); lra).
  assert (He : (-401 <= e <= 400)%Z) by lia.
  assert (A : adds b64 _ (sqdist_fl b64 sm u v)) by exact (Hs _ (squares_some u v Hu HL)).
  assert (S : small (2 * e - 80) (Z.of_nat (length u)) (sqdist_fl b64 sm u v)).
  { set (lst := map _ _) in A. assert (LL : length lst = length u) by (unfold lst; rewrite map_length, combine_length; lia). rewrite <- LL.
    apply adds_small; [lia|exact A|lia|]. intros w Hw. unfold lst in Hw. apply in_map_iff in Hw. destruct Hw as [[a b] [<- Hab]]. cbv zeta. cbn [fst snd].
    assert (D : small (e - 40) 1 (fsub b64 (Fin a) (Fin b))).
    { unfold fsub. cbn [fneg fadd]. assert (N := HN a b Hab). assert (N' : Rabs (a + - b) <= IZR 1 * bpow radix2 (e - 40)).
      { rewrite Rmult_1_l. eapply Rle_trans; [exact N|]. replace (e - 40)%Z with (-41 + (e + 1))%Z by lia. rewrite bpow_plus. apply Rmult_le_compat_l; [apply bpow_ge_0|lra]. }
      destruct (rnd_scaled _ 1 (e - 40) ltac:(lia) ltac:(lia) N') as [-> B]. eexists. split; [reflexivity|exact B]. }
    replace (2 * e - 80)%Z with ((e - 40) + (e - 40))%Z by lia. apply (small_mul (e - 40) 1 (e - 40) 1); try lia; exact D. }
  destruct (sqdist_weighs sm u v Hs Hu HL) as [W _]. destruct S as [t [Et Bt]]. rewrite Et in *. destruct W as [W|[t' [W [T0 _]]]]; [discriminate|]. injection W as <-.
  unfold unit_exp. rewrite Eq, Et. cbn [fneg fdiv]. destruct (Req_EM_T q 0); [lra|]. rewrite Rabs_right in Bt by lra.
  assert (T1 : t <= bpow radix2 (2 * e - 60)).
  { eapply Rle_trans; [exact Bt|]. replace (2 * e - 60)%Z with (20 + (2 * e - 80))%Z by lia. rewrite bpow_plus. apply Rmult_le_compat_r; [apply bpow_ge_0|]. change (bpow radix2 20) with (IZR (2 ^ 20)). now apply IZR_le. }
  assert (Q2 : bpow radix2 (2 * e - 1) <= q).
  { apply Rle_trans with (l * l / 2); [|exact Q1]. replace (2 * e - 1)%Z with (e + e + -1)%Z by lia. rewrite !bpow_plus. change (bpow radix2 (-1)) with (/ 2). assert (SQ : l * l = Rabs l * Rabs l) by (rewrite <- Rabs_mult, Rabs_right; nra). assert (P := bpow_gt_0 radix2 e). rewrite SQ. nra. }
  assert (D : 0 <= t / q <= bpow radix2 (-59)).
  { split; [apply Rmult_le_pos; [lra|left; now apply Rinv_0_lt_compat]|]. apply (Rmult_le_reg_r q); [exact Hq|]. unfold Rdiv. rewrite Rmult_assoc, Rinv_l, Rmult_1_r by lra.
    apply Rle_trans with (bpow radix2 (-59) * bpow radix2 (2 * e - 1)); [rewrite <- bpow_plus; replace (-59 + (2 * e - 1))%Z with (2 * e - 60)%Z by lia; exact T1|apply Rmult_le_compat_l; [apply bpow_ge_0|exact Q2]]. }
  replace (- t / q) with (- (t / q)) by (field; lra). rewrite rnd_opp.
  destruct (rnd_scaled (t / q) 1 (-59) ltac:(lia) ltac:(lia)) as [-> B]; [rewrite Rmult_1_l, Rabs_right by lra; lra|]. cbn [fneg fexp]. set (z := rd b64 (t / q)) in *.
  assert (Z0 : 0 <= z) by (unfold z; rewrite <- (rd_0 b64 b64_rounding); apply rdm; lra). rewrite Rmult_1_l, Rabs_right in B by lra.
  assert (X1 := exp_neg1 (- z) ltac:(lra)). assert (X2 := exp_ineq1_le (- z)). assert (X3 := exp_pos (- z)).
  destruct (rnd_unit b64 b64_rounding (exp (- z)) ltac:(lra)) as [-> _]. f_equal. apply rd_near_one.
  assert (P59 : bpow radix2 (-59) <= bpow radix2 (-55)) by (apply bpow_le; lia). lra.
Qed.
(** ---- far points ---- *)
Lemma far_exp sm l u v a b : sums b64 sm -> u <> [] -> length u = length v -> bpow radix2 (-400) <= Rabs l <= bpow radix2 400 ->
  In (a, b) (combine u v) -> 512 * Rabs l <= Rabs (a - b) -> unit_exp sm l u v = Fin 0.
Proof.
  intros Hs Hu HL Hl Hab HF. assert (PL : 0 < bpow radix2 (-400)) by apply bpow_gt_0.
  destruct (two_l2_ok l) as [q [Eq [Hq [_ Q2]]]].
  { split; [apply Rle_trans with (bpow radix2 (-400)); [apply bpow_le; lia|lra]|apply Rle_trans with (bpow radix2 400); [lra|apply bpow_le; lia]]. }
  destruct (sqdist_weighs sm u v Hs Hu HL) as [W K]. specialize (K a b Hab). unfold unit_exp. rewrite Eq.
  assert (SQ : l * l = Rabs l * Rabs l) by (rewrite <- Rabs_mult, Rabs_right; nra).
  assert (D : no_less (fmul b64 (fsub b64 (Fin a) (Fin b)) (fsub b64 (Fin a) (Fin b))) (Fin (32768 * (l * l)))).
  { unfold fsub. cbn [fneg fadd]. change (a + - b) with (a - b). assert (T : bpow radix2 (-1074) <= Rabs (a - b)) by (apply Rle_trans with (bpow radix2 (-400)); [apply bpow_le; lia|lra]).
    assert (H := rd_abs_half _ T). unfold rnd. destruct (Rleb _ _); [exact I|]. destruct (Rleb _ _); [exact I|]. cbn [fmul]. set (d := rd b64 (a - b)) in *.
    assert (DD : 65536 * (l * l) <= d * d). { assert (SD : d * d = Rabs d * Rabs d) by (rewrite <- Rabs_mult, Rabs_right; nra). rewrite SD, SQ. nra. }
    destruct (rnd_nonneg (d * d) ltac:(nra)) as [[-> | ->] P]; [exact I|]. cbn [no_less].
    assert (T2 : bpow radix2 (-1074) <= d * d). { apply Rle_trans with (bpow radix2 (-400) * bpow radix2 (-400)); [rewrite <- bpow_plus; apply bpow_le; lia|]. nra. }
    assert (H2 := rd_half _ T2). lra. }
  assert (N := no_less_trans _ _ _ K D). destruct W as [W|[t [W [T0 _]]]]; rewrite W in *; cbn [fneg fdiv].
  - rewrite (proj2 (Rltb_false _ _)) by lra. reflexivity.
  - cbn [no_less] in N. destruct (Req_EM_T q 0); [lra|]. replace (- t / q) with (- (t / q)) by (field; lra). rewrite rnd_opp.
    assert (X : 4096 <= t / q). { apply (Rmult_le_reg_r q); [exact Hq|]. unfold Rdiv. rewrite Rmult_assoc, Rinv_l, Rmult_1_r by lra. lra. }
    destruct (rnd_nonneg (t / q) ltac:(lra)) as [[-> | ->] P]; cbn [fneg fexp]; [reflexivity|]. set (z := rd b64 (t / q)) in *.
    assert (Z : 4096 <= z). { unfold z. rewrite <- (rd_int b64 b64_rounding 4096) by lia. apply rdm. exact X. }
    assert (E : exp (- z) < bpow radix2 (-1075)).
    { apply Rle_lt_trans with (exp (- INR (Z.to_nat 4096))); [apply exp_le; rewrite INR_IZR_INZ, Z2Nat.id by lia; lra|]. eapply Rle_lt_trans; [apply pow2_exp|]. rewrite <- bpow_neg. apply bpow_lt. rewrite Z2Nat.id by lia. lia. }
    assert (EP := exp_pos (- z)). assert (R0 := b64_flushes (exp (- z)) ltac:(lra)).
    destruct (rnd_unit b64 b64_rounding (exp (- z))) as [-> _]; [split; [lra|]; apply exp_neg1; lra|]. now rewrite R0.
Qed.
Lemma rbf_far sm s l u v a b : sums b64 sm -> u <> [] -> length u = length v -> Rabs s <= bpow radix2 511 -> bpow radix2 (-400) <= Rabs l <= bpow radix2 400 ->
  In (a, b) (combine u v) -> 512 * Rabs l <= Rabs (a - b) -> rbf_fl b64 sm s l u v = Fin 0.
Proof.
  intros Hs Hu HL Us Hl Hab HF. unfold rbf_fl. assert (E := far_exp sm l u v a b Hs Hu HL Hl Hab HF). unfold unit_exp in E. rewrite E. destruct (square_ok s Us) as [-> _].
  cbn [fmul]. rewrite Rmult_0_r. apply rnd_0.
Qed.
Lemma rbf_near sm s l u v : sums b64 sm -> u <> [] -> length u = length v -> (Z.of_nat (length u) <= 2 ^ 20)%Z -> Rabs s <= bpow radix2 511 -> bpow radix2 (-400) <= Rabs l <= bpow radix2 400 ->
  (forall a b, In (a, b) (combine u v) -> Rabs (a - b) <= bpow radix2 (-41) * Rabs l) -> rbf_fl b64 sm s l u v = Fin (rd b64 (s * s)).
Proof. intros Hs Hu HL HD Us Hl HN. apply rbf_one; [exact Us|]. now apply near_exp. Qed.

(** ---- parameters that vanish when squared ---- *)
Lemma tiny_square x : Rabs x <= bpow radix2 (-540) -> rnd b64 (x * x) = Fin 0.
Proof.
  intro H. assert (A := Rabs_pos x). assert (SQ : x * x = Rabs x * Rabs x) by (rewrite <- Rabs_mult, Rabs_right; nra).
  assert (B : x * x <= bpow radix2 (-1080)). { rewrite SQ. replace (bpow radix2 (-1080)) with (bpow radix2 (-540) * bpow radix2 (-540)) by (rewrite <- bpow_plus; reflexivity). nra. }
  assert (C : bpow radix2 (-1080) < bpow radix2 (-1075)) by (apply bpow_lt; lia). assert (D : bpow radix2 (-1075) <= 1) by (change 1 with (bpow radix2 0); apply bpow_le; lia).
  destruct (rnd_unit b64 b64_rounding (x * x) ltac:(nra)) as [-> _]. f_equal. apply b64_flushes. nra.
Qed.
Lemma two_l2_tiny l : bpow radix2 (-1074) <= Rabs l <= bpow radix2 (-540) -> two_l2_fl b64 l = Fin 0.
Proof.
  intros [L U]. unfold two_l2_fl. cbn [fmul]. assert (P : 0 < bpow radix2 (-540)) by apply bpow_gt_0.
  assert (A2 : Rabs (2 * l) <= IZR 1 * bpow radix2 (-539)). { rewrite Rabs_mult, (Rabs_right 2) by lra. change (bpow radix2 (-539)) with (bpow radix2 (-540 + 1)). rewrite bpow_S. lra. }
  destruct (rnd_scaled (2 * l) 1 (-539) ltac:(lia) ltac:(lia) A2) as [-> B]. rewrite Rmult_1_l in B. cbn [fmul]. set (t := rd b64 (2 * l)) in *.
  assert (C : Rabs (t * l) <= bpow radix2 (-1079)). { rewrite Rabs_mult. replace (bpow radix2 (-1079)) with (bpow radix2 (-539) * bpow radix2 (-540)) by (rewrite <- bpow_plus; reflexivity). apply Rmult_le_compat; try apply Rabs_pos; lra. }
  assert (D : bpow radix2 (-1079) < bpow radix2 (-1075)) by (apply bpow_lt; lia).
  assert (Z : rd b64 (t * l) = 0).
  { destruct (Rcase_abs (t * l)) as [N|N].
    - rewrite Rabs_left in C by lra. assert (Y := b64_flushes (- (t * l)) ltac:(lra)). rewrite rd_opp in Y. lra.
    - rewrite Rabs_right in C by lra. apply b64_flushes. lra. }
  unfold rnd. rewrite Z. assert (Q := huge_pos b64 b64_rounding). rewrite (proj2 (Rleb_false _ _)) by lra. now rewrite (proj2 (Rleb_false _ _)) by lra.
Qed.
Lemma sqdist_self_fl sm u : sums b64 sm -> u <> [] -> sqdist_fl b64 sm u u = Fin 0.
Proof.
  intros Hs Hu. apply (adds_zero _ _ (Hs _ (squares_some u u Hu eq_refl))). intros w Hw. apply in_map_iff in Hw. destruct Hw as [[a b] [<- Hab]].
  assert (E : a = b). { clear - Hab. induction u as [|x u IH]; [easy|]. destruct Hab as [E|E]; [now injection E as <- <-|auto]. }
  subst b. cbv zeta. unfold fsub. cbn [fst snd fneg fadd]. rewrite Rplus_opp_r, rnd_0. cbn [fmul]. rewrite Rmult_0_l. apply rnd_0.
Qed.
Lemma rbf_tiny_length sm s l u : sums b64 sm -> u <> [] -> bpow radix2 (-1074) <= Rabs l <= bpow radix2 (-540) -> rbf_fl b64 sm s l u u = NaN.
Proof.
  intros Hs Hu Hl. unfold rbf_fl. rewrite (two_l2_tiny l Hl), (sqdist_self_fl sm u Hs Hu). cbn [fneg fdiv]. destruct (Req_EM_T 0 0); [|lra].
  replace (- 0) with 0 by lra. rewrite inf_times_0. cbn [fexp]. destruct (fmul b64 (Fin s) (Fin s)); reflexivity.
Qed.
Lemma rbf_tiny_sigma sm s l u v : sums b64 sm -> u <> [] -> length u = length v -> Rabs s <= bpow radix2 (-540) -> bpow radix2 (-537) <= Rabs l <= bpow radix2 511 -> rbf_fl b64 sm s l u v = Fin 0.
Proof.
  intros Hs Hu HL Us Hl. destruct (rbf_range sm s l u v Hs Hu HL) as [x [E B]]; [apply Rle_trans with (bpow radix2 (-540)); [exact Us|apply bpow_le; lia]|exact Hl|].
  rewrite E. f_equal. assert (T := tiny_square s Us). destruct (square_ok s) as [Q _]; [apply Rle_trans with (bpow radix2 (-540)); [exact Us|apply bpow_le; lia]|].
  cbn [fmul] in Q. rewrite T in Q. assert (Z : rd b64 (s * s) = 0) by congruence. rewrite Z in B. lra.
Qed.
