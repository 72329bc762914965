(** How far the RBF kernel in binary64 is from its real value: the exponential. *)
From Coq Require Import Reals ZArith Lra Lia List Bool.
From Flocq Require Import Core Relative.
From Verif Require Import M_Base M_RBase M_Kernel M_Float M_FloatProbit M_FloatKern S_Float S_FloatProbit P_RBase P_Base P_Kernel P_Float P_FloatProbit P_FloatProbit2 P_FloatProbit3 P_FloatNorm P_FloatOrd P_FloatKern P_FloatKern2 P_FloatKern3 P_FloatKern4 P_FloatKern5.
Import ListNotations.
Local Open Scope R_scope.

Lemma exp_gap a b : 0 <= a -> a <= b -> 0 <= exp (- a) - exp (- b) <= (b - a) * exp (- a).
Proof.
  intros Ha H. assert (E := exp_ineq1_le (- (b - a))). assert (P := exp_pos (- a)). assert (X : exp (- b) = exp (- a) * exp (- (b - a))) by (rewrite <- exp_plus; f_equal; lra).
  assert (L : exp (- (b - a)) <= 1) by (apply exp_neg1; lra). rewrite X. split; nra.
Qed.
Lemma z_exp z : 0 <= z -> z * exp (- (3 / 4 * z)) <= 4 / 3.
Proof.
  intro H. assert (E := exp_ineq1_le (3 / 4 * z)). assert (P := exp_pos (- (3 / 4 * z))). assert (X : exp (3 / 4 * z) * exp (- (3 / 4 * z)) = 1) by (rewrite <- exp_plus, Rplus_opp_r; apply exp_0). nra.
Qed.
Lemma exp_err z w d e : 0 <= z -> 0 <= w -> 0 <= d <= 1 / 4 -> 0 <= e <= 1 / 4 -> Rabs (w - z) <= d * z + e -> Rabs (exp (- w) - exp (- z)) <= 2 * d + 2 * e.
Proof.
  intros Hz Hw Hd He H. apply Rabs_le_inv in H.
  assert (M : forall m, 0 <= m -> z * (1 - d) - e <= m -> (d * z + e) * exp (- m) <= 2 * d + 2 * e).
  { intros m Hm Hmz. assert (E1 : exp (- m) <= exp e * exp (- (3 / 4 * z))). { rewrite <- exp_plus. apply exp_le. nra. }
    assert (E2 : exp e <= 4 / 3). { assert (K := exp_ineq1_le (- e)). assert (X : exp e * exp (- e) = 1) by (rewrite <- exp_plus, Rplus_opp_r; apply exp_0). assert (Q := exp_pos e). nra. }
    assert (Z := z_exp z Hz). assert (P := exp_pos (- (3 / 4 * z))). assert (L : exp (- (3 / 4 * z)) <= 1) by (apply exp_neg1; lra). set (y := exp (- (3 / 4 * z))) in *.
    assert (Q := exp_pos e). assert (B : 0 <= d * z + e) by nra. apply Rle_trans with ((d * z + e) * (exp e * y)); [now apply Rmult_le_compat_l|].
    apply Rle_trans with ((d * z + e) * (4 / 3 * y)); [apply Rmult_le_compat_l; [exact B|apply Rmult_le_compat_r; lra]|].
    assert (d * (z * y) <= d * (4 / 3)) by (apply Rmult_le_compat_l; lra). assert (e * y <= e * 1) by (apply Rmult_le_compat_l; lra). nra. }
  destruct (Rle_dec z w) as [L|L].
  - assert (G := exp_gap z w Hz L). rewrite Rabs_minus_sym, Rabs_right by lra. eapply Rle_trans; [apply G|]. eapply Rle_trans; [|apply (M z Hz); nra]. apply Rmult_le_compat_r; [left; apply exp_pos|lra].
  - assert (G := exp_gap w z Hw ltac:(lra)). rewrite Rabs_right by lra. eapply Rle_trans; [apply G|]. eapply Rle_trans; [|apply (M w Hw); nra]. apply Rmult_le_compat_r; [left; apply exp_pos|lra].
Qed.
Lemma two_l2_err l : bpow radix2 (-100) <= Rabs l <= bpow radix2 100 -> exists q, two_l2_fl b64 l = Fin q /\ 0 < q /\ 2 * (l * l) * (1 - 3 * uu) <= q <= 2 * (l * l) * (1 + 3 * uu).
Proof.
  intros [L U]. assert (P : 0 < bpow radix2 (-100)) by apply bpow_gt_0. unfold two_l2_fl. cbn [fmul].
  assert (A2 : Rabs (2 * l) <= IZR 1 * bpow radix2 101). { rewrite Rabs_mult, (Rabs_right 2) by lra. change (bpow radix2 101) with (bpow radix2 (100 + 1)). rewrite bpow_S. lra. }
  destruct (rnd_scaled (2 * l) 1 101 ltac:(lia) ltac:(lia) A2) as [-> B]. rewrite Rmult_1_l in B. cbn [fmul]. set (t := rd b64 (2 * l)) in *. fold uu.
  assert (LB : forall x, bpow radix2 (-100) <= x -> bpow radix2 (-1022) <= 2 * x) by (intros x Hx; apply Rle_trans with (bpow radix2 (-100)); [apply bpow_le; lia|lra]).
  assert (S : 2 * (l * l) * (1 - uu) <= t * l <= 2 * (l * l) * (1 + uu)).
  { destruct (Rcase_abs l) as [N|N].
    - rewrite (Rabs_left l) in * by lra. assert (R := rd_rel (2 * - l) (LB _ L)). replace (2 * - l) with (- (2 * l)) in R by ring. rewrite rd_opp in R. fold t uu in R. nra.
    - rewrite (Rabs_right l) in * by lra. assert (R := rd_rel (2 * l) (LB _ L)). fold t uu in R. nra. }
  assert (SQ : l * l = Rabs l * Rabs l) by (rewrite <- Rabs_mult, Rabs_right; nra).
  assert (L2 : bpow radix2 (-200) <= l * l). { rewrite SQ. replace (bpow radix2 (-200)) with (bpow radix2 (-100) * bpow radix2 (-100)) by (rewrite <- bpow_plus; reflexivity). nra. }
  assert (V := uu_val). assert (P2 := bpow_gt_0 radix2 (-200)). assert (LO : bpow radix2 (-1022) <= t * l) by (apply Rle_trans with (bpow radix2 (-200)); [apply bpow_le; lia|rewrite V in S; nra]).
  assert (UP : Rabs (t * l) <= IZR 1 * bpow radix2 201). { rewrite Rabs_mult, Rmult_1_l. replace (bpow radix2 201) with (bpow radix2 101 * bpow radix2 100) by (rewrite <- bpow_plus; reflexivity). apply Rmult_le_compat; try apply Rabs_pos; lra. }
  destruct (rnd_scaled (t * l) 1 201 ltac:(lia) ltac:(lia) UP) as [-> _]. eexists. split; [reflexivity|]. assert (R := rd_rel _ LO). fold uu in R. set (w := t * l) in *. set (k := l * l) in *. assert (K : 0 < k) by lra. rewrite V in *. split; [nra|]. split; nra.
Qed.
(** quotients *)
Lemma quot_err r Q q k n : 1 <= n <= 1048576 -> 0 <= r -> 0 <= Q -> bpow radix2 (-200) <= k -> 2 * k * (1 - 3 * uu) <= q <= 2 * k * (1 + 3 * uu) -> Rabs (r - Q) <= (2 * n + 6) * uu * Q + 40 * n * ee ->
  0 <= r / q /\ Rabs (r / q - Q / (2 * k)) <= (2 * n + 11) * uu * (Q / (2 * k)) + uu.
Proof.
  intros Hn Hr HQ Hk Hq H. assert (P := bpow_gt_0 radix2 (-200)). assert (V := uu_val). assert (U := uu_pos). assert (E := ee_pos). assert (Pq : 0 < q) by (rewrite V in Hq; nra).
  assert (R0 : 0 <= r / q) by (apply Rmult_le_pos; [exact Hr|left; now apply Rinv_0_lt_compat]). split; [exact R0|].
  set (z := Q / (2 * k)). assert (EQ : Q = z * (2 * k)) by (unfold z; field; lra). assert (Hz : 0 <= z) by (apply Rmult_le_pos; [exact HQ|left; apply Rinv_0_lt_compat; lra]).
  assert (EK : 40 * n * ee <= uu / 4 * k).
  { apply Rle_trans with (uu / 4 * bpow radix2 (-200)); [|apply Rmult_le_compat_l; lra]. assert (X : ee = bpow radix2 (-200) * bpow radix2 (-875)) by (unfold ee; rewrite <- bpow_plus; reflexivity). rewrite X.
    assert (Y : bpow radix2 (-875) <= bpow radix2 (-100)) by (apply bpow_le; lia). assert (Z : bpow radix2 (-100) <= uu / 1000000000000).
    { apply Rle_trans with (bpow radix2 (-53 + -47)); [apply bpow_le; lia|]. rewrite bpow_plus. fold uu. change (bpow radix2 (-47)) with (/ 140737488355328). lra. }
    assert (0 < bpow radix2 (-875)) by apply bpow_gt_0. replace (40 * n * (bpow radix2 (-200) * bpow radix2 (-875))) with ((40 * n * bpow radix2 (-875)) * bpow radix2 (-200)) by ring. apply Rmult_le_compat_r; [lra|]. apply Rle_trans with (40 * 1048576 * (uu / 1000000000000)); [|lra]. apply Rmult_le_compat; lra. }
  apply Rabs_le_inv in H. rewrite EQ in H. set (y := r / q). assert (ER : r = y * q) by (unfold y; field; lra). rewrite ER in H. fold y in R0.
  assert (F : (2 * n + 6) * uu <= 1 / 1000) by (rewrite V; lra). set (c := (2 * n + 6) * uu) in *. assert (C0 : 0 <= c) by (unfold c; nra).
  replace ((2 * n + 11) * uu) with (c + 5 * uu) by (unfold c; ring). assert (Kp : 0 < k) by lra. assert (Y0 : 0 <= y * k) by nra. assert (Z0 : 0 <= z * k) by nra.
  assert (YU : y * (1 - 3 * uu) <= z * (1 + c) + uu / 8).
  { apply (Rmult_le_reg_r (2 * k)); [lra|]. assert (y * (2 * k * (1 - 3 * uu)) <= y * q) by (apply Rmult_le_compat_l; lra). nra. }
  assert (YL : z * (1 - c) - uu / 8 <= y * (1 + 3 * uu)).
  { apply (Rmult_le_reg_r (2 * k)); [lra|]. assert (y * q <= y * (2 * k * (1 + 3 * uu))) by (apply Rmult_le_compat_l; lra). nra. }
  apply Rabs_le. split.
  - assert (X : (z * (1 - c) - uu / 8) * (1 - 3 * uu) <= y). { apply Rle_trans with (y * (1 + 3 * uu) * (1 - 3 * uu)); [apply Rmult_le_compat_r; [rewrite V; lra|exact YL]|]. assert (0 <= y * (uu * uu)) by (apply Rmult_le_pos; [exact R0|nra]). nra. }
    assert (0 <= z * (c * uu)) by (apply Rmult_le_pos; [exact Hz|nra]). assert (0 <= z * uu) by nra. nra.
  - assert (X : y <= (z * (1 + c) + uu / 8) * (1 + 4 * uu)). { apply Rle_trans with (y * (1 - 3 * uu) * (1 + 4 * uu)); [|apply Rmult_le_compat_r; [lra|exact YU]]. assert (W : 1 <= (1 - 3 * uu) * (1 + 4 * uu)) by (rewrite V; lra). rewrite Rmult_assoc. rewrite <- (Rmult_1_r y) at 1. now apply Rmult_le_compat_l. }
    assert (X2 : z * (c * uu) <= z * (uu / 1000)) by (apply Rmult_le_compat_l; [exact Hz|nra]). assert (0 <= z * uu) by nra. rewrite V in *. nra.
Qed.
Lemma rbf_err sm s l (u v : point) : sums b64 sm -> u <> [] -> length u = length v -> (Z.of_nat (length u) <= 2 ^ 20)%Z -> bpow radix2 (-100) <= Rabs s <= bpow radix2 100 ->
  bpow radix2 (-100) <= Rabs l <= bpow radix2 100 -> (forall a b, In (a, b) (combine u v) -> Rabs (a - b) <= bpow radix2 100) ->
  exists x, rbf_fl b64 sm s l u v = Fin x /\ Rabs (x - rbf_call s l u v) <= (4 * INR (length u) + 40) * bpow radix2 (-53) * (s * s).
Proof.
  intros Hs Hu HL HN Hsg Hl HB. fold uu. assert (V := uu_val). assert (U := uu_pos). assert (E := ee_pos). assert (ES := ee_small). assert (P100 := bpow_gt_0 radix2 (-100)).
  destruct (sqdist_err sm u v Hs Hu HL HN HB) as [r [Er [R0 [Q0 RB]]]]. destruct (two_l2_err l Hl) as [q [Eq [Pq Bq]]].
  assert (Hn : 1 <= INR (length u) <= 1048576). { split; [change 1 with (INR 1); apply le_INR; destruct u; [contradiction|cbn; lia]|rewrite INR_IZR_INZ; now apply IZR_le]. }
  set (n := INR (length u)) in *. set (Q := sqdist u v) in *.
  assert (SQ : forall x, x * x = Rabs x * Rabs x) by (intro x; rewrite <- Rabs_mult, Rabs_right; nra).
  assert (L2 : bpow radix2 (-200) <= l * l). { rewrite SQ. replace (bpow radix2 (-200)) with (bpow radix2 (-100) * bpow radix2 (-100)) by (rewrite <- bpow_plus; reflexivity). nra. }
  assert (P200 := bpow_gt_0 radix2 (-200)). destruct (quot_err r Q q (l * l) n Hn R0 Q0 L2 Bq RB) as [Y0 YB]. set (z := Q / (2 * (l * l))) in *.
  assert (Hz : 0 <= z) by (apply Rmult_le_pos; [exact Q0|left; apply Rinv_0_lt_compat; lra]). set (y := r / q) in *.
  assert (F : (2 * n + 11) * uu <= 1 / 1000) by (rewrite V; lra).
  assert (EV : exists e, unit_exp sm l u v = Fin e /\ 0 <= e <= 1 /\ Rabs (e - exp (- z)) <= (4 * n + 34) * uu).
  { unfold unit_exp. rewrite Er, Eq. cbn [fneg fdiv]. destruct (Req_EM_T q 0); [lra|]. replace (- r / q) with (- y) by (unfold y; field; lra). rewrite rnd_opp.
    destruct (rnd_nonneg y Y0) as [[Ey|Ey] W0]; rewrite Ey; cbn [fneg fexp].
    - exists 0. split; [reflexivity|]. split; [lra|]. assert (HY : 1024 <= y).
      { destruct (Rle_dec 1024 y) as [K|K]; [exact K|exfalso]. destruct (rnd_fin y 10) as [Ey' _]; [change (bpow radix2 10) with 1024; lra|lia|congruence]. }
      apply Rabs_le_inv in YB. assert (HZ : 512 <= z) by nra. rewrite Rminus_0_l, Rabs_Ropp, Rabs_right by (left; apply exp_pos).
      apply Rle_trans with (exp (- INR (Z.to_nat 512))); [apply exp_le; rewrite INR_IZR_INZ, Z2Nat.id by lia; lra|]. eapply Rle_trans; [apply pow2_exp|]. rewrite <- bpow_neg. apply Rle_trans with uu; [apply bpow_le; lia|]. nra.
    - set (w := rd b64 y) in *. assert (WE := rd_err_pos y Y0). fold w in WE.
      assert (X1 := exp_neg1 (- w) ltac:(lra)). assert (X3 := exp_pos (- w)). destruct (rnd_unit b64 b64_rounding (exp (- w)) ltac:(lra)) as [-> B1]. eexists. split; [reflexivity|]. split; [exact B1|].
      assert (X4 := rd_err_pos (exp (- w)) ltac:(lra)). apply Rabs_le_inv in YB.
      assert (WZ : Rabs (w - z) <= ((2 * n + 13) * uu) * z + 3 * uu).
      { assert (Y2 : y <= 2 * z + 1) by nra. assert (uu * y <= uu * (2 * z + 1)) by (apply Rmult_le_compat_l; lra). apply Rabs_le. split; nra. }
      assert (G := exp_err z w ((2 * n + 13) * uu) (3 * uu) Hz W0 ltac:(rewrite V; split; lra) ltac:(rewrite V; split; lra) WZ). apply Rabs_le_inv in G. assert (uu * exp (- w) <= uu) by nra. apply Rabs_le. split; lra. }
  destruct EV as [e [Ee [E01 EB]]].
  assert (S2 : bpow radix2 (-200) <= s * s). { rewrite SQ. replace (bpow radix2 (-200)) with (bpow radix2 (-100) * bpow radix2 (-100)) by (rewrite <- bpow_plus; reflexivity). nra. }
  assert (RS := rd_rel (s * s) ltac:(apply Rle_trans with (bpow radix2 (-200)); [apply bpow_le; lia|exact S2])). fold uu in RS.
  assert (Us : Rabs s <= bpow radix2 511) by (apply Rle_trans with (bpow radix2 100); [lra|apply bpow_le; lia]). destruct (square_ok s Us) as [Es BS].
  unfold rbf_fl. unfold unit_exp in Ee. rewrite Ee, Es. cbn [fmul]. set (S := rd b64 (s * s)) in *.
  destruct (rnd_below (S * e) S ltac:(nra) ltac:(apply b64_rounding) ltac:(lra)) as [-> _]. eexists. split; [reflexivity|].
  assert (RE := rd_err_pos (S * e) ltac:(nra)). unfold rbf_call. fold Q. replace (- Q / (2 * l * l)) with (- z) by (unfold z; field; intro K; rewrite K in L2; lra).
  assert (Xz := exp_neg1 (- z) ltac:(lra)). assert (Xp := exp_pos (- z)). set (g := exp (- z)) in *. set (k := s * s) in *.
  assert (EK : ee <= uu * k). { apply Rle_trans with (uu * bpow radix2 (-200)); [|apply Rmult_le_compat_l; lra]. unfold uu, ee. rewrite <- bpow_plus. apply bpow_le. lia. }
  apply Rabs_le_inv in EB. assert (D1 : Rabs (S * e - k * g) <= uu * k + k * ((4 * n + 34) * uu)).
  { replace (S * e - k * g) with ((S - k) * e + k * (e - g)) by ring. eapply Rle_trans; [apply Rabs_triang|]. rewrite !Rabs_mult, (Rabs_right e), (Rabs_right k) by lra.
    assert (Rabs (S - k) <= uu * k) by (apply Rabs_le; lra). assert (Rabs (e - g) <= (4 * n + 34) * uu) by (apply Rabs_le; lra). assert (0 <= Rabs (S - k)) by apply Rabs_pos. apply Rplus_le_compat; [nra|apply Rmult_le_compat_l; lra]. }
  apply Rabs_le_inv in D1. assert (D2 : uu * (S * e) <= 2 * (uu * k)). { assert (S * e <= 2 * k) by (rewrite V in RS; nra). nra. }
  assert (0 < uu * k) by nra. apply Rabs_le. split; nra.
Qed.
