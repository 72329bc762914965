(** How far the RBF kernel in binary64 is from its real value. *)
From Coq Require Import Reals ZArith Lra Lia List Bool Permutation.
From Flocq Require Import Core Relative.
From Verif Require Import M_Base M_RBase M_Kernel M_Float M_FloatProbit M_FloatKern S_Float S_FloatProbit P_RBase P_Base P_Kernel P_Float P_FloatProbit P_FloatProbit2 P_FloatProbit3 P_FloatNorm P_FloatOrd P_FloatKern P_FloatKern2 P_FloatKern3.
Import ListNotations.
Local Open Scope R_scope.

Definition uu : R := bpow radix2 (-53).
Definition ee : R := bpow radix2 (-1075).
Lemma uu_val : uu = / 9007199254740992.
Proof. reflexivity. Qed.
Lemma uu_pos : 0 < uu.
Proof. apply bpow_gt_0. Qed.
Lemma ee_pos : 0 < ee.
Proof. apply bpow_gt_0. Qed.
Lemma ee_small : ee <= uu / 1024.
Proof. unfold ee, uu. replace (bpow radix2 (-53) / 1024) with (bpow radix2 (-63)); [apply bpow_le; lia|]. change (bpow radix2 (-53)) with (bpow radix2 (-63 + 10)). rewrite bpow_plus. change (bpow radix2 10) with 1024. field. Qed.
Lemma rd_err x : Rabs (rd b64 x - x) <= uu * Rabs x + ee.
Proof.
  destruct (error_N_FLT radix2 (-1074) 53 ltac:(reflexivity) (fun z => negb (Z.even z)) x) as [a [b [A [B [_ E]]]]].
  change (rd b64 x) with (round radix2 (FLT_exp (-1074) 53) (Znearest (fun z => negb (Z.even z))) x). rewrite E. replace (x * (1 + a) + b - x) with (a * x + b) by ring.
  eapply Rle_trans; [apply Rabs_triang|]. rewrite Rabs_mult. assert (PX := Rabs_pos x).
  assert (EU : / 2 * bpow radix2 (- (53) + 1) = uu) by (unfold uu; change (- (53) + 1)%Z with (-53 + 1)%Z; rewrite bpow_S; lra).
  assert (EE : / 2 * bpow radix2 (-1074) = ee) by (unfold ee; change (-1074)%Z with (-1075 + 1)%Z; rewrite bpow_S; lra).
  assert (A' : Rabs a <= uu) by lra. assert (B' : Rabs b <= ee) by lra. nra.
Qed.
Lemma rd_err_pos x : 0 <= x -> x - (uu * x + ee) <= rd b64 x <= x + (uu * x + ee).
Proof. intro H. assert (E := rd_err x). rewrite (Rabs_right x) in E by lra. apply Rabs_le_inv in E. lra. Qed.

(** ---- sums ---- *)
Definition re (v : fval) : R := match v with Fin x => x | _ => 0 end.
Fixpoint total (l : list fval) : R := match l with [] => 0 | v :: t => re v + total t end.
Lemma total_app a b : total (a ++ b) = total a + total b.
Proof. induction a as [|x a IH]; cbn [app total]; [lra|]. rewrite IH. lra. Qed.
Lemma total_perm a b : Permutation a b -> total a = total b.
Proof. induction 1; cbn [total]; lra. Qed.
Lemma total_nonneg l : (forall v, In v l -> exists x, v = Fin x /\ 0 <= x) -> 0 <= total l.
Proof.
  induction l as [|v l IH]; intro H; cbn [total]; [lra|]. destruct (H v (or_introl eq_refl)) as [x [-> Hx]]. assert (0 <= total l) by (apply IH; intros w Hw; apply H; now right). cbn [re]. lra.
Qed.
Lemma adds_err l a : adds b64 l a -> (Z.of_nat (length l) <= 2 ^ 20)%Z -> (forall v, In v l -> exists x, v = Fin x /\ 0 <= x <= bpow radix2 900) ->
  exists r, a = Fin r /\ 0 <= r /\ Rabs (r - total l) <= 2 * (INR (length l) - 1) * (uu * total l + ee).
Proof.
  intros A HL HV.
  assert (SM : forall v, In v l -> small 900 1 v). { intros v Hv. destruct (HV v Hv) as [x [-> B]]. exists x. split; [reflexivity|]. rewrite Rmult_1_l, Rabs_right; lra. }
  revert HL HV SM. induction A as [x|l1 l2 l a b A1 IH1 A2 IH2 P]; intros HL HV SM.
  - destruct (HV x (or_introl eq_refl)) as [r [-> B]]. exists r. split; [reflexivity|]. split; [lra|]. cbn [length total re]. rewrite Rplus_0_r, Rminus_diag_eq, Rabs_R0 by reflexivity. change (INR 1) with 1. lra.
  - assert (EL : length l = (length l1 + length l2)%nat) by (rewrite (Permutation_length P), app_length; reflexivity).
    assert (I1 : forall v, In v l1 -> In v l) by (intros v Hv; apply (Permutation_in _ (Permutation_sym P)), in_or_app; now left).
    assert (I2 : forall v, In v l2 -> In v l) by (intros v Hv; apply (Permutation_in _ (Permutation_sym P)), in_or_app; now right).
    assert (NE : forall k c, adds b64 k c -> (1 <= length k)%nat).
    { clear. induction 1 as [y|k1 k2 k b' c' B1 IH1 B2 IH2 Q]; [cbn; lia|]. rewrite (Permutation_length Q), app_length. lia. }
    assert (N1 := NE _ _ A1). assert (N2 := NE _ _ A2).
    destruct (IH1 ltac:(lia) ltac:(auto) ltac:(auto)) as [r1 [-> [P1 E1]]]. destruct (IH2 ltac:(lia) ltac:(auto) ltac:(auto)) as [r2 [-> [P2 E2]]].
    assert (S12 := adds_small 900 l _ ltac:(lia) (adds_two b64 l1 l2 l _ _ A1 A2 P) ltac:(lia) SM). cbn [fadd] in *.
    destruct (rnd_nonneg (r1 + r2) ltac:(lra)) as [[R|R] P3]; [destruct S12 as [q [Q _]]; congruence|]. rewrite R. eexists. split; [reflexivity|]. split; [exact P3|].
    assert (ET : total l = total l1 + total l2) by (rewrite (total_perm _ _ P); apply total_app). rewrite ET, EL, plus_INR.
    assert (T1 : 0 <= total l1). { apply total_nonneg. intros v Hv. destruct (HV v (I1 v Hv)) as [x [-> B]]. exists x. split; [reflexivity|lra]. }
    assert (T2 : 0 <= total l2). { apply total_nonneg. intros v Hv. destruct (HV v (I2 v Hv)) as [x [-> B]]. exists x. split; [reflexivity|lra]. }
    set (t1 := total l1) in *. set (t2 := total l2) in *. set (n1 := INR (length l1)) in *. set (n2 := INR (length l2)) in *.
    assert (M1 : 1 <= n1) by (change 1 with (INR 1); now apply le_INR). assert (M2 : 1 <= n2) by (change 1 with (INR 1); now apply le_INR).
    assert (M3 : n1 + n2 <= 1048576). { unfold n1, n2. rewrite <- plus_INR, <- EL, INR_IZR_INZ. now apply IZR_le. }
    assert (E3 := rd_err_pos (r1 + r2) ltac:(lra)). apply Rabs_le_inv in E1. apply Rabs_le_inv in E2. assert (U := uu_pos). assert (H := ee_pos). assert (V := uu_val).
    assert (D1 : 2 * (n1 - 1) * (uu * t1 + ee) <= 2 * (n1 + n2 - 2) * (uu * t1) + 2 * (n1 - 1) * ee) by nra.
    assert (D2 : 2 * (n2 - 1) * (uu * t2 + ee) <= 2 * (n1 + n2 - 2) * (uu * t2) + 2 * (n2 - 1) * ee) by nra.
    set (m := n1 + n2 - 2) in *. assert (Hm : 0 <= m <= 1048576) by (unfold m; lra). set (t := t1 + t2) in *. assert (Ht : 0 <= t) by (unfold t; lra).
    assert (D : Rabs (r1 + r2 - t) <= 2 * m * (uu * t + ee)) by (apply Rabs_le; unfold t, m in *; split; nra). apply Rabs_le_inv in D.
    assert (F : uu * (2 * m) <= 1 / 2) by (rewrite V; lra). assert (G : uu * (r1 + r2) <= uu * t + (uu * t + ee) / 2). { assert (0 <= uu * t + ee) by nra. assert (uu * (2 * m * (uu * t + ee)) <= 1 / 2 * (uu * t + ee)) by (rewrite <- Rmult_assoc; apply Rmult_le_compat_r; lra). nra. }
    replace (n1 + n2 - 1) with (m + 1) by (unfold m; ring). apply Rabs_le. assert (0 <= uu * t) by nra. split; nra.
Qed.
(** ---- the squared distance ---- *)
Definition leaf (ab : R * R) : fval := let d := fsub b64 (Fin (fst ab)) (Fin (snd ab)) in fmul b64 d d.
Lemma leaf_err a b : Rabs (a - b) <= bpow radix2 100 -> exists x, leaf (a, b) = Fin x /\ 0 <= x <= bpow radix2 900 /\ Rabs (x - (a - b) * (a - b)) <= 4 * uu * ((a - b) * (a - b)) + 8 * ee.
Proof.
  intro H. unfold leaf. cbn [fst snd]. unfold fsub. cbn [fneg fadd]. change (a + - b) with (a - b). set (q := a - b) in *.
  destruct (rnd_scaled q 1 100 ltac:(lia) ltac:(lia) ltac:(lra)) as [-> B]. rewrite Rmult_1_l in B. cbv zeta. cbn [fmul]. set (d := rd b64 q) in *.
  assert (D2 : Rabs (d * d) <= IZR 1 * bpow radix2 200). { rewrite Rabs_mult, Rmult_1_l. replace (bpow radix2 200) with (bpow radix2 100 * bpow radix2 100) by (rewrite <- bpow_plus; reflexivity). apply Rmult_le_compat; try apply Rabs_pos; exact B. }
  destruct (rnd_scaled (d * d) 1 200 ltac:(lia) ltac:(lia) D2) as [-> B2]. rewrite Rmult_1_l in B2. eexists. split; [reflexivity|].
  assert (Q0 : 0 <= d * d) by nra. assert (P : 0 <= rd b64 (d * d)) by (rewrite <- (rd_0 b64 b64_rounding); now apply rdm). rewrite Rabs_right in B2 by lra.
  split; [split; [exact P|apply Rle_trans with (bpow radix2 200); [exact B2|apply bpow_le; lia]]|].
  assert (E1 := rd_err q). fold d in E1. assert (E2 := rd_err_pos _ Q0). assert (U := uu_pos). assert (E := ee_pos). assert (ES := ee_small). assert (V := uu_val).
  set (D := Rabs q) in *. assert (HD : 0 <= D) by apply Rabs_pos. assert (QD : q * q = D * D) by (unfold D; rewrite <- Rabs_mult, Rabs_right; nra). rewrite QD.
  assert (DD : Rabs (d * d - D * D) <= (uu * D + ee) * ((2 + uu) * D + ee)).
  { rewrite <- QD. replace (d * d - q * q) with ((d - q) * (d + q)) by ring. rewrite Rabs_mult. apply Rmult_le_compat; try apply Rabs_pos; [exact E1|].
    replace (d + q) with ((d - q) + 2 * q) by ring. eapply Rle_trans; [apply Rabs_triang|]. rewrite (Rabs_mult 2 q), (Rabs_right 2) by lra. fold D. lra. }
  assert (C : D <= 1 + D * D) by nra. assert (DD2 : (uu * D + ee) * ((2 + uu) * D + ee) <= (21 / 10) * uu * (D * D) + 4 * ee).
  { replace ((uu * D + ee) * ((2 + uu) * D + ee)) with (uu * (2 + uu) * (D * D) + ee * (uu + 2 + uu) * D + ee * ee) by ring.
    assert (X1 : ee * (uu + 2 + uu) * D <= ee * 3 * (1 + D * D)). { apply Rmult_le_compat; try nra. }
    assert (X2 : ee * 3 * (D * D) <= 3 / 1024 * uu * (D * D)) by (assert (0 <= D * D) by nra; nra). assert (X3 : ee * ee <= ee) by nra. assert (0 <= D * D) by nra. assert (uu * (2 + uu) <= 201 / 100 * uu) by nra. nra. }
  apply Rabs_le_inv in DD. assert (0 <= D * D) by nra. assert (X : uu * (d * d) <= (11 / 10) * uu * (D * D) + ee). { assert (d * d <= D * D + (21 / 10 * uu * (D * D) + 4 * ee)) by lra. assert (uu * (d * d) <= uu * (D * D + (21 / 10 * uu * (D * D) + 4 * ee))) by (apply Rmult_le_compat_l; lra). assert (uu * (21 / 10 * uu * (D * D)) <= 1 / 10 * uu * (D * D)) by nra. nra. }
  apply Rabs_le. split; nra.
Qed.
Lemma sqdist_err sm (u v : point) : sums b64 sm -> u <> [] -> length u = length v -> (Z.of_nat (length u) <= 2 ^ 20)%Z -> (forall a b, In (a, b) (combine u v) -> Rabs (a - b) <= bpow radix2 100) ->
  exists r, sqdist_fl b64 sm u v = Fin r /\ 0 <= r /\ 0 <= sqdist u v /\ Rabs (r - sqdist u v) <= (2 * INR (length u) + 6) * uu * sqdist u v + 40 * INR (length u) * ee.
Proof.
  intros Hs Hu HL HN HB. assert (A : adds b64 (map leaf (combine u v)) (sqdist_fl b64 sm u v)) by exact (Hs _ (squares_some u v Hu HL)).
  assert (LL : length (map leaf (combine u v)) = length u) by (rewrite map_length, combine_length; lia).
  destruct (adds_err _ _ A ltac:(rewrite LL; exact HN)) as [r [E [P B]]].
  { intros w Hw. apply in_map_iff in Hw. destruct Hw as [[a b] [<- Hab]]. destruct (leaf_err a b (HB a b Hab)) as [x [-> [X _]]]. exists x. split; [reflexivity|exact X]. }
  exists r. split; [exact E|]. split; [exact P|]. rewrite LL in B.
  assert (T : 0 <= sqdist u v /\ 0 <= total (map leaf (combine u v)) /\ Rabs (total (map leaf (combine u v)) - sqdist u v) <= 4 * uu * sqdist u v + 8 * INR (length (combine u v)) * ee).
  { unfold sqdist. clear - HB. induction (combine u v) as [|[a b] c IH]; [split; [apply Rle_refl|]; split; [apply Rle_refl|]; cbn [map total length INR]; change (rsum []) with 0; rewrite Rminus_0_r, Rabs_R0; lra|].
    destruct IH as [I0 [I1 I2]]; [intros a' b' Hab; apply HB; now right|]. destruct (leaf_err a b (HB a b (or_introl eq_refl))) as [x [X [X1 X2]]].
    cbn [map]. set (T := total (map leaf c)) in *. change (total (leaf (a, b) :: map leaf c)) with (re (leaf (a, b)) + T). rewrite X. cbn [re fst snd].
    match goal with |- context [rsum (?h :: ?t)] => change (rsum (h :: t)) with (h + rsum t) end. set (W := rsum _) in *. assert (SQ := Rle_0_sqr (a - b)). unfold Rsqr in SQ. split; [lra|]. split; [lra|].
    cbn [length]. rewrite S_INR. apply Rabs_le_inv in X2. apply Rabs_le_inv in I2. apply Rabs_le. split; lra. }
  destruct T as [T0 [T1 T2]]. split; [exact T0|]. replace (length (combine u v)) with (length u) in T2 by (rewrite combine_length; lia).
  set (n := INR (length u)) in *. assert (N : 1 <= n) by (unfold n; change 1 with (INR 1); apply le_INR; destruct u; [contradiction|cbn; lia]). assert (N2 : n <= 1048576) by (unfold n; rewrite INR_IZR_INZ; now apply IZR_le).
  set (T := total _) in *. set (Q := sqdist u v) in *. assert (U := uu_pos). assert (H := ee_pos). assert (V := uu_val). apply Rabs_le_inv in T2.
  assert (F : uu * n <= 1 / 1024) by (rewrite V; lra). assert (G : 2 * (n - 1) * (uu * T + ee) <= (2 * n + 1) * uu * Q + 20 * n * ee).
  { apply Rle_trans with (2 * n * (uu * T + ee)); [assert (0 <= uu * T + ee) by nra; nra|].
    assert (X : uu * T <= uu * Q + (4 * uu * (uu * Q) + 8 * (uu * n) * ee)) by nra. assert (Y : 0 <= uu * Q) by nra.
    assert (X2 : 2 * n * (uu * T) <= 2 * n * (uu * Q + (4 * uu * (uu * Q) + 8 * (uu * n) * ee))) by (apply Rmult_le_compat_l; lra).
    assert (X3 : 2 * n * (4 * uu * (uu * Q)) <= 1 / 2 * (uu * Q)). { replace (2 * n * (4 * uu * (uu * Q))) with (8 * (uu * n) * (uu * Q)) by ring. apply Rmult_le_compat_r; lra. }
    assert (X4 : 2 * n * (8 * (uu * n) * ee) <= n * ee). { replace (2 * n * (8 * (uu * n) * ee)) with (16 * (uu * n) * (n * ee)) by ring. assert (0 <= n * ee) by nra. nra. }
    nra. }
  apply Rabs_le_inv in B. apply Rabs_le. assert (0 <= uu * Q) by nra. assert (0 <= n * ee) by nra. split; nra.
Qed.
