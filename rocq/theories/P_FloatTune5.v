(** The rating tuning objective in binary64 against the exact one. *)
From Coquelicot Require Import Coquelicot.
From Coq Require Import Reals ZArith Lra Lia List Bool Permutation.
From Flocq Require Import Core.
From Verif Require Import M_Base M_RBase M_Normal M_User M_Float M_FloatProbit M_FloatPer M_FloatTune S_User S_Float P_RBase P_Normal P_Float P_FloatNorm P_FloatKern P_FloatKern3 P_FloatKern5 P_FloatTune P_FloatTune3 P_FloatTune4 P_User2 P_User4.
Import ListNotations.
Local Open Scope R_scope.

Lemma npdf_le1 x : 0 <= npdf x <= 1.
Proof.
  unfold npdf. pose proof (exp_pos (- x ^ 2 / 2)) as P. assert (L : exp (- x ^ 2 / 2) <= 1).
  { rewrite <- exp_0. assert (H : - x ^ 2 / 2 <= 0) by nra. destruct H as [H| ->]; [apply Rlt_le, exp_increasing, H|lra]. }
  assert (S : 1 <= sqrt (2 * PI)) by (rewrite <- sqrt_1 at 1; apply sqrt_le_1; pose proof PI2_3_2; lra).
  split; [apply Rmult_le_pos; [lra|apply Rlt_le, Rinv_0_lt_compat; lra]|].
  apply (Rmult_le_reg_r (sqrt (2 * PI))); [lra|]. unfold Rdiv at 1. rewrite Rmult_assoc, Rinv_l by lra. lra.
Qed.
Lemma ndtr_lip_le x y : x <= y -> 0 <= ndtr y - ndtr x <= y - x.
Proof.
  intros H. split; [pose proof (ndtr_le x y H); lra|]. destruct H as [H| ->]; [|lra].
  destruct (MVT_gen ndtr x y npdf) as [c [_ E]].
  - intros t _. apply ndtr_derive.
  - intros t _. apply ndtr_continuous.
  - rewrite E. pose proof (npdf_le1 c). nra.
Qed.
Lemma ndtr_lip x y : Rabs (ndtr x - ndtr y) <= Rabs (x - y).
Proof.
  destruct (Rle_dec x y) as [H|H].
  - pose proof (ndtr_lip_le x y H). rewrite !Rabs_left1 by lra. lra.
  - pose proof (ndtr_lip_le y x ltac:(lra)). rewrite !Rabs_pos_eq by lra. lra.
Qed.
Lemma ndtr_nine x : 9 <= x -> 1 - u64 <= ndtr x < 1.
Proof.
  intros H. split; [|apply ndtr_range]. pose proof (ndtr_tail x ltac:(lra)) as T.
  assert (L : exp (- x ^ 2 / 2) <= exp (- (40))) by (assert (- x ^ 2 / 2 < - (40)) by nra; now apply Rlt_le, exp_increasing).
  assert (E : exp (- (40)) <= u64).
  { rewrite exp_Ropp. change u64 with uu. rewrite uu_val. apply Rinv_le_contravar; [lra|].
    replace 40 with (20 * 2) by lra. assert (B : 94906266 <= exp 20).
    { replace 20 with (5 + 5 + 5 + 5) by lra. rewrite !exp_plus. assert (C : 100 <= exp 5).
      { replace 5 with (1 + 1 + 1 + 1 + 1) by lra. rewrite !exp_plus. assert (D : 64 / 25 <= exp 1).
        { replace (exp 1) with (exp (/ 8 + / 8 + / 8 + / 8) * exp (/ 8 + / 8 + / 8 + / 8)) by (rewrite <- exp_plus; f_equal; lra).
          rewrite !exp_plus. pose proof (exp_ineq1_le (/ 8)) as K. set (t := exp (/ 8)) in *. clearbody t.
          assert (K2 : 81 / 64 <= t * t) by nra. replace (t * t * t * t) with ((t * t) * (t * t)) by ring. set (w := t * t) in *. clearbody w.
          assert (K4 : 6561 / 4096 <= w * w) by (clear - K2; nra). set (z := w * w) in *. clearbody z. clear - K4. nra. }
        set (t := exp 1) in *. clearbody t. assert (D2 : 4096 / 625 <= t * t) by (clear - D; nra). replace (t * t * t * t * t) with ((t * t) * (t * t) * t) by ring.
        set (w := t * t) in *. clearbody w. assert (D4 : 42 <= w * w) by (clear - D2; nra). set (z := w * w) in *. clearbody z. clear - D D4. nra. }
      set (t := exp 5) in *. clearbody t. replace (t * t * t * t) with ((t * t) * (t * t)) by ring. assert (C2 : 10000 <= t * t) by (clear - C; nra).
      set (w := t * t) in *. clearbody w. clear - C2. nra. }
    replace (20 * 2) with (20 + 20) by lra. rewrite exp_plus. nra. }
  pose proof u64_pos. lra.
Qed.
Lemma scale_near s : bpow radix2 (-100) <= s <= bpow radix2 100 -> exists c, fdiv b64 (Fin 1) (fmul b64 (rnd b64 (sqrt 2)) (Fin s)) = Fin c /\ 0 <= c <= bpow radix2 110 /\
  1 / (sqrt 2 * s) * (1 - 4 * u64) <= c <= 1 / (sqrt 2 * s) * (1 + 4 * u64).
Proof.
  intros [L H]. assert (S2 : 1 <= sqrt 2 <= 2) by (pose proof (sqrt_pos 2); assert (sqrt 2 * sqrt 2 = 2) by (apply sqrt_sqrt; lra); split; nra).
  destruct (rnd_between b64 R64 (sqrt 2) 1 2) as [-> B2]; [lia|lia|exact S2|].
  assert (P1 : bpow radix2 (-1022) <= bpow radix2 (-100)) by (apply bpow_le; lia). assert (P2 : bpow radix2 (-1022) <= 1) by (change 1 with (bpow radix2 0); apply bpow_le; lia).
  pose proof (rd_rel (sqrt 2) ltac:(lra)) as Rq. set (q := rd b64 (sqrt 2)) in *. cbn [fmul].
  assert (P0 : 0 < bpow radix2 (-100)) by apply bpow_gt_0.
  assert (Q1 : bpow radix2 (-100) <= q * s <= 2 * bpow radix2 100) by (clear - L H B2 P0; split; nra).
  assert (E101 : 2 * bpow radix2 100 = bpow radix2 101) by (change 101%Z with (1 + 100)%Z; rewrite bpow_plus; reflexivity). rewrite E101 in Q1.
  destruct (rnd_small (q * s) 101) as [-> Bw]; [lia|lia|lra|]. pose proof (rd_rel (q * s) ltac:(lra)) as Rw.
  assert (W1 : bpow radix2 (-100) <= rd b64 (q * s)) by (rewrite <- (rd_bpow (-100)) at 1 by lia; apply (rd_le b64 R64); lra).
  set (w := rd b64 (q * s)) in *. cbn [fdiv]. destruct (Req_EM_T w 0) as [Z|_]; [lra|].
  assert (I1 : bpow radix2 (-101) <= 1 / w <= bpow radix2 100).
  { unfold Rdiv. rewrite Rmult_1_l. split; [change (-101)%Z with (- (101))%Z|change 100%Z with (- (-100))%Z]; rewrite bpow_opp; apply Rinv_le_contravar; lra. }
  assert (P3 : bpow radix2 (-1022) <= bpow radix2 (-101)) by (apply bpow_le; lia). assert (P4 : 0 < bpow radix2 (-101)) by apply bpow_gt_0.
  destruct (rnd_small (1 / w) 100) as [-> Bc]; [lia|lia|lra|]. pose proof (rd_rel (1 / w) ltac:(lra)) as Rc. set (c := rd b64 (1 / w)) in *. exists c. split; [reflexivity|].
  assert (P5 : bpow radix2 100 <= bpow radix2 110) by (apply bpow_le; lia). split; [lra|].
  change (bpow radix2 (-53)) with u64 in *. pose proof u64_pos as Pu. pose proof u64_small as Us. set (u := u64) in *. clearbody u.
  assert (D0 : 0 < sqrt 2 * s) by (apply Rmult_lt_0_compat; lra). set (D := sqrt 2 * s) in *.
  assert (Wlo : D * ((1 - u) * (1 - u)) <= w).
  { eapply Rle_trans; [|apply Rw]. rewrite <- Rmult_assoc. apply Rmult_le_compat_r; [lra|]. unfold D. replace (sqrt 2 * s * (1 - u)) with (sqrt 2 * (1 - u) * s) by ring. apply Rmult_le_compat_r; lra. }
  assert (Whi : w <= D * ((1 + u) * (1 + u))).
  { eapply Rle_trans; [apply Rw|]. rewrite <- Rmult_assoc. apply Rmult_le_compat_r; [lra|]. unfold D. replace (sqrt 2 * s * (1 + u)) with (sqrt 2 * (1 + u) * s) by ring. apply Rmult_le_compat_r; lra. }
  assert (w0 : 0 < w) by lra. clearbody w c D. clear - Rc Wlo Whi w0 D0 Pu Us.
  split.
  - eapply Rle_trans; [|apply Rc]. apply (Rmult_le_reg_r (D * w)); [nra|]. replace (1 / D * (1 - 4 * u) * (D * w)) with ((1 - 4 * u) * w) by (field; lra). replace (1 / w * (1 - u) * (D * w)) with (D * (1 - u)) by (field; lra).
    apply Rle_trans with ((1 - 4 * u) * (D * ((1 + u) * (1 + u)))); [apply Rmult_le_compat_l; lra|]. replace ((1 - 4 * u) * (D * ((1 + u) * (1 + u)))) with (D * ((1 - 4 * u) * ((1 + u) * (1 + u)))) by ring. apply Rmult_le_compat_l; [lra|]. nra.
  - eapply Rle_trans; [apply Rc|]. apply (Rmult_le_reg_r (D * w)); [nra|]. replace (1 / D * (1 + 4 * u) * (D * w)) with ((1 + 4 * u) * w) by (field; lra). replace (1 / w * (1 + u) * (D * w)) with (D * (1 + u)) by (field; lra).
    apply Rle_trans with ((1 + 4 * u) * (D * ((1 - u) * (1 - u)))); [|apply Rmult_le_compat_l; lra]. replace ((1 + 4 * u) * (D * ((1 - u) * (1 - u)))) with (D * ((1 + 4 * u) * ((1 - u) * (1 - u)))) by ring. apply Rmult_le_compat_l; [lra|]. nra.
Qed.
Lemma rated_near s d : bpow radix2 (-100) <= s <= bpow radix2 100 -> 0 < Rabs d <= bpow radix2 800 ->
  exists x, rated_fl b64 s d = Fin x /\ Rabs (x - pcorrect s d) <= 64 * u64.
Proof.
  intros Hs Hd. destruct (scale_near s Hs) as [c [E [Bc Rc]]]. unfold rated_fl. cbv zeta. rewrite E. destruct (Req_EM_T (Rabs d) 0) as [Z|_]; [lra|].
  cbn [fabs fmul]. assert (M0 : 0 <= Rabs d * c <= bpow radix2 910).
  { split; [apply Rmult_le_pos; lra|]. change 910%Z with (800 + 110)%Z. rewrite bpow_plus. apply Rmult_le_compat; lra. }
  destruct (rnd_small (Rabs d * c) 910) as [-> Ba]; [lia|lia|exact M0|]. cbn [ndtr_fl]. set (a := rd b64 (Rabs d * c)) in *.
  destruct (rnd_unit b64 R64 (ndtr a)) as [-> _]; [pose proof (ndtr_range a); lra|]. eexists. split; [reflexivity|].
  pose proof (rd_off (ndtr a) ltac:(pose proof (ndtr_range a); lra)) as On. pose proof (ndtr_range a) as Ra. pose proof (rd_err_pos (Rabs d * c) (proj1 M0)) as Oa. fold a in Oa.
  assert (T : ee <= u64) by (apply bpow_le; lia). change uu with u64 in Oa. pose proof u64_pos as Pu. pose proof u64_small as Us.
  change (pcorrect s d) with (ndtr (Rabs d * (1 / (sqrt 2 * s)))). set (k := 1 / (sqrt 2 * s)) in *. set (x := Rabs d * k) in *.
  assert (k0 : 0 < k) by (unfold k; apply Rdiv_lt_0_compat; [lra|apply Rmult_lt_0_compat; [apply sqrt_lt_R0; lra|pose proof (bpow_gt_0 radix2 (-100)); lra]]).
  assert (x0 : 0 < x) by (apply Rmult_lt_0_compat; lra).
  assert (Y : x * (1 - 4 * u64) <= Rabs d * c <= x * (1 + 4 * u64)) by (unfold x; split; rewrite Rmult_assoc; apply Rmult_le_compat_l; lra).
  assert (A : x * (1 - 6 * u64) - u64 <= a <= x * (1 + 6 * u64) + u64).
  { set (y := Rabs d * c) in *. clearbody y x a. set (u := u64) in *. clearbody u. clear - Oa Y T Pu Us x0. assert (u * y <= 2 * (x * u)) by (assert (y <= 2 * x) by nra; nra). lra. }
  assert (On' : Rabs (rd b64 (ndtr a) - ndtr a) <= 2 * u64) by (clear - On Ra Pu; nra).
  assert (N : Rabs (ndtr a - ndtr x) <= 61 * u64).
  { destruct (Rle_lt_dec x 10) as [X|X].
    - eapply Rle_trans; [apply ndtr_lip|]. apply Rabs_le. clear - A X x0 Pu. split; nra.
    - assert (A9 : 9 <= a) by (clear - A X Us Pu; nra). pose proof (ndtr_nine a A9). pose proof (ndtr_nine x ltac:(lra)). apply Rabs_le. lra. }
  replace (rd b64 (ndtr a) - ndtr x) with ((rd b64 (ndtr a) - ndtr a) + (ndtr a - ndtr x)) by ring. eapply Rle_trans; [apply Rabs_triang|]. lra.
Qed.
Lemma rated_total s ds : bpow radix2 (-100) <= s <= bpow radix2 100 -> Forall (fun d => Rabs d <= bpow radix2 800) ds ->
  cnt (map (rated_fl b64 s) ds) = length (untied ds) /\
  Rabs (total (map fill (map (rated_fl b64 s) ds)) - rsum (map (pcorrect s) (untied ds))) <= INR (length (untied ds)) * (64 * u64) /\
  0 <= total (map fill (map (rated_fl b64 s) ds)) <= INR (length (untied ds)) /\
  (forall v, In v (map fill (map (rated_fl b64 s) ds)) -> exists x, v = Fin x /\ 0 <= x <= bpow radix2 900).
Proof.
  intros Hs H. assert (s0 : 0 < s) by (pose proof (bpow_gt_0 radix2 (-100)); lra). assert (K9 : 1 <= bpow radix2 900) by (change 1 with (bpow radix2 0); apply bpow_le; lia).
  unfold cnt. induction H as [|d ds Hd H [IH1 [IH2 [IH3 IH4]]]].
  - cbn. rewrite Rminus_diag_eq, Rabs_R0 by reflexivity. repeat split; try lra. intros v [].
  - destruct (Req_EM_T (Rabs d) 0) as [Z|Z].
    + assert (D0 : d = 0) by (destruct (Req_EM_T d 0) as [|N]; [assumption|now apply Rabs_no_R0 in N]).
      assert (E : rated_fl b64 s d = NaN) by now apply rated_ok. unfold untied in *. cbn [map filter]. rewrite E. destruct (Req_EM_T (Rabs d) 0) as [_|]; [|contradiction].
      cbn [fill fisnan negb total re]. split; [exact IH1|]. rewrite Rplus_0_l. split; [exact IH2|]. split; [exact IH3|]. intros v [<-|Hv]; [exists 0; split; [reflexivity|lra]|now apply IH4].
    + assert (D0 : d <> 0) by (intros ->; apply Z, Rabs_R0). assert (Ad : 0 < Rabs d) by now apply Rabs_pos_lt.
      destruct (rated_near s d Hs (conj Ad Hd)) as [x [E D]]. destruct (proj2 (rated_ok s d s0) D0) as [x' [E' B]]. rewrite E in E'. assert (x' = x) by congruence. subst x'.
      unfold untied in *. cbn [map filter]. rewrite E. destruct (Req_EM_T (Rabs d) 0) as [|_]; [contradiction|].
      cbn [fill fisnan negb total re length map rsum]. rewrite S_INR. split; [now rewrite IH1|]. apply Rabs_le_inv in IH2. apply Rabs_le_inv in D. split; [apply Rabs_le; lra|]. split; [lra|].
      intros v [<-|Hv]; [exists x; split; [reflexivity|lra]|now apply IH4].
Qed.
Lemma untied_len ds : (length (untied ds) <= length ds)%nat.
Proof. unfold untied. induction ds as [|d ds IH]; cbn [filter length]; [lia|]. destruct (Req_EM_T (Rabs d) 0); cbn [length]; lia. Qed.
Lemma rate_mean_near sm s ds : sums b64 sm -> bpow radix2 (-100) <= s <= bpow radix2 100 -> (exists d, In d ds /\ d <> 0) -> (Z.of_nat (length ds) <= 2 ^ 20)%Z -> Forall (fun d => Rabs d <= bpow radix2 800) ds ->
  exists m, nanmean_fl b64 sm (map (rated_fl b64 s) ds) = Fin m /\ 0 <= m <= 1 /\ Rabs (m - avg (pcorrect s) (untied ds)) <= bpow radix2 23 * u64.
Proof.
  intros Hsm Hs Hex N H. set (l := map (rated_fl b64 s) ds). pose proof u64_pos as Pu. assert (s0 : 0 < s) by (pose proof (bpow_gt_0 radix2 (-100)); lra).
  destruct (rated_total s ds Hs H) as [F2 [F3 [F4 F5]]]. fold l in F2, F3, F4, F5. pose proof (untied_some ds Hex) as Hu.
  assert (Hne : ds <> []) by (destruct Hex as [d [Hd _]]; intros ->; destruct Hd).
  assert (Hl : l <> []) by (unfold l; destruct ds; [contradiction|discriminate]). assert (Ll : length l = length ds) by apply map_length.
  destruct (mean_ok sm l Hsm Hl) as [_ [M _]]; [rewrite Ll; lia|intros v; now apply rated_counted|].
  destruct M as [m [E B]].
  { destruct Hex as [d [Hd D0]]. exists (rated_fl b64 s d). split; [now apply in_map|]. destruct (proj2 (rated_ok s d s0) D0) as [x [-> _]]. discriminate. }
  exists m. split; [exact E|]. split; [lra|].
  unfold nanmean_fl in E. change (map (fun v => if fisnan v then Fin 0 else v) l) with (map fill l) in E. fold (cnt l) in E. rewrite F2 in E.
  assert (Hf : map fill l <> []) by (destruct l; [contradiction|discriminate]). assert (Lf : length (map fill l) = length ds) by (rewrite map_length; exact Ll).
  destruct (adds_err (map fill l) (sm (map fill l)) (Hsm _ Hf)) as [r [Er [Pr Or]]]; [rewrite Lf; exact N|exact F5|].
  rewrite Er in E. cbn [fdiv] in E. rewrite Lf in Or. set (n := INR (length (untied ds))) in *. set (K := INR (length ds)) in *.
  assert (N1 : 1 <= n) by (apply counts_pos; destruct (untied ds); [contradiction|discriminate]).
  assert (NK : n <= K) by (apply le_INR, untied_len).
  assert (N20 : K <= bpow radix2 20) by (unfold K; rewrite INR_IZR_INZ; change (bpow radix2 20) with (IZR (2 ^ 20)); apply IZR_le; exact N).
  destruct (Req_EM_T n 0) as [Z|_]; [lra|].
  assert (T : ee <= u64) by (apply bpow_le; lia). change uu with u64 in Or. set (t := total (map fill l)) in *. unfold avg. fold n. set (S := rsum (map (pcorrect s) (untied ds))) in *.
  assert (Or' : Rabs (r - t) <= 4 * K * (u64 * n)).
  { eapply Rle_trans; [exact Or|]. assert (u64 * t + ee <= 2 * (u64 * n)) by nra. assert (0 <= u64 * t + ee) by (assert (0 < ee) by apply bpow_gt_0; nra). nra. }
  apply Rabs_le_inv in Or'. apply Rabs_le_inv in F3.
  assert (Q : Rabs (r / n - S / n) <= 4 * K * u64 + 64 * u64).
  { replace (r / n - S / n) with ((r - S) * / n) by (field; lra). rewrite Rabs_mult, (Rabs_pos_eq (/ n)) by (apply Rlt_le, Rinv_0_lt_compat; lra).
    apply (Rmult_le_reg_r n); [lra|]. rewrite Rmult_assoc, Rinv_l, Rmult_1_r by lra. apply Rabs_le. nra. }
  assert (K20 : bpow radix2 20 = 1048576) by reflexivity. assert (K23 : bpow radix2 23 = 8388608) by reflexivity. rewrite K20 in N20. rewrite K23.
  assert (R0 : 0 <= r / n) by (apply Rmult_le_pos; [exact Pr|apply Rlt_le, Rinv_0_lt_compat; lra]).
  assert (Us := u64_small).
  assert (R2 : r / n <= 2).
  { apply (Rmult_le_reg_r n); [lra|]. replace (r / n * n) with r by (field; lra). assert (4 * K * u64 <= 1) by nra. nra. }
  destruct (rnd_between b64 R64 (r / n) 0 2) as [Rr _]; [lia|lia|lra|]. rewrite Rr in E. assert (Em : rd b64 (r / n) = m) by congruence.
  assert (O := rd_off (r / n) R0). rewrite Em in O. apply Rabs_le_inv in O. apply Rabs_le_inv in Q. apply Rabs_le. nra.
Qed.
Lemma miss_near m p M eta : 0 <= m <= 1 -> 0 <= p <= 1 -> 0 <= M <= 1 -> Rabs (m - M) <= eta ->
  exists v, miss_fl b64 (Fin m) p = Fin v /\ Rabs (v - (M - p) * (M - p)) <= 2 * eta + 6 * u64.
Proof.
  intros B Hp BM D. unfold miss_fl, fsub. cbn [fneg fadd]. destruct (rnd_between b64 R64 (m + - p) (-1) 1) as [-> Be]; [lia|lia|lra|]. cbn [fmul].
  assert (Oe := rd_err (m + - p)). set (e := rd b64 (m + - p)) in *. assert (T : ee <= u64) by (apply bpow_le; lia). pose proof u64_pos as Pu. change uu with u64 in Oe.
  assert (Ae : Rabs (m + - p) <= 1) by (apply Rabs_le; lra). assert (Oe' : Rabs (e - (m + - p)) <= 2 * u64) by nra.
  assert (E1 : 0 <= e * e <= 1) by (clear - Be; split; nra). destruct (rnd_unit b64 R64 (e * e) E1) as [-> Bv]. eexists. split; [reflexivity|].
  assert (Ov := rd_off (e * e) (proj1 E1)). assert (Ov' : Rabs (rd b64 (e * e) - e * e) <= 2 * u64).
  { eapply Rle_trans; [exact Ov|]. clear - E1 Pu. nra. }
  assert (Q : Rabs (e * e - (M - p) * (M - p)) <= 2 * (eta + 2 * u64)).
  { apply square_near; [apply Rabs_le; lra|apply Rabs_le; lra|]. replace (e - (M - p)) with ((e - (m + - p)) + (m - M)) by ring. eapply Rle_trans; [apply Rabs_triang|]. lra. }
  replace (rd b64 (e * e) - (M - p) * (M - p)) with ((rd b64 (e * e) - e * e) + (e * e - (M - p) * (M - p))) by ring. eapply Rle_trans; [apply Rabs_triang|]. lra.
Qed.
Lemma rate_obj_near sm s ds p : sums b64 sm -> bpow radix2 (-100) <= s <= bpow radix2 100 -> 0 <= p <= 1 -> (exists d, In d ds /\ d <> 0) -> (Z.of_nat (length ds) <= 2 ^ 20)%Z -> Forall (fun d => Rabs d <= bpow radix2 800) ds ->
  exists v w, rate_obj_fl b64 sm s ds p = Fin v /\ rate_obj s ds p = Some w /\ Rabs (v - w) <= bpow radix2 (-28).
Proof.
  intros Hsm Hs Hp Hex N H. assert (s0 : 0 < s) by (pose proof (bpow_gt_0 radix2 (-100)); lra). destruct (rate_mean_near sm s ds Hsm Hs Hex N H) as [m [E [B D]]]. unfold rate_obj_fl. rewrite E, (rate_value s ds p Hex).
  pose proof (rate_bounds s ds Hex s0) as BM. destruct (miss_near m p (avg (pcorrect s) (untied ds)) _ B Hp ltac:(lra) D) as [v [-> Dv]].
  do 2 eexists. split; [reflexivity|]. split; [reflexivity|]. eapply Rle_trans; [exact Dv|].
  assert (K : bpow radix2 (-28) = 4 * (bpow radix2 23 * u64)) by (unfold u64; rewrite <- bpow_plus; change (-28)%Z with (2 + (23 + -53))%Z; rewrite (bpow_plus radix2 2); reflexivity).
  pose proof u64_pos. assert (K23 : bpow radix2 23 = 8388608) by reflexivity. rewrite K, K23. lra.
Qed.
