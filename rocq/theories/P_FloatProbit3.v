(** Where the derivatives of comparisons vanish in binary64. *)
From Coquelicot Require Import Coquelicot.
From Coq Require Import Reals ZArith Lra Lia List Bool Permutation.
From Flocq Require Import Core.
From Verif Require Import M_Base M_RBase M_Normal M_PrefProbit M_Float M_FloatProbit S_Float S_FloatProbit P_RBase P_Normal P_Float P_FloatProbit P_FloatProbit2.
Import ListNotations.
Local Open Scope R_scope.

Lemma rd_abs_half x : bpow radix2 (-1074) <= Rabs x -> Rabs x / 2 <= Rabs (rd b64 x).
Proof.
  intro H. destruct (Rcase_abs x) as [N|P].
  - rewrite (Rabs_left x) in * by exact N. assert (K := rd_half _ H). rewrite rd_opp in K. rewrite <- (Rabs_Ropp (rd b64 x)). eapply Rle_trans; [exact K|apply Rle_abs].
  - rewrite (Rabs_right x) in * by exact P. eapply Rle_trans; [apply (rd_half _ H)|apply Rle_abs].
Qed.
(** a difference of 1000 standard deviations is an argument of at least 47, with the same sign *)
Lemma z_large s f p : bpow radix2 (-400) <= s <= bpow radix2 400 -> (forall i, Rabs (f i) <= bpow radix2 500) -> sign p -> dk_of p * (f (v_of p) - f (u_of p)) <= - (1000 * s) ->
  exists z, z_fl b64 s f p = Fin z /\ z <= -47.
Proof.
  intros Hs Hf Hp HD. assert (B0 := bpow_gt_0 radix2 (-400)). destruct (z_finite s f p Hs Hf Hp) as [z Ez]. exists z. split; [exact Ez|]. revert Ez. unfold z_fl. destruct (isqrt_ok s Hs) as [t [k [Ek [T0 [Kt [T1 K1]]]]]]. rewrite Ek. cbn [fmul].
  assert (KK : rd b64 k = k) by (subst k; apply b64_rounding). assert (KD : rd b64 (k * dk_of p) = k * dk_of p) by (destruct Hp as [-> | ->]; [rewrite Rmult_1_r; exact KK|replace (k * -1) with (- k) by ring; rewrite rd_opp, KK; reflexivity]).
  destruct (rnd_scaled (k * dk_of p) 1 400 ltac:(lia) ltac:(lia)) as [-> _]; [destruct Hp as [-> | ->]; rewrite Rabs_mult, (Rabs_right k) by lra; [rewrite Rabs_R1|rewrite (Rabs_left (-1)) by lra]; lra|]. rewrite KD.
  set (d := f (v_of p) - f (u_of p)) in *. unfold fsub. cbn [fneg fadd fmul]. change (f (v_of p) + - f (u_of p)) with d. assert (BD : Rabs d <= IZR 2 * bpow radix2 500) by (unfold d; assert (A1 := Hf (v_of p)); assert (A2 := Hf (u_of p)); unfold Rminus; eapply Rle_trans; [apply Rabs_triang|rewrite Rabs_Ropp; lra]).
  destruct (rnd_scaled d 2 500 ltac:(lia) ltac:(lia) BD) as [-> _]. cbn [fmul]. set (r := rd b64 d) in *.
  assert (BT : bpow radix2 (-1074) <= 1000 * s) by (assert (bpow radix2 (-1074) <= bpow radix2 (-400)) by (apply bpow_le; lia); lra).
  assert (R : dk_of p * r <= - (500 * s)).
  { destruct Hp as [Hp|Hp]; rewrite Hp in *.
    - assert (K := rd_half (- d) ltac:(lra)). rewrite rd_opp in K. fold r in K. lra.
    - assert (K := rd_half d ltac:(lra)). fold r in K. lra. }
  assert (KL : / (8 * s) <= k).
  { assert (I : / (4 * s) <= 1 / t) by (unfold Rdiv; rewrite Rmult_1_l; apply Rinv_le_contravar; lra). assert (J : bpow radix2 (-1074) <= 1 / t). { eapply Rle_trans; [|exact I]. apply Rle_trans with (bpow radix2 (-402)); [apply bpow_le; lia|]. replace (bpow radix2 (-402)) with (/ bpow radix2 402) by (rewrite <- bpow_opp; reflexivity). apply Rinv_le_contravar; [lra|]. change 402%Z with (2 + 400)%Z. rewrite bpow_plus. change (bpow radix2 2) with 4. lra. }
    assert (K := rd_half _ J). rewrite <- Kt in K. replace (/ (8 * s)) with (/ (4 * s) / 2) by (field; lra). lra. }
  assert (M : k * dk_of p * r <= IZR (-47)).
  { replace (k * dk_of p * r) with (k * (dk_of p * r)) by ring. assert (Q : / (8 * s) * (500 * s) = 125 / 2) by (field; lra). assert (0 < / (8 * s)) by (apply Rinv_0_lt_compat; lra). nra. }
  assert (M2 := rdm _ _ M). rewrite (rd_int b64 b64_rounding (-47)) in M2 by lia. unfold rnd. destruct (Rleb (huge b64) _); [discriminate|]. destruct (Rleb _ _); [discriminate|]. intro Ez. injection Ez as <-. exact M2.
Qed.
Lemma zero_mul a : finite a -> fmul b64 (Fin 0) a = Fin 0.
Proof. intros [x ->]. cbn [fmul]. rewrite Rmult_0_l. destruct (rnd_between b64 b64_rounding 0 0 0 ltac:(lia) ltac:(lia) ltac:(lra)) as [-> _]. now rewrite (rd_0 b64 b64_rounding). Qed.
Lemma mul_zero a : finite a -> fmul b64 a (Fin 0) = Fin 0.
Proof. intros [x ->]. cbn [fmul]. rewrite Rmult_0_r. destruct (rnd_between b64 b64_rounding 0 0 0 ltac:(lia) ltac:(lia) ltac:(lra)) as [-> _]. now rewrite (rd_0 b64 b64_rounding). Qed.
Lemma add_zero : fadd b64 (Fin 0) (Fin 0) = Fin 0.
Proof. cbn [fadd]. rewrite Rplus_0_r. destruct (rnd_between b64 b64_rounding 0 0 0 ltac:(lia) ltac:(lia) ltac:(lra)) as [-> _]. now rewrite (rd_0 b64 b64_rounding). Qed.
Lemma vec_zero idx v M : Forall (eq (Fin 0)) v -> (forall a, M a = Fin 0) -> forall a, add_up_vec_fl b64 idx v M a = Fin 0.
Proof.
  unfold add_up_vec_fl. intro H. revert idx M. induction H as [|x v <- Hv IH]; intros [|i idx] M HM a; cbn [combine fold_left]; auto. apply IH. intro b. unfold add_vec_fl. cbn [fst snd]. destruct (Nat.eqb b i); rewrite ?HM; [apply add_zero|reflexivity].
Qed.
Lemma mat_zero idx v M : Forall (eq (Fin 0)) v -> (forall a b, M a b = Fin 0) -> forall a b, add_up_mat_fl b64 idx v M a b = Fin 0.
Proof.
  unfold add_up_mat_fl. intro H. revert idx M. induction H as [|x v <- Hv IH]; intros [|i idx] M HM a b; cbn [combine fold_left]; auto. apply IH. intros a' b'. unfold add_mat_fl. cbn [fst snd]. destruct (_ && _); rewrite ?HM; [apply add_zero|reflexivity].
Qed.
Lemma neg_zero v : Forall (eq (Fin 0)) v -> Forall (eq (Fin 0)) (map fneg v).
Proof. induction 1 as [|x v <- Hv IH]; cbn; constructor; auto. now rewrite Ropp_0. Qed.
Section Violated.
Variables (s : R) (y : list pair) (f : nat -> R).
Hypothesis Hs : bpow radix2 (-400) <= s <= bpow radix2 400.
Hypothesis Hf : forall i, Rabs (f i) <= bpow radix2 500.
Hypothesis Hy : Forall sign y.
Hypothesis HV : forall p, In p y -> dk_of p * (f (v_of p) - f (u_of p)) <= - (1000 * s).
Lemma z_far p : In p y -> exists z, z_fl b64 s f p = Fin z /\ z <= -47.
Proof. intro Hp. apply z_large; auto. now apply (proj1 (Forall_forall _ _) Hy). Qed.
Lemma no_pull i : derv_fl b64 s y f i = Fin 0.
Proof.
  unfold derv_fl. assert (D : Forall (eq (Fin 0)) (map (derv_pair_fl b64 s f) y)). { apply Forall_forall. intros x Hx. apply in_map_iff in Hx. destruct Hx as [p [<- Hp]]. unfold derv_pair_fl. destruct (z_far p Hp) as [z [-> Z]]. destruct (ratio_ok z) as [r [r2 [-> [_ [_ F]]]]]. destruct (F ltac:(rewrite Rabs_left; lra)) as [-> _]. cbn [fst]. rewrite mul_zero by now eexists. rewrite zero_mul; [reflexivity|]. eapply small_finite. apply isqrt_small, Hs. }
  apply vec_zero; [exact D|]. intro a. apply vec_zero; [now apply neg_zero|reflexivity].
Qed.
Lemma no_curvature i j : W_fl b64 s y f i j = Fin 0.
Proof.
  unfold W_fl. assert (D : Forall (eq (Fin 0)) (map (W_pair_fl b64 s f) y)). { apply Forall_forall. intros x Hx. apply in_map_iff in Hx. destruct Hx as [p [<- Hp]]. unfold W_pair_fl. destruct (z_far p Hp) as [z [-> Z]]. destruct (paren_ok z) as [r [-> [_ F]]]. rewrite (F ltac:(rewrite Rabs_left; lra)). rewrite mul_zero by now eexists. rewrite zero_mul; [reflexivity|]. unfold i2var_fl. eapply small_finite. apply (small_mul 400 1 400 1); try lia; apply isqrt_small, Hs. }
  repeat (apply mat_zero; [try apply neg_zero; exact D|intros ? ?]). reflexivity.
Qed.
Lemma loglik_low sm : (Z.of_nat (length y) <= 2 ^ 40)%Z -> sums b64 sm -> y <> [] -> exists x, log_likelihood_fl b64 sm s y f = Fin x /\ x <= -450.
Proof.
  intros Hn SM NE. unfold log_likelihood_fl. set (l := map (fun p => log_ndtr_fl b64 (fclip (-30) 100 (z_fl b64 s f p))) y). assert (L : length l = length y) by apply map_length. destruct (adds_between l (sm l) (-512) (-450)) as [x [E B]]; try lia.
  - apply SM. intro K. rewrite K in L. destruct y; [now apply NE|discriminate].
  - intros v Hv. apply in_map_iff in Hv. destruct Hv as [p [<- Hp]]. destruct (z_far p Hp) as [z [-> Z]]. cbn [fclip log_ndtr_fl]. rewrite rclip_low by lra. assert (LB := log_ndtr_bounds (-30) ltac:(lra)).
    assert (U : log_ndtr (-30) <= -450). { unfold log_ndtr. rewrite <- (ln_exp (-450)). assert (T := ndtr_left_tail (-30) ltac:(lra)). replace (- (-30) ^ 2 / 2) with (-450) in T by lra. assert (P := exp_pos (-450)). apply ln_le; [apply ndtr_range|lra]. }
    destruct (rnd_between b64 b64_rounding (log_ndtr (-30)) (-512) (-450) ltac:(lia) ltac:(lia) ltac:(lra)) as [-> B]. eexists. split; [reflexivity|exact B].
  - exists x. split; [exact E|]. assert (N1 : (1 <= Z.of_nat (length l))%Z) by (rewrite L; destruct y; [now destruct NE|cbn; lia]). apply IZR_le in N1. rewrite !mult_IZR in B. lra.
Qed.
End Violated.
(** the smallest positive noise: equal latent values give NaN *)
Lemma tiny_sigma : let s := bpow radix2 (-1074) in 0 < s /\ derv_fl b64 s [(1%Z, 0%nat, 1%nat)] (fun _ => 0) 0%nat = NaN.
Proof.
  cbv zeta. assert (P := bpow_gt_0 radix2 (-1074)). split; [exact P|]. assert (S := sqrt2_fl). assert (Z : z_fl b64 (bpow radix2 (-1074)) (fun _ => 0) (1%Z, 0%nat, 1%nat) = NaN).
  { unfold z_fl, isqrt_fl. cbn [fmul]. assert (T : 0 < rd b64 (bpow radix2 (-1074) * rd b64 (sqrt 2)) <= IZR 2 * bpow radix2 (-1074)).
    { split; [apply b64_tiny; nra|]. rewrite <- (rd_scaled 2 (-1074)) by lia. apply rdm. nra. }
    destruct (rnd_scaled (bpow radix2 (-1074) * rd b64 (sqrt 2)) 2 (-1074) ltac:(lia) ltac:(lia)) as [-> _]; [rewrite Rabs_right by nra; nra|]. cbn [fdiv]. set (t := rd b64 (bpow radix2 (-1074) * rd b64 (sqrt 2))) in *. destruct (Req_EM_T t 0); [lra|].
    assert (B : bpow radix2 1073 <= 1 / t). { unfold Rdiv. rewrite Rmult_1_l. replace (bpow radix2 1073) with (/ bpow radix2 (-1073)) by (rewrite <- bpow_opp; reflexivity). apply Rinv_le_contravar; [lra|]. change (-1073)%Z with (1 + -1074)%Z. rewrite bpow_plus. exact (proj2 T). }
    assert (R := rdm _ _ B). rewrite <- (Rmult_1_l (bpow radix2 1073)), (rd_scaled 1) in R by lia. rewrite Rmult_1_l in R. assert (H : huge b64 <= rd b64 (1 / t)) by (eapply Rle_trans; [apply bpow_le|exact R]; lia). unfold rnd at 1. rewrite (proj2 (Rleb_true _ _) H). change (dk_of (1%Z, 0%nat, 1%nat)) with 1. cbn [fmul]. unfold inf_times at 1. destruct (Rltb 0 1) eqn:R01; [|apply Rltb_false in R01; lra].
    unfold fsub. cbn [fneg fadd]. rewrite Ropp_0, Rplus_0_r. destruct (rnd_between b64 b64_rounding 0 0 0 ltac:(lia) ltac:(lia) ltac:(lra)) as [-> _]. rewrite (rd_0 b64 b64_rounding). cbn [fmul]. apply inf_times_0. }
  unfold derv_fl. cbn [map]. unfold derv_pair_fl. rewrite Z. reflexivity.
Qed.
