(** Gradient, W and log likelihood of comparisons in binary64. *)
From Coquelicot Require Import Coquelicot.
From Coq Require Import Reals ZArith Lra Lia List Bool Permutation.
From Flocq Require Import Core.
From Verif Require Import M_Base M_RBase M_Normal M_PrefProbit M_Float M_FloatProbit S_Float S_FloatProbit P_RBase P_Normal P_Float P_FloatProbit.
Import ListNotations.
Local Open Scope R_scope.

Definition small (e k : Z) (v : fval) : Prop := exists x, v = Fin x /\ Rabs x <= IZR k * bpow radix2 e.
Lemma small_finite e k v : small e k v -> finite v.
Proof. intros [x [-> _]]. now exists x. Qed.
Lemma small_mono e k k' v : (k <= k')%Z -> small e k v -> small e k' v.
Proof. intros H [x [-> L]]. exists x. split; [reflexivity|]. eapply Rle_trans; [exact L|]. apply Rmult_le_compat_r; [apply bpow_ge_0|now apply IZR_le]. Qed.
Lemma small_neg e k v : small e k v -> small e k (fneg v).
Proof. intros [x [-> L]]. exists (- x). split; [reflexivity|]. now rewrite Rabs_Ropp. Qed.
Lemma small_add e k j a b : (0 <= k)%Z -> (0 <= j)%Z -> (k + j <= 2 ^ 53)%Z -> (-1074 <= e <= 970)%Z -> small e k a -> small e j b -> small e (k + j) (fadd b64 a b).
Proof.
  intros Hk Hj H He [x [-> Lx]] [y [-> Ly]]. cbn [fadd]. destruct (rnd_scaled (x + y) (k + j) e ltac:(lia) He) as [-> L]; [|eexists; split; [reflexivity|exact L]].
  rewrite plus_IZR, Rmult_plus_distr_r. eapply Rle_trans; [apply Rabs_triang|lra].
Qed.
Lemma small_mul e k e' k' a b : (0 <= k)%Z -> (0 <= k')%Z -> (k * k' <= 2 ^ 53)%Z -> (-1074 <= e + e' <= 970)%Z -> small e k a -> small e' k' b -> small (e + e') (k * k') (fmul b64 a b).
Proof.
  intros Hk Hk' H He [x [-> Lx]] [y [-> Ly]]. cbn [fmul]. destruct (rnd_scaled (x * y) (k * k') (e + e') ltac:(lia) He) as [-> L]; [|eexists; split; [reflexivity|exact L]].
  rewrite mult_IZR, bpow_plus, Rabs_mult. replace (IZR k * IZR k' * (bpow radix2 e * bpow radix2 e')) with ((IZR k * bpow radix2 e) * (IZR k' * bpow radix2 e')) by ring. apply Rmult_le_compat; auto using Rabs_pos.
Qed.
Lemma vec_small e l : (-1074 <= e <= 970)%Z -> Forall (fun iv => small e 1 (snd iv)) l -> forall k M, (0 <= k)%Z -> (k + Z.of_nat (length l) <= 2 ^ 53)%Z -> (forall a, small e k (M a)) ->
  forall a, small e (k + Z.of_nat (length l)) (fold_left (add_vec_fl b64) l M a).
Proof.
  intros He. induction 1 as [|[i v] l Hv Hl IH]; intros k M Hk HL HM a; cbn [fold_left length].
  - now rewrite Z.add_0_r.
  - cbn [length] in HL. replace (k + Z.of_nat (S (length l)))%Z with ((k + 1) + Z.of_nat (length l))%Z by lia. apply IH; try lia. intro b. unfold add_vec_fl. cbn [fst snd] in *. destruct (Nat.eqb b i); [apply small_add; auto; lia|apply (small_mono e k); auto; lia].
Qed.
Lemma mat_small e l : (-1074 <= e <= 970)%Z -> Forall (fun iv => small e 1 (snd iv)) l -> forall k M, (0 <= k)%Z -> (k + Z.of_nat (length l) <= 2 ^ 53)%Z -> (forall a b, small e k (M a b)) ->
  forall a b, small e (k + Z.of_nat (length l)) (fold_left (add_mat_fl b64) l M a b).
Proof.
  intros He. induction 1 as [|[i v] l Hv Hl IH]; intros k M Hk HL HM a b; cbn [fold_left length].
  - now rewrite Z.add_0_r.
  - cbn [length] in HL. replace (k + Z.of_nat (S (length l)))%Z with ((k + 1) + Z.of_nat (length l))%Z by lia. apply IH; try lia. intros a' b'. unfold add_mat_fl. cbn [fst snd] in *. destruct (_ && _); [apply small_add; auto; lia|apply (small_mono e k); auto; lia].
Qed.
Lemma combine_small {A} e (idx : list A) v : Forall (small e 1) v -> Forall (fun iv => small e 1 (snd iv)) (combine idx v).
Proof. intro H. apply Forall_forall. intros [i x] Hx. apply in_combine_r in Hx. now apply (proj1 (Forall_forall _ _) H). Qed.
Lemma add_vec_small e idx v k M : (-1074 <= e <= 970)%Z -> Forall (small e 1) v -> (0 <= k)%Z -> (k + Z.of_nat (length v) <= 2 ^ 53)%Z -> (forall a, small e k (M a)) -> forall a, small e (k + Z.of_nat (length v)) (add_up_vec_fl b64 idx v M a).
Proof.
  intros He Hv Hk HL HM a. assert (C : (length (combine idx v) <= length v)%nat) by (rewrite combine_length; lia). apply (small_mono e (k + Z.of_nat (length (combine idx v)))); [lia|]. apply vec_small; auto; [now apply combine_small|lia].
Qed.
Lemma add_mat_small e idx v k M : (-1074 <= e <= 970)%Z -> Forall (small e 1) v -> (0 <= k)%Z -> (k + Z.of_nat (length v) <= 2 ^ 53)%Z -> (forall a b, small e k (M a b)) -> forall a b, small e (k + Z.of_nat (length v)) (add_up_mat_fl b64 idx v M a b).
Proof.
  intros He Hv Hk HL HM a b. assert (C : (length (combine idx v) <= length v)%nat) by (rewrite combine_length; lia). apply (small_mono e (k + Z.of_nat (length (combine idx v)))); [lia|]. apply mat_small; auto; [now apply combine_small|lia].
Qed.

(** ---- constants ---- *)
Lemma sqrt2_fl : 1 <= rd b64 (sqrt 2) <= 2.
Proof.
  assert (HF := b64_rounding). assert (L : 1 <= sqrt 2) by (rewrite <- sqrt_1; apply sqrt_le_1_alt; lra). assert (U : sqrt 2 <= 2) by (replace 2 with (sqrt (2 * 2)) at 2 by (rewrite sqrt_square; lra); apply sqrt_le_1_alt; lra).
  assert (A := rdm _ _ L). assert (B := rdm _ _ U). rewrite (rd_int b64 HF 1) in A by lia. rewrite (rd_int b64 HF 2) in B by lia. lra.
Qed.
Lemma isqrt_ok s : bpow radix2 (-400) <= s <= bpow radix2 400 -> exists t k, isqrt_fl b64 s = Fin k /\ 0 < t /\ k = rd b64 (1 / t) /\ bpow radix2 (-400) <= t <= 4 * s /\ 0 < k <= bpow radix2 400.
Proof.
  intro H. assert (S := sqrt2_fl). assert (P := bpow_gt_0 radix2 (-400)). unfold isqrt_fl. cbn [fmul].
  assert (B : Rabs (s * rd b64 (sqrt 2)) <= IZR 2 * bpow radix2 400) by (rewrite Rabs_right by nra; nra). destruct (rnd_scaled _ 2 400 ltac:(lia) ltac:(lia) B) as [-> B2]. set (t := rd b64 (s * rd b64 (sqrt 2))) in *.
  assert (T : bpow radix2 (-400) <= t). { assert (R := rdm (bpow radix2 (-400)) (s * rd b64 (sqrt 2)) ltac:(nra)). rewrite <- (Rmult_1_l (bpow radix2 (-400))), (rd_scaled 1), Rmult_1_l in R by lia. exact R. }
  assert (U : t <= 4 * s). { assert (bpow radix2 (-1074) <= bpow radix2 (-400)) by (apply bpow_le; lia). assert (R := rd_double (s * rd b64 (sqrt 2)) ltac:(nra)). fold t in R. nra. }
  cbn [fdiv]. destruct (Req_EM_T t 0); [lra|]. assert (I : 0 < 1 / t <= bpow radix2 400). { split; [apply Rdiv_lt_0_compat; lra|]. unfold Rdiv. rewrite Rmult_1_l. change 400%Z with (- (-400))%Z. rewrite bpow_opp. apply Rinv_le_contravar; lra. }
  destruct (rnd_scaled (1 / t) 1 400 ltac:(lia) ltac:(lia)) as [-> B3]; [rewrite Rabs_right; lra|]. exists t, (rd b64 (1 / t)). split; [reflexivity|]. split; [lra|]. split; [reflexivity|]. split; [lra|].
  assert (K : 0 < rd b64 (1 / t)). { apply b64_tiny. apply Rle_trans with (bpow radix2 (-402)); [apply bpow_le; lia|]. replace (bpow radix2 (-402)) with (/ bpow radix2 402) by (rewrite <- bpow_opp; reflexivity). unfold Rdiv. rewrite Rmult_1_l. apply Rinv_le_contravar; [lra|]. change 402%Z with (2 + 400)%Z. rewrite bpow_plus. change (bpow radix2 2) with 4. lra. }
  rewrite Rabs_right in B3 by lra. lra.
Qed.
Lemma isqrt_small s : bpow radix2 (-400) <= s <= bpow radix2 400 -> small 400 1 (isqrt_fl b64 s).
Proof. intro H. destruct (isqrt_ok s H) as [t [k [-> [_ [_ [_ K]]]]]]. exists k. split; [reflexivity|]. rewrite Rabs_right; lra. Qed.
Lemma sign_small p : sign p -> small 0 1 (Fin (dk_of p)).
Proof. intros H. exists (dk_of p). split; [reflexivity|]. change (bpow radix2 0) with 1. destruct H as [-> | ->]; [rewrite Rabs_R1|rewrite Rabs_left]; lra. Qed.
Lemma z_finite s f p : bpow radix2 (-400) <= s <= bpow radix2 400 -> (forall i, Rabs (f i) <= bpow radix2 500) -> sign p -> exists z, z_fl b64 s f p = Fin z.
Proof.
  intros Hs Hf Hp. assert (K := isqrt_small s Hs). assert (A := small_mul 400 1 0 1 _ _ ltac:(lia) ltac:(lia) ltac:(lia) ltac:(lia) K (sign_small p Hp)).
  assert (D : small 500 2 (fsub b64 (Fin (f (v_of p))) (Fin (f (u_of p))))). { apply (small_add 500 1 1); try lia; [|apply small_neg]; eexists; (split; [reflexivity|]); rewrite Rmult_1_l; apply Hf. }
  destruct (small_mul (400 + 0) (1 * 1) 500 2 _ _ ltac:(lia) ltac:(lia) ltac:(lia) ltac:(lia) A D) as [z [E _]]. exists z. exact E.
Qed.
Lemma derv_pair_small s f p : bpow radix2 (-400) <= s <= bpow radix2 400 -> (forall i, Rabs (f i) <= bpow radix2 500) -> sign p -> small 412 1 (derv_pair_fl b64 s f p).
Proof.
  intros Hs Hf Hp. destruct (z_finite s f p Hs Hf Hp) as [z Ez]. unfold derv_pair_fl. rewrite Ez. destruct (ratio_ok z) as [r [r2 [-> [B _]]]]. cbn [fst].
  assert (R : small 12 1 (Fin r)) by (exists r; split; [reflexivity|]; change (bpow radix2 12) with 4096; rewrite Rabs_right; lra). assert (A := small_mul 0 1 12 1 _ _ ltac:(lia) ltac:(lia) ltac:(lia) ltac:(lia) (sign_small p Hp) R).
  exact (small_mul (0 + 12) (1 * 1) 400 1 _ _ ltac:(lia) ltac:(lia) ltac:(lia) ltac:(lia) A (isqrt_small s Hs)).
Qed.
Lemma W_pair_small s f p : bpow radix2 (-400) <= s <= bpow radix2 400 -> (forall i, Rabs (f i) <= bpow radix2 500) -> sign p -> small 825 1 (W_pair_fl b64 s f p).
Proof.
  intros Hs Hf Hp. destruct (z_finite s f p Hs Hf Hp) as [z Ez]. unfold W_pair_fl. rewrite Ez. destruct (paren_ok z) as [x [-> [B _]]].
  assert (R : small 25 1 (Fin x)) by (exists x; split; [reflexivity|]; change (bpow radix2 25) with 33554432; lra). assert (D : small 0 1 (Fin (- (dk_of p * dk_of p)))) by (exists (- (dk_of p * dk_of p)); split; [reflexivity|]; change (bpow radix2 0) with 1; destruct Hp as [-> | ->]; rewrite Rabs_Ropp, Rabs_right; lra).
  assert (A := small_mul 0 1 25 1 _ _ ltac:(lia) ltac:(lia) ltac:(lia) ltac:(lia) D R). assert (V := small_mul 400 1 400 1 _ _ ltac:(lia) ltac:(lia) ltac:(lia) ltac:(lia) (isqrt_small s Hs) (isqrt_small s Hs)).
  exact (small_mul (0 + 25) (1 * 1) (400 + 400) (1 * 1) _ _ ltac:(lia) ltac:(lia) ltac:(lia) ltac:(lia) A V).
Qed.
Lemma map_neg_small e l : Forall (small e 1) l -> Forall (small e 1) (map fneg l).
Proof. intro H. apply Forall_forall. intros x Hx. apply in_map_iff in Hx. destruct Hx as [v [<- Hv]]. apply small_neg. now apply (proj1 (Forall_forall _ _) H). Qed.
Lemma zero_small e : small e 0 (Fin 0).
Proof. exists 0. split; [reflexivity|]. rewrite Rabs_R0. lra. Qed.
Lemma log_ndtr_bounds c : -30 <= c -> -512 <= log_ndtr c <= 0.
Proof.
  intro H. split; [|apply Rlt_le, log_ndtr_neg]. unfold log_ndtr. rewrite <- (ln_exp (-512)). apply Rlt_le, ln_increasing; [apply exp_pos|]. apply Rlt_le_trans with (ndtr (-30)); [|now apply ndtr_le]. eapply Rlt_le_trans; [|apply ndtr_lower; lra].
  replace (-512) with ((- (-30 * -30) / 2 - 3 / 2) + - (121 / 2)) by lra. rewrite exp_plus. apply Rmult_lt_compat_l; [apply exp_pos|]. rewrite exp_Ropp. apply Rinv_lt_contravar; [assert (K := exp_pos (121 / 2)); nra|]. apply Rle_lt_trans with (1 + 90); [lra|]. 
  replace (121 / 2) with (121 / 4 + 121 / 4) by lra. rewrite exp_plus. assert (K := exp_ineq1 (121 / 4) ltac:(lra)). nra.
Qed.
Lemma adds_between l a lo hi : (Z.abs lo <= 512)%Z -> (Z.abs hi <= 512)%Z -> adds b64 l a -> (Z.of_nat (length l) <= 2 ^ 40)%Z -> (forall v, In v l -> exists x, v = Fin x /\ IZR lo <= x <= IZR hi) ->
  exists x, a = Fin x /\ IZR (lo * Z.of_nat (length l)) <= x <= IZR (hi * Z.of_nat (length l)).
Proof.
  intros Hlo Hhi A. induction A as [x|l1 l2 l a b A1 IH1 A2 IH2 P]; intros HL HV.
  - destruct (HV x ltac:(now left)) as [v [-> B]]. exists v. split; [reflexivity|]. cbn [length]. rewrite !Z.mul_1_r. exact B.
  - assert (E : length l = (length l1 + length l2)%nat) by (rewrite (Permutation_length P), app_length; reflexivity). destruct IH1 as [v1 [-> B1]]; [lia|intros v Hv; apply HV; apply (Permutation_in _ (Permutation_sym P)), in_or_app; now left|]. destruct IH2 as [v2 [-> B2]]; [lia|intros v Hv; apply HV; apply (Permutation_in _ (Permutation_sym P)), in_or_app; now right|].
    cbn [fadd]. rewrite E, Nat2Z.inj_add, !Z.mul_add_distr_l. rewrite E in HL. destruct (rnd_between b64 b64_rounding (v1 + v2) (lo * Z.of_nat (length l1) + lo * Z.of_nat (length l2)) (hi * Z.of_nat (length l1) + hi * Z.of_nat (length l2))) as [-> B]; [nia|nia|rewrite !plus_IZR; lra|]. eexists. split; [reflexivity|exact B].
Qed.
Section Whole.
Variables (s : R) (y : list pair) (f : nat -> R).
Hypothesis Hs : bpow radix2 (-400) <= s <= bpow radix2 400.
Hypothesis Hf : forall i, Rabs (f i) <= bpow radix2 500.
Hypothesis Hy : Forall sign y.
Hypothesis Hn : (Z.of_nat (length y) <= 2 ^ 40)%Z.
Lemma derv_finite i : finite (derv_fl b64 s y f i).
Proof.
  unfold derv_fl. set (d := map (derv_pair_fl b64 s f) y). assert (D : Forall (small 412 1) d). { apply Forall_forall. intros x Hx. apply in_map_iff in Hx. destruct Hx as [p [<- Hp]]. apply derv_pair_small; auto. now apply (proj1 (Forall_forall _ _) Hy). }
  assert (L : length d = length y) by apply map_length. apply (small_finite 412 (0 + Z.of_nat (length (map fneg d)) + Z.of_nat (length d))). apply add_vec_small; auto; rewrite ?map_length; try lia.
  intro a. rewrite <- (map_length fneg d). apply add_vec_small; rewrite ?map_length; auto; try lia; [now apply map_neg_small|]. intro; apply zero_small.
Qed.
Lemma W_finite i j : finite (W_fl b64 s y f i j).
Proof.
  unfold W_fl. set (d := map (W_pair_fl b64 s f) y). assert (D : Forall (small 825 1) d). { apply Forall_forall. intros x Hx. apply in_map_iff in Hx. destruct Hx as [p [<- Hp]]. apply W_pair_small; auto. now apply (proj1 (Forall_forall _ _) Hy). }
  assert (N := map_neg_small _ _ D). assert (L : length d = length y) by apply map_length. assert (L2 : length (map fneg d) = length y) by (rewrite map_length; exact L). set (d' := map fneg d) in *. clearbody d d'.
  assert (A1 := add_mat_small 825 (map (fun p => (u_of p, u_of p)) y) d' 0 (fun _ _ => Fin 0) ltac:(lia) N ltac:(lia) ltac:(lia) (fun _ _ => zero_small 825)).
  assert (A2 := add_mat_small 825 (map (fun p => (u_of p, v_of p)) y) d (0 + Z.of_nat (length d')) _ ltac:(lia) D ltac:(lia) ltac:(lia) A1).
  assert (A3 := add_mat_small 825 (map (fun p => (v_of p, u_of p)) y) d (0 + Z.of_nat (length d') + Z.of_nat (length d)) _ ltac:(lia) D ltac:(lia) ltac:(lia) A2).
  assert (A4 := add_mat_small 825 (map (fun p => (v_of p, v_of p)) y) d' (0 + Z.of_nat (length d') + Z.of_nat (length d) + Z.of_nat (length d)) _ ltac:(lia) N ltac:(lia) ltac:(lia) A3). exact (small_finite _ _ _ (A4 i j)).
Qed.
Lemma loglik_finite sm : sums b64 sm -> y <> [] -> exists x, log_likelihood_fl b64 sm s y f = Fin x /\ -512 * INR (length y) <= x <= 0.
Proof.
  intros SM NE. unfold log_likelihood_fl. set (l := map (fun p => log_ndtr_fl b64 (fclip (-30) 100 (z_fl b64 s f p))) y). assert (L : length l = length y) by apply map_length. destruct (adds_between l (sm l) (-512) 0) as [x [E B]]; try lia.
  - apply SM. intro K. rewrite K in L. destruct y; [now apply NE|discriminate].
  - intros v Hv. apply in_map_iff in Hv. destruct Hv as [p [<- Hp]]. destruct (z_finite s f p Hs Hf (proj1 (Forall_forall _ _) Hy p Hp)) as [z ->]. cbn [fclip log_ndtr_fl]. assert (C := rclip_range (-30) 100 z ltac:(lra)). destruct (rnd_between b64 b64_rounding (log_ndtr (rclip (-30) 100 z)) (-512) 0 ltac:(lia) ltac:(lia) (log_ndtr_bounds _ (proj1 C))) as [-> B]. eexists. split; [reflexivity|exact B].
  - exists x. split; [exact E|]. rewrite L, mult_IZR, <- INR_IZR_INZ in B. cbn in B. lra.
Qed.
End Whole.
