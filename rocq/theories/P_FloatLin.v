(** The fit of the linear model in binary64: lemmas. *)
From Coquelicot Require Import Coquelicot.
From Coq Require Import Reals ZArith Lra Lia List Bool Permutation.
From Flocq Require Import Core.
From Verif Require Import M_Base M_RBase M_Normal M_PrefProbit M_Search M_Float M_FloatProbit M_FloatKern M_FloatLin S_Float S_FloatProbit S_FloatLin P_RBase P_Normal P_Float P_FloatProbit P_FloatProbit2 P_FloatProbit3 P_FloatKern P_FloatKern3.
Import ListNotations.
Local Open Scope R_scope.

(** ---- the argument of the probit ---- *)
Lemma eps_small : 0 < bpow radix2 (-53) <= 1 / 1000000.
Proof. split; [apply bpow_gt_0|]. apply Rle_trans with (bpow radix2 (-20)); [apply bpow_le; lia|]. change (bpow radix2 (-20)) with (/ IZR (2 ^ 20)). change (2 ^ 20)%Z with 1048576%Z. lra. Qed.
Lemma rd_rel6 x : bpow radix2 (-1022) <= x -> x * (999999 / 1000000) <= rd b64 x <= x * (1000001 / 1000000).
Proof. intro H. assert (P := bpow_gt_0 radix2 (-1022)). assert (R := rd_rel x H). assert (E := eps_small). nra. Qed.
Lemma sqrt2_tight : 14142 / 10000 <= sqrt 2 <= 14143 / 10000.
Proof.
  split.
  - rewrite <- (sqrt_square (14142 / 10000)) by lra. apply sqrt_le_1_alt. lra.
  - rewrite <- (sqrt_square (14143 / 10000)) by lra. apply sqrt_le_1_alt. lra.
Qed.
Lemma isqrt_tight s : bpow radix2 (-400) <= s <= bpow radix2 400 -> exists k, isqrt_fl b64 s = Fin k /\ rd b64 k = k /\ 0 < k <= bpow radix2 400 /\ 706 / 1000 <= k * s <= 708 / 1000.
Proof.
  intro H. assert (P := bpow_gt_0 radix2 (-400)).
  assert (B1 : bpow radix2 (-1022) <= bpow radix2 (-402)) by (apply bpow_le; lia). assert (B2 : bpow radix2 (-402) <= bpow radix2 (-400)) by (apply bpow_le; lia). assert (B3 : bpow radix2 (-402) <= 1) by (change 1 with (bpow radix2 0); apply bpow_le; lia).
  destruct (isqrt_ok s H) as [t [k [E [T0 [K [T1 K1]]]]]]. exists k. split; [exact E|]. split; [subst k; apply b64_rounding|]. split; [exact K1|].
  assert (S2 := sqrt2_tight). assert (Q := rd_rel6 (sqrt 2) ltac:(lra)).
  revert E. unfold isqrt_fl. cbn [fmul]. assert (B : Rabs (s * rd b64 (sqrt 2)) <= IZR 2 * bpow radix2 400). { assert (S := sqrt2_fl). rewrite Rabs_right by nra. nra. }
  destruct (rnd_scaled _ 2 400 ltac:(lia) ltac:(lia) B) as [-> _]. set (q := rd b64 (sqrt 2)) in *. assert (QB : 14141 / 10000 <= q <= 14144 / 10000) by lra. clearbody q.
  assert (U := rd_rel6 (s * q) ltac:(nra)). set (u := rd b64 (s * q)) in *. clearbody u. assert (UB : 1414 / 1000 * s <= u <= 14145 / 10000 * s) by nra.
  cbn [fdiv]. destruct (Req_EM_T u 0); [nra|]. assert (U0 : 0 < u) by nra. intro E.
  assert (V : 1 / u * u = 1) by (field; lra). assert (V0 : 0 < 1 / u) by (apply Rdiv_lt_0_compat; lra). set (v := 1 / u) in *.
  assert (VB : bpow radix2 (-402) <= v). { assert (X : bpow radix2 (-402) * (4 * bpow radix2 400) = 1) by (change 4 with (bpow radix2 2); rewrite <- !bpow_plus; reflexivity). nra. }
  assert (R := rd_rel6 v ltac:(lra)). assert (EK : k = rd b64 v). { revert E. unfold rnd. destruct (Rleb _ _); [discriminate|]. destruct (Rleb _ _); [discriminate|]. intro E. injection E as <-. reflexivity. }
  rewrite EK. assert (VS : 7069 / 10000 <= v * s <= 7073 / 10000) by nra. nra.
Qed.
Section Arg.
Variables (s : R) (f : nat -> R) (p : pair).
Hypothesis Hs : bpow radix2 (-400) <= s <= bpow radix2 400.
Hypothesis Hf : forall i, Rabs (f i) <= bpow radix2 500.
Hypothesis Hp : sign p.
Lemma z_form : exists k z, isqrt_fl b64 s = Fin k /\ rd b64 k = k /\ 0 < k <= bpow radix2 400 /\ 706 / 1000 <= k * s <= 708 / 1000 /\ z_fl b64 s f p = Fin z /\ z = rd b64 (k * dk_of p * rd b64 (f (v_of p) - f (u_of p))).
Proof.
  destruct (isqrt_tight s Hs) as [k [Ek [KK [K1 KS]]]]. destruct (z_finite s f p Hs Hf Hp) as [z Ez]. exists k, z. repeat (split; [assumption|]). revert Ez. unfold z_fl. rewrite Ek. cbn [fmul].
  assert (KD : rd b64 (k * dk_of p) = k * dk_of p) by (destruct Hp as [-> | ->]; [rewrite Rmult_1_r; exact KK|replace (k * -1) with (- k) by ring; rewrite rd_opp, KK; reflexivity]).
  destruct (rnd_scaled (k * dk_of p) 1 400 ltac:(lia) ltac:(lia)) as [-> _]; [destruct Hp as [-> | ->]; rewrite Rabs_mult, (Rabs_right k) by lra; [rewrite Rabs_R1|rewrite (Rabs_left (-1)) by lra]; lra|]. rewrite KD.
  set (d := f (v_of p) - f (u_of p)) in *. unfold fsub. cbn [fneg fadd fmul]. change (f (v_of p) + - f (u_of p)) with d. assert (BD : Rabs d <= IZR 2 * bpow radix2 500) by (unfold d; assert (A1 := Hf (v_of p)); assert (A2 := Hf (u_of p)); unfold Rminus; eapply Rle_trans; [apply Rabs_triang|rewrite Rabs_Ropp; lra]).
  destruct (rnd_scaled d 2 500 ltac:(lia) ltac:(lia) BD) as [-> _]. cbn [fmul]. unfold rnd. destruct (Rleb (huge b64) _); [discriminate|]. destruct (Rleb _ _); [discriminate|]. intro Ez. injection Ez as <-. split; reflexivity.
Qed.
(** a label contradicted by 70 standard deviations: an argument below -47 *)
Lemma z_below : dk_of p * (f (v_of p) - f (u_of p)) <= - (70 * s) -> exists z, z_fl b64 s f p = Fin z /\ z <= -47.
Proof.
  intro HD. assert (P := bpow_gt_0 radix2 (-400)). destruct z_form as [k [z [_ [_ [K1 [KS [Ez Z]]]]]]]. exists z. split; [exact Ez|]. set (d := f (v_of p) - f (u_of p)) in *.
  assert (B1 : bpow radix2 (-1022) <= bpow radix2 (-400)) by (apply bpow_le; lia).
  assert (R : dk_of p * rd b64 d <= - (6999 / 100 * s)).
  { destruct Hp as [E|E]; rewrite E in *; clear E.
    - assert (R := rd_rel6 (- d) ltac:(lra)). rewrite rd_opp in R. lra.
    - assert (R := rd_rel6 d ltac:(lra)). lra. }
  rewrite Z. apply Rle_trans with (rd b64 (IZR (-47))); [|rewrite (rd_int b64 b64_rounding) by lia; lra]. apply rdm. replace (k * dk_of p * rd b64 d) with (k * (dk_of p * rd b64 d)) by ring. nra.
Qed.
(** a difference of at most 40 standard deviations: an argument between -30 and 30 *)
Lemma z_within : Rabs (f (v_of p) - f (u_of p)) <= 40 * s -> exists k z, isqrt_fl b64 s = Fin k /\ 0 < k <= bpow radix2 400 /\ 706 / 1000 <= k * s /\ z_fl b64 s f p = Fin z /\ -30 <= z <= 30.
Proof.
  intro HD. assert (P := bpow_gt_0 radix2 (-400)). destruct z_form as [k [z [Ek [_ [K1 [KS [Ez Z]]]]]]]. exists k, z. split; [exact Ek|]. split; [exact K1|]. split; [lra|]. split; [exact Ez|]. set (d := f (v_of p) - f (u_of p)) in *.
  assert (B1 : bpow radix2 (-1022) <= bpow radix2 (-400)) by (apply bpow_le; lia). apply Rabs_le_inv in HD.
  assert (R1 := rdm _ _ (proj1 HD)). assert (R2 := rdm _ _ (proj2 HD)). rewrite rd_opp in R1. assert (R := rd_rel6 (40 * s) ltac:(lra)).
  assert (G : IZR (-30) <= k * dk_of p * rd b64 d <= IZR 30) by (destruct Hp as [-> | ->]; nra).
  assert (L1 := rdm _ _ (proj1 G)). assert (L2 := rdm _ _ (proj2 G)). rewrite (rd_int b64 b64_rounding) in L1, L2 by lia. rewrite Z. lra.
Qed.
End Arg.

(** ---- the density between -30 and 30 ---- *)
Lemma s2pi_four : s2pi_fl b64 <= 4.
Proof.
  unfold s2pi_fl. assert (HF := b64_rounding). assert (K := PI_4). assert (A := rdm _ _ K). rewrite (rd_int b64 HF 4) in A by lia.
  assert (B := rdm (2 * rd b64 PI) (IZR 8) ltac:(lra)). rewrite (rd_int b64 HF 8) in B by lia.
  assert (S : sqrt (rd b64 (2 * rd b64 PI)) <= 4). { replace 4 with (sqrt (4 * 4)) by (rewrite sqrt_square; lra). apply sqrt_le_1_alt. lra. }
  assert (R := rdm _ _ S). rewrite (rd_int b64 HF 4) in R by lia. exact R.
Qed.
Lemma exp_two n : / 2 ^ (2 * n) <= exp (- INR n).
Proof.
  rewrite exp_Ropp. apply Rinv_le_contravar; [apply exp_pos|]. induction n as [|n IH]; [cbn; rewrite exp_0; lra|].
  rewrite S_INR, exp_plus. replace (2 * S n)%nat with (S (S (2 * n))) by lia. cbn [pow]. assert (E := exp_le_3). assert (0 < exp (INR n)) by apply exp_pos. nra.
Qed.
Lemma exp_450 : bpow radix2 (-900) <= exp (-450).
Proof.
  change (-900)%Z with (- Z.of_nat (2 * 450))%Z. rewrite bpow_neg. replace (-450) with (- INR 450); [apply exp_two|]. rewrite INR_IZR_INZ. change (Z.of_nat 450) with 450%Z. lra.
Qed.

(** the density is positive there *)
Lemma pdf_pos z : -30 <= z <= 30 -> exists p, pdf_fl b64 (Fin z) = Fin p /\ bpow radix2 (-904) <= p <= 1 /\ rd b64 p = p.
Proof.
  intro Hz. assert (HF := b64_rounding). unfold pdf_fl. cbn [fmul]. destruct (rnd_between b64 HF (z * z) 0 900 ltac:(lia) ltac:(lia) ltac:(nra)) as [-> B1]. set (q := rd b64 (z * z)) in *. cbn [fneg fdiv].
  destruct (Req_EM_T 2 0); [lra|]. destruct (rnd_between b64 HF (- q / 2) (-450) 0 ltac:(lia) ltac:(lia) ltac:(lra)) as [-> B2]. set (e := rd b64 (- q / 2)) in *. cbn [fexp].
  assert (X := exp_450). assert (Y := exp_le _ _ (proj1 B2)). assert (Y0 := exp_neg1 e ltac:(lra)). assert (P900 := bpow_gt_0 radix2 (-900)).
  destruct (rnd_unit b64 HF (exp e) ltac:(lra)) as [-> B3]. assert (T0 : bpow radix2 (-1074) <= bpow radix2 (-904)) by (apply bpow_le; lia). assert (T1 : bpow radix2 (-900) = 16 * bpow radix2 (-904)) by (change 16 with (bpow radix2 4); rewrite <- bpow_plus; reflexivity). assert (P904 := bpow_gt_0 radix2 (-904)).
  assert (H1 := rd_half (exp e) ltac:(lra)). set (E := rd b64 (exp e)) in *. cbn [fdiv]. assert (S2 := s2pi_two). assert (S4 := s2pi_four). set (c := s2pi_fl b64) in *. destruct (Req_EM_T c 0); [lra|].
  assert (D : E / 4 <= E / c <= E). { assert (I1 : / 4 <= / c) by (apply Rinv_le_contravar; lra). assert (I2 : / c <= / 2) by (apply Rinv_le_contravar; lra). unfold Rdiv. nra. }
  destruct (rnd_unit b64 HF (E / c) ltac:(lra)) as [-> B4]. assert (H2 := rd_half (E / c) ltac:(lra)). exists (rd b64 (E / c)). split; [reflexivity|]. split; [lra|]. apply HF.
Qed.
Lemma ratio_pos z : -30 <= z <= 30 -> exists r r2, ratio_fl b64 (Fin z) = (Fin r, r2) /\ bpow radix2 (-904) <= r <= 4096.
Proof.
  intro Hz. assert (HF := b64_rounding). destruct (pdf_pos z Hz) as [p [Ep [Bp Rp]]]. destruct (cdf_ok z) as [c [Ec [Bc [P _]]]]. assert (Q := quot_bound z p c Ep Ec). unfold ratio_fl. rewrite Ec, feq0_pos by exact P. rewrite Ep. cbn [fdiv]. destruct (Req_EM_T c 0); [lra|].
  destruct (rnd_between b64 HF (p / c) 0 4096 ltac:(lia) ltac:(lia) Q) as [-> B]. cbn [fisinf]. do 2 eexists. split; [reflexivity|]. split; [|lra].
  assert (P904 := bpow_gt_0 radix2 (-904)). assert (L : p <= p / c). { assert (I : 1 <= / c) by (rewrite <- Rinv_1; apply Rinv_le_contravar; lra). unfold Rdiv. nra. }
  assert (M := rdm _ _ L). rewrite Rp in M. lra.
Qed.
(** a label pulls the value of the preferred point up *)
Lemma derv_pull s f p : bpow radix2 (-400) <= s <= bpow radix2 100 -> (forall i, Rabs (f i) <= bpow radix2 500) -> sign p -> Rabs (f (v_of p) - f (u_of p)) <= 40 * s ->
  exists x, derv_pair_fl b64 s f p = Fin x /\ 0 < dk_of p * x.
Proof.
  intros Hs Hf Hp HD. assert (HF := b64_rounding). assert (B1 : bpow radix2 100 <= bpow radix2 400) by (apply bpow_le; lia). assert (P100 := bpow_gt_0 radix2 100). assert (P400 := bpow_gt_0 radix2 (-400)).
  destruct (z_within s f p ltac:(lra) Hf Hp HD) as [k [z [Ek [K1 [KS [Ez Z]]]]]]. destruct (ratio_pos z Z) as [r [r2 [Er Br]]]. unfold derv_pair_fl. rewrite Ez, Er, Ek. cbn [fst].
  assert (KL : bpow radix2 (-101) <= k). { assert (X : bpow radix2 (-101) * bpow radix2 100 = 1 / 2) by (rewrite <- bpow_plus; change (-101 + 100)%Z with (-1)%Z; change (bpow radix2 (-1)) with (/ 2); lra). nra. }
  assert (RK : bpow radix2 (-1005) <= r * k). { change (-1005)%Z with (-904 + -101)%Z. rewrite bpow_plus. assert (P1 := bpow_gt_0 radix2 (-904)). assert (P2 := bpow_gt_0 radix2 (-101)). apply Rmult_le_compat; lra. }
  assert (RR : rd b64 r = r). { revert Er. unfold ratio_fl. intro Er. destruct (pdf_pos z Z) as [p0 [Ep [Bp Rp]]]. destruct (cdf_ok z) as [c [Ec [Bc [P _]]]]. rewrite Ec, feq0_pos, Ep in Er by exact P. cbn [fdiv] in Er. destruct (Req_EM_T c 0); [lra|].
    assert (Q := quot_bound z p0 c Ep Ec). destruct (rnd_between b64 HF (p0 / c) 0 4096 ltac:(lia) ltac:(lia) Q) as [E2 _]. rewrite E2 in Er. assert (E3 : Fin (rd b64 (p0 / c)) = Fin r) by congruence. injection E3 as <-. apply HF. }
  assert (P904 := bpow_gt_0 radix2 (-904)). assert (TB : bpow radix2 (-1074) <= bpow radix2 (-1005)) by (apply bpow_le; lia). assert (P1005 := bpow_gt_0 radix2 (-1005)).
  assert (H := rd_half (r * k) ltac:(lra)).
  assert (SM : Rabs (r * k) <= IZR 4096 * bpow radix2 400) by (rewrite Rabs_right by lra; apply Rmult_le_compat; lra).
  destruct (rnd_scaled (r * k) 4096 400 ltac:(lia) ltac:(lia) SM) as [EM _].
  cbn [fmul]. destruct Hp as [-> | ->].
  - rewrite Rmult_1_l. destruct (rnd_between b64 HF r 0 4096 ltac:(lia) ltac:(lia) ltac:(lra)) as [-> _]. rewrite RR. cbn [fmul]. rewrite EM. eexists. split; [reflexivity|]. lra.
  - replace (-1 * r) with (- r) by ring. destruct (rnd_between b64 HF (- r) (-4096) 0 ltac:(lia) ltac:(lia) ltac:(lra)) as [-> _]. rewrite rd_opp, RR. cbn [fmul]. replace (- r * k) with (- (r * k)) by ring. rewrite rnd_opp, EM. cbn [fneg]. eexists. split; [reflexivity|]. lra.
Qed.

(** ---- sums ---- *)
Lemma adds_nonempty l b : adds b64 l b -> l <> [].
Proof. induction 1 as [x|l1 l2 l a b A1 IH1 A2 IH2 P]; [discriminate|]. intro E. subst. apply Permutation_nil in P. apply app_eq_nil in P. destruct P. auto. Qed.
Lemma adds_pair x y a : adds b64 [x; y] a -> a = fadd b64 x y \/ a = fadd b64 y x.
Proof.
  intro H. inversion H as [v E1 E2|l1 l2 l b c A1 A2 P E1 E2]; subst. assert (N1 := adds_nonempty _ _ A1). assert (N2 := adds_nonempty _ _ A2). assert (L := Permutation_length P). rewrite app_length in L. cbn in L.
  destruct l1 as [|u [|? ?]]; [congruence| |cbn in L; destruct l2; [congruence|cbn in L; lia]]. destruct l2 as [|v [|? ?]]; [congruence| |cbn in L; lia]. apply adds_single in A1, A2. subst. cbn in P. apply Permutation_length_2_inv in P. destruct P as [E|E]; injection E as <- <-; auto.
Qed.
Lemma fadd_fin x y : fadd b64 (Fin x) (Fin y) = rnd b64 (x + y).
Proof. reflexivity. Qed.
Lemma dot_zero sm a b : sums b64 sm -> combine a b <> [] -> (forall x y, In (x, y) (combine a b) -> fmul b64 x y = Fin 0) -> dot_fl b64 sm a b = Fin 0.
Proof.
  intros Hs N H. unfold dot_fl. eapply adds_zero; [apply Hs; now destruct (combine a b)|]. intros v Hv. apply in_map_iff in Hv. destruct Hv as [[x y] [<- Hv]]. now apply H.
Qed.
Lemma combine_zero_l a b x y : (forall v, In v a -> v = Fin 0) -> (forall v, In v b -> finite v) -> In (x, y) (combine a b) -> fmul b64 x y = Fin 0.
Proof. intros Ha Hb H. rewrite (Ha x) by (eapply in_combine_l, H). apply zero_mul, Hb. eapply in_combine_r, H. Qed.
Lemma combine_zero_r a b x y : (forall v, In v b -> v = Fin 0) -> (forall v, In v a -> finite v) -> In (x, y) (combine a b) -> fmul b64 x y = Fin 0.
Proof. intros Hb Ha H. rewrite (Hb y) by (eapply in_combine_r, H). apply mul_zero, Ha. eapply in_combine_l, H. Qed.
Lemma col_finite X j v : In v (col_fl X j) -> finite v.
Proof. unfold col_fl. intro H. apply in_map_iff in H. destruct H as [x [<- _]]. now eexists. Qed.
Lemma combine_ne {A B} (a : list A) (b : list B) : a <> [] -> b <> [] -> combine a b <> [].
Proof. destruct a, b; cbn; congruence. Qed.
Lemma map_ne {A B} (f : A -> B) l : l <> [] -> map f l <> [].
Proof. destruct l; cbn; congruence. Qed.
Lemma seq_ne n : (0 < n)%nat -> seq 0 n <> [].
Proof. destruct n; [lia|discriminate]. Qed.
Lemma fins_fin l f : fins l = Some f -> l = map Fin f.
Proof. revert f. induction l as [|x l IH]; cbn; intros f H; [now injection H as <-|]. destruct x; try discriminate. destruct (fins l); [|discriminate]. injection H as <-. cbn. now rewrite (IH l0 eq_refl). Qed.
Lemma fins_map f : fins (map Fin f) = Some f.
Proof. induction f as [|x f IH]; cbn; [reflexivity|]. now rewrite IH. Qed.

(** ---- no gradient, no curvature, no step ---- *)
Section Flat.
Variables (s : R) (y : list pair) (f : nat -> R).
Hypothesis Hs : bpow radix2 (-400) <= s <= bpow radix2 400.
Hypothesis HZ : forall p, In p y -> exists z, z_fl b64 s f p = Fin z /\ z <= -47.
Lemma flat_pull i : derv_fl b64 s y f i = Fin 0.
Proof.
  unfold derv_fl. assert (D : Forall (eq (Fin 0)) (map (derv_pair_fl b64 s f) y)). { apply Forall_forall. intros x Hx. apply in_map_iff in Hx. destruct Hx as [p [<- Hp]]. unfold derv_pair_fl. destruct (HZ p Hp) as [z [-> Z]]. destruct (ratio_ok z) as [r [r2 [-> [_ [_ F]]]]]. destruct (F ltac:(rewrite Rabs_left; lra)) as [-> _]. cbn [fst]. rewrite mul_zero by now eexists. rewrite zero_mul; [reflexivity|]. eapply small_finite. apply isqrt_small, Hs. }
  apply vec_zero; [exact D|]. intro a. apply vec_zero; [now apply neg_zero|reflexivity].
Qed.
Lemma flat_curvature i j : W_fl b64 s y f i j = Fin 0.
Proof.
  unfold W_fl. assert (D : Forall (eq (Fin 0)) (map (W_pair_fl b64 s f) y)). { apply Forall_forall. intros x Hx. apply in_map_iff in Hx. destruct Hx as [p [<- Hp]]. unfold W_pair_fl. destruct (HZ p Hp) as [z [-> Z]]. destruct (paren_ok z) as [r [-> [_ F]]]. rewrite (F ltac:(rewrite Rabs_left; lra)). rewrite mul_zero by now eexists. rewrite zero_mul; [reflexivity|]. unfold i2var_fl. eapply small_finite. apply (small_mul 400 1 400 1); try lia; apply isqrt_small, Hs. }
  repeat (apply mat_zero; [try apply neg_zero; exact D|intros ? ?]). reflexivity.
Qed.
End Flat.
Lemma lin_grad_zero sm X d g : sums b64 sm -> X <> [] -> (forall i, g i = Fin 0) -> forall v, In v (lin_grad_fl b64 sm X d g) -> v = Fin 0.
Proof.
  intros Hs NX G v Hv. unfold lin_grad_fl in Hv. apply in_map_iff in Hv. destruct Hv as [j [<- _]]. assert (L : (0 < length X)%nat) by (destruct X; [congruence|cbn; lia]). apply dot_zero; [exact Hs| |].
  - apply combine_ne; [apply map_ne, seq_ne, L|apply map_ne, NX].
  - intros x z. apply combine_zero_l; [|apply col_finite]. intros v Hv. apply in_map_iff in Hv. destruct Hv as [i [<- _]]. apply G.
Qed.
Lemma lin_W_zero sm X d W : sums b64 sm -> X <> [] -> (forall i j, W i j = Fin 0) -> forall r, In r (lin_W_fl b64 sm X d W) -> length r = d /\ forall v, In v r -> v = Fin 0.
Proof.
  intros Hs NX G r Hr. unfold lin_W_fl in Hr. apply in_map_iff in Hr. destruct Hr as [a [<- _]]. split; [now rewrite map_length, seq_length|]. assert (L : (0 < length X)%nat) by (destruct X; [congruence|cbn; lia]).
  intros v Hv. apply in_map_iff in Hv. destruct Hv as [b [<- _]]. apply dot_zero; [exact Hs| |].
  - apply combine_ne; [apply map_ne, seq_ne, L|apply map_ne, NX].
  - intros x z. apply combine_zero_l; [|apply col_finite]. intros v Hv. apply in_map_iff in Hv. destruct Hv as [i [<- _]]. apply dot_zero; [exact Hs| |].
    + apply combine_ne; [apply map_ne, NX|apply map_ne, seq_ne, L].
    + intros x0 z0. apply combine_zero_r; [|apply col_finite]. intros v Hv. apply in_map_iff in Hv. destruct Hv as [k [<- _]]. apply G.
Qed.
Lemma double_rnd x : isdouble x -> rnd b64 x = Fin x.
Proof. intros [E B]. apply Rabs_def2 in B. unfold rnd. rewrite E. change (huge b64) with (bpow radix2 1024). rewrite (proj2 (Rleb_false _ _)) by lra. now rewrite (proj2 (Rleb_false _ _)) by lra. Qed.
Lemma step_zero lam ws d : length d = length ws -> (forall v, In v d -> v = Fin 0) -> Forall isdouble ws -> step_fl b64 (map Fin ws) d lam = map Fin ws.
Proof.
  unfold step_fl. revert d. induction ws as [|w ws IH]; intros [|v d] L H D; cbn in L; try discriminate; [reflexivity|]. cbn [map combine]. f_equal.
  - cbn [fst snd]. rewrite (H v) by now left. rewrite mul_zero by now eexists. unfold fsub. cbn [fneg fadd]. rewrite Ropp_0, Rplus_0_r. apply double_rnd. now inversion D.
  - apply IH; [congruence|intros u Hu; apply H; now right|now inversion D].
Qed.
Lemma far_self sm ws : sums b64 sm -> ws <> [] -> far_fl b64 sm (map Fin ws) (map Fin ws) = false.
Proof.
  intros Hs N. unfold far_fl, norm_fl. assert (E : sm (map (fun x => fmul b64 x x) (map (fun ab => fsub b64 (fst ab) (snd ab)) (combine (map Fin ws) (map Fin ws)))) = Fin 0).
  { eapply adds_zero; [apply Hs; apply map_ne, map_ne, combine_ne; now apply map_ne|]. intros v Hv. rewrite map_map in Hv. apply in_map_iff in Hv. destruct Hv as [[a b] [<- Hv]]. cbn [fst snd].
    assert (I : exists w, a = Fin w /\ b = Fin w). { clear -Hv. induction ws as [|w ws IH]; [destruct Hv|]. cbn in Hv. destruct Hv as [Hv|Hv]; [injection Hv as <- <-; eauto|auto]. }
    destruct I as [w [-> ->]]. unfold fsub. cbn [fneg fadd]. rewrite Rplus_opp_r, rnd_0. apply zero_mul. now eexists. }
  rewrite E. cbn [fsqrt]. rewrite (proj2 (Rltb_false 0 0)) by lra. rewrite sqrt_0, rnd_0.
  assert (P := rdm 0 (2 / 1000) ltac:(lra)). rewrite (rd_0 b64 b64_rounding) in P. cbn [fltb fleb]. now rewrite (proj2 (Rleb_true _ _)) by exact P.
Qed.
Lemma lin_stuck sm inv loss s y X ws f n : sums b64 sm -> rejects_zero inv -> bpow radix2 (-400) <= s <= bpow radix2 400 -> X <> [] -> ws <> [] -> Forall isdouble ws -> Forall sign y ->
  latent_fl b64 sm X (map Fin ws) = map Fin f -> (forall i, Rabs (nth i f 0) <= bpow radix2 500) -> contradicted (70 * s) y (fun i => nth i f 0) -> (0 < n)%nat ->
  lin_optimize_fl b64 sm inv loss s y X (map Fin ws) n = Ok (1%nat, map Fin ws).
Proof.
  intros Hsm Hinv Hs NX Nw Dw Sy Ef Bf Cy Hn.
  assert (HZ : forall p, In p y -> exists z, z_fl b64 s (fun i => nth i f 0) p = Fin z /\ z <= -47) by (intros p Hp; apply z_below; auto; now apply (proj1 (Forall_forall _ _) Sy)).
  assert (U : lin_update_fl b64 sm inv loss s y X (map Fin ws) = Ok (map Fin ws)).
  { unfold lin_update_fl. rewrite Ef, fins_map, map_length. set (g := lin_grad_fl _ _ _ _ _). set (h := map (map fneg) _). assert (Lw : (0 < length ws)%nat) by (destruct ws; [congruence|cbn; lia]).
    assert (D : descent_fl b64 sm inv g h = g).
    { unfold descent_fl. rewrite Hinv; [reflexivity| |].
      - unfold h. apply map_ne. unfold lin_W_fl. apply map_ne, seq_ne, Lw.
      - intros r Hr. apply in_map_iff in Hr. destruct Hr as [r0 [<- Hr]]. destruct (lin_W_zero sm X _ _ Hsm NX (flat_curvature s y _ Hs HZ) r0 Hr) as [L Z]. split; [apply map_ne; destruct r0; [cbn in L; lia|discriminate]|]. intros v Hv. apply in_map_iff in Hv. destruct Hv as [u [<- Hu]]. rewrite (Z u Hu). cbn. now rewrite Ropp_0. }
    rewrite D. f_equal. apply step_zero; [unfold g, lin_grad_fl; now rewrite map_length, seq_length| |exact Dw]. intros v Hv. eapply lin_grad_zero; [exact Hsm|exact NX|exact (flat_pull s y _ Hs HZ)|exact Hv]. }
  unfold lin_optimize_fl, linear_optimize. cbn [linear_loop]. rewrite (proj2 (Nat.ltb_lt 0 n) Hn). cbn [andb]. rewrite U. cbn [bind]. destruct n as [|n]; [lia|]. cbn [linear_loop]. now rewrite (far_self sm ws Hsm Nw).
Qed.

(** ---- two points, one label, every start ---- *)
Lemma corner sm s c a b : sums b64 sm -> bpow radix2 (-400) <= s <= bpow radix2 300 -> 141 * s <= c <= bpow radix2 400 -> 0 <= a <= 2 -> 0 <= b <= 2 -> 1 / 2 <= a \/ 1 / 2 <= b ->
  exists v, latent_fl b64 sm [[0; 0]; [c; c]] [Fin a; Fin b] = [Fin 0; Fin v] /\ 70 * s <= v <= bpow radix2 500.
Proof.
  intros Hsm Hs Hc Ha Hb Hab. assert (HF := b64_rounding). assert (P400 := bpow_gt_0 radix2 (-400)). assert (B1 : bpow radix2 (-1022) <= bpow radix2 (-400)) by (apply bpow_le; lia). assert (P0 := bpow_gt_0 radix2 400).
  unfold latent_fl. cbn [map]. rewrite dot_zero; [|exact Hsm|discriminate|].
  2:{ intros x z. apply combine_zero_l; intros v Hv; [cbn in Hv; intuition congruence|]. destruct Hv as [<-|[<-|[]]]; now eexists. }
  assert (M : forall e, 0 <= e <= 2 -> exists p, fmul b64 (Fin c) (Fin e) = Fin p /\ 0 <= p <= IZR 2 * bpow radix2 400 /\ rd b64 p = p /\ (1 / 2 <= e -> 70 * s <= p)).
  { intros e He. cbn [fmul]. destruct (rnd_scaled (c * e) 2 400 ltac:(lia) ltac:(lia)) as [-> B]; [rewrite Rabs_right by nra; nra|]. exists (rd b64 (c * e)). assert (N : 0 <= rd b64 (c * e)). { assert (R := rdm 0 (c * e) ltac:(nra)). rewrite (rd_0 b64 HF) in R. exact R. }
    rewrite Rabs_right in B by lra. split; [reflexivity|]. split; [lra|]. split; [apply HF|]. intro E. assert (R := rdm (c * (1 / 2)) (c * e) ltac:(nra)). assert (R2 := rd_rel6 (c * (1 / 2)) ltac:(lra)). nra. }
  destruct (M a Ha) as [p [Ep [Bp [Rp Lp]]]]. destruct (M b Hb) as [q [Eq [Bq [Rq Lq]]]]. unfold dot_fl. cbn [combine map fst snd]. rewrite Ep, Eq.
  assert (A := Hsm [Fin p; Fin q] ltac:(discriminate)). exists (rd b64 (p + q)).
  assert (S4 : rnd b64 (p + q) = Fin (rd b64 (p + q)) /\ Rabs (rd b64 (p + q)) <= IZR 4 * bpow radix2 400) by (apply rnd_scaled; [lia|lia|rewrite Rabs_right by lra; lra]). destruct S4 as [ES BS].
  split.
  - apply adds_pair in A. rewrite !fadd_fin, (Rplus_comm q p), ES in A. now destruct A as [-> | ->].
  - assert (R1 := rdm p (p + q) ltac:(lra)). assert (R2 := rdm q (p + q) ltac:(lra)). rewrite Rp in R1. rewrite Rq in R2. split; [destruct Hab; intuition lra|]. apply Rle_trans with (IZR 4 * bpow radix2 400); [eapply Rle_trans; [apply Rle_abs|exact BS]|]. change (IZR 4) with (bpow radix2 2). rewrite <- bpow_plus. apply bpow_le. lia.
Qed.
Lemma never_learned sm inv loss s c a b n : sums b64 sm -> rejects_zero inv -> bpow radix2 (-400) <= s <= bpow radix2 300 -> 141 * s <= c <= bpow radix2 400 ->
  isdouble a -> isdouble b -> 0 <= a <= 2 -> 0 <= b <= 2 -> 1 / 2 <= a \/ 1 / 2 <= b -> (0 < n)%nat ->
  lin_optimize_fl b64 sm inv loss s [((-1)%Z, 0%nat, 1%nat)] [[0; 0]; [c; c]] [Fin a; Fin b] n = Ok (1%nat, [Fin a; Fin b]) /\
  exists v, latent_fl b64 sm [[0; 0]; [c; c]] [Fin a; Fin b] = [Fin 0; Fin v] /\ 70 * s <= v.
Proof.
  intros Hsm Hinv Hs Hc Da Db Ha Hb Hab Hn. destruct (corner sm s c a b Hsm Hs Hc Ha Hb Hab) as [v [E B]]. assert (P400 := bpow_gt_0 radix2 (-400)). split; [|exists v; split; [exact E|lra]].
  assert (bpow radix2 300 <= bpow radix2 400) by (apply bpow_le; lia). assert (P500 := bpow_gt_0 radix2 500).
  apply (lin_stuck sm inv loss s _ _ [a; b] [0; v]); auto; try discriminate; [lra|constructor; [right; reflexivity|constructor]| |].
  - intro i. destruct i as [|[|i]]; cbn [nth]; [rewrite Rabs_R0; lra|rewrite Rabs_right; lra|destruct i; rewrite Rabs_R0; lra].
  - intros p [<-|[]]. unfold dk_of, v_of, u_of. cbn [fst snd nth]. lra.
Qed.
