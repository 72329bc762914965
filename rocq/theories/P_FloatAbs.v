(** Ratings in binary64: lemmas. *)
From Coquelicot Require Import Coquelicot.
From Coq Require Import Reals ZArith Lra Lia List Bool Permutation.
From Flocq Require Import Core.
From Verif Require Import M_Base M_RBase M_Normal M_PrefProbit M_Float M_FloatProbit M_FloatOrd M_FloatKern M_FloatAbs S_Float S_FloatProbit S_FloatAbs P_RBase P_Normal P_Float P_FloatProbit P_FloatProbit2 P_FloatProbit3 P_FloatKern P_FloatKern3 P_FloatLin.
Import ListNotations.
Local Open Scope R_scope.

(** ---- the parameters ---- *)
Lemma eps_tight : 99 / 1000000000000 <= eps_fl b64 <= 101 / 1000000000000.
Proof.
  assert (B : bpow radix2 (-1022) <= 1 / 10000000000). { apply Rle_trans with (bpow radix2 (-34)); [apply bpow_le; lia|]. change (bpow radix2 (-34)) with (/ IZR (2 ^ 34)). change (2 ^ 34)%Z with 17179869184%Z. lra. }
  unfold eps_fl. assert (R := rd_rel6 _ B). lra.
Qed.
Lemma eps53 : 0 < bpow radix2 (-53) <= 1 / 1000000000000000.
Proof. split; [apply bpow_gt_0|]. change (bpow radix2 (-53)) with (/ IZR (2 ^ 53)). change (2 ^ 53)%Z with 9007199254740992%Z. lra. Qed.
Lemma hi_tight : eps_fl b64 <= hi_fl b64 <= 1 - 98 / 1000000000000.
Proof.
  assert (E := eps_tight). assert (B : bpow radix2 (-1022) <= 1 / 2) by (change (1 / 2) with (1 * bpow radix2 (-1)); rewrite Rmult_1_l; apply bpow_le; lia).
  unfold hi_fl. assert (R := rd_rel (1 - eps_fl b64) ltac:(lra)). assert (K := eps53). set (e := bpow radix2 (-53)) in *. nra.
Qed.
Lemma link_ok s f : bpow radix2 (-400) <= s <= bpow radix2 400 -> exists m, link_fl b64 s f = Fin m /\ eps_fl b64 <= m <= hi_fl b64.
Proof.
  intro Hs. destruct (isqrt_tight s Hs) as [k [Ek [_ [K1 _]]]]. unfold link_fl. rewrite Ek. cbn [fmul]. assert (H := hi_tight).
  assert (C : exists c, cdf_fl b64 (rnd b64 (f * k)) = Fin c).
  { unfold rnd. destruct (Rleb (huge b64) _).
    - unfold cdf_fl. cbn [fclip]. assert (N := ndtr_range 100). destruct (rnd_unit b64 b64_rounding (ndtr 100) ltac:(lra)) as [-> _]. now eexists.
    - destruct (Rleb _ _); [|destruct (cdf_ok (rd b64 (f * k))) as [c [-> _]]; now eexists].
      unfold cdf_fl. cbn [fclip]. assert (N := ndtr_range (-30)). destruct (rnd_unit b64 b64_rounding (ndtr (-30)) ltac:(lra)) as [-> _]. now eexists. }
  destruct C as [c ->]. cbn [fclip]. eexists. split; [reflexivity|]. apply rclip_range. lra.
Qed.
Lemma params_ok s v f : bpow radix2 (-400) <= s <= bpow radix2 400 -> bpow radix2 (-400) <= v <= bpow radix2 400 ->
  exists a b, alpha_fl b64 s v f = Fin a /\ beta_fl b64 s v f = Fin b /\ v * (97 / 1000000000000) <= a <= v /\ v * (97 / 1000000000000) <= b <= v /\ Rabs (a + b - v) <= v * bpow radix2 (-53).
Proof.
  intros Hs Hv. assert (P := bpow_gt_0 radix2 (-400)). destruct (link_ok s f Hs) as [m [Em Bm]]. assert (E := eps_tight). assert (H := hi_tight). assert (K := eps53).
  unfold beta_fl, alpha_fl. rewrite Em. cbn [fmul]. assert (B1 : bpow radix2 (-1022) <= bpow radix2 (-450)) by (apply bpow_le; lia).
  assert (B2 : bpow radix2 (-450) <= bpow radix2 (-400) * (9 / 100000000000)). { replace (bpow radix2 (-450)) with (bpow radix2 (-400) * bpow radix2 (-50)) by (rewrite <- bpow_plus; reflexivity). apply Rmult_le_compat_l; [lra|]. change (bpow radix2 (-50)) with (/ IZR (2 ^ 50)). change (2 ^ 50)%Z with 1125899906842624%Z. lra. }
  assert (VM : bpow radix2 (-400) * (9 / 100000000000) <= v * m) by (apply Rmult_le_compat; lra).
  assert (SM : Rabs (v * m) <= IZR 1 * bpow radix2 400) by (rewrite Rabs_right by nra; nra). destruct (rnd_scaled (v * m) 1 400 ltac:(lia) ltac:(lia) SM) as [-> _].
  assert (RA := rd_rel (v * m) ltac:(lra)). set (a := rd b64 (v * m)) in *. set (e := bpow radix2 (-53)) in *.
  assert (U : v * m <= v * (1 - 98 / 1000000000000)) by (apply Rmult_le_compat_l; lra). assert (L : v * (99 / 1000000000000) <= v * m) by (apply Rmult_le_compat_l; lra).
  assert (A1 : v * (97 / 1000000000000) <= a) by nra. assert (A2 : a <= v * (1 - 975 / 10000000000000)) by nra.
  unfold fsub. cbn [fneg fadd]. assert (D : v * (975 / 10000000000000) <= v - a <= v) by nra. change (v + - a) with (v - a).
  assert (SD : Rabs (v - a) <= IZR 1 * bpow radix2 400) by (rewrite Rabs_right by nra; lra). destruct (rnd_scaled (v - a) 1 400 ltac:(lia) ltac:(lia) SD) as [-> _].
  assert (RB := rd_rel (v - a) ltac:(nra)). fold e in RB. set (b := rd b64 (v - a)) in *.
  exists a, b. split; [reflexivity|]. split; [reflexivity|]. split; [nra|]. split; [|apply Rabs_le; nra]. split; nra.
Qed.

(** ---- sizes ---- *)
Lemma small_up e k e' k' v : (0 <= k)%Z -> IZR k * bpow radix2 e <= IZR k' * bpow radix2 e' -> small e k v -> small e' k' v.
Proof. intros _ H [x [-> L]]. exists x. split; [reflexivity|lra]. Qed.
Lemma isqrt_small100 s : bpow radix2 (-100) <= s <= bpow radix2 100 -> small 100 1 (isqrt_fl b64 s).
Proof.
  intro H. assert (bpow radix2 (-400) <= bpow radix2 (-100)) by (apply bpow_le; lia). assert (bpow radix2 100 <= bpow radix2 400) by (apply bpow_le; lia). assert (P := bpow_gt_0 radix2 (-100)).
  destruct (isqrt_tight s ltac:(lra)) as [k [-> [_ [K KS]]]]. exists k. split; [reflexivity|]. rewrite Rabs_right by lra. rewrite Rmult_1_l.
  assert (X : bpow radix2 100 * bpow radix2 (-100) = 1) by (rewrite <- bpow_plus; reflexivity). assert (P100 := bpow_gt_0 radix2 100). nra.
Qed.
Lemma fln_unit r : bpow radix2 (-50) <= r <= 1 -> small 101 1 (fln b64 (Fin r)).
Proof.
  intro H. assert (P := bpow_gt_0 radix2 (-50)). unfold fln. rewrite (proj2 (Rltb_false r 0)) by lra. destruct (Req_EM_T r 0); [lra|].
  assert (L : IZR (-50) <= ln r <= IZR 0).
  { split.
    - rewrite <- (ln_exp (IZR (-50))). apply ln_le; [apply exp_pos|]. apply Rle_trans with (2 := proj1 H). change (-50)%Z with (- Z.of_nat 50)%Z. rewrite bpow_neg. replace (IZR (- Z.of_nat 50)) with (- INR 50) by (rewrite opp_IZR, <- INR_IZR_INZ; reflexivity). apply pow2_exp.
    - rewrite <- ln_1. apply ln_le; lra. }
  destruct (rnd_between b64 b64_rounding (ln r) (-50) 0 ltac:(lia) ltac:(lia) L) as [-> B]. eexists. split; [reflexivity|]. rewrite Rabs_left1 by lra. apply Rle_trans with (bpow radix2 6); [change (bpow radix2 6) with 64; lra|]. rewrite Rmult_1_l. apply bpow_le. lia.
Qed.
Section Sizes.
Variables (sp : special_fl) (s v : R) (f : nat -> R).
Hypothesis Hsp : regular sp.
Hypothesis Hs : bpow radix2 (-100) <= s <= bpow radix2 100.
Hypothesis Hv : bpow radix2 (-60) <= v <= bpow radix2 60.
Hypothesis Hf : forall i, Rabs (f i) <= bpow radix2 100.
Lemma s400 : bpow radix2 (-400) <= s <= bpow radix2 400.
Proof. assert (bpow radix2 (-400) <= bpow radix2 (-100)) by (apply bpow_le; lia). assert (bpow radix2 100 <= bpow radix2 400) by (apply bpow_le; lia). lra. Qed.
Lemma params_sized i : exists a b, alpha_fl b64 s v (f i) = Fin a /\ beta_fl b64 s v (f i) = Fin b /\ bpow radix2 (-100) <= a <= bpow radix2 100 /\ bpow radix2 (-100) <= b <= bpow radix2 100.
Proof.
  assert (bpow radix2 (-400) <= bpow radix2 (-60)) by (apply bpow_le; lia). assert (bpow radix2 60 <= bpow radix2 100) by (apply bpow_le; lia). assert (bpow radix2 100 <= bpow radix2 400) by (apply bpow_le; lia). assert (P := bpow_gt_0 radix2 (-60)).
  destruct (params_ok s v (f i) s400 ltac:(lra)) as [a [b [-> [-> [A [B _]]]]]]. exists a, b. split; [reflexivity|]. split; [reflexivity|].
  assert (X : bpow radix2 (-100) <= v * (97 / 1000000000000)). { replace (bpow radix2 (-100)) with (bpow radix2 (-60) * bpow radix2 (-40)) by (rewrite <- bpow_plus; reflexivity). assert (P40 := bpow_gt_0 radix2 (-40)). apply Rmult_le_compat; try lra. change (bpow radix2 (-40)) with (/ IZR (2 ^ 40)). change (2 ^ 40)%Z with 1099511627776%Z. lra. }
  lra.
Qed.
Lemma arg_small i : small 200 1 (fmul b64 (Fin (f i)) (isqrt_fl b64 s)).
Proof. apply (small_mul 100 1 100 1); try lia; [|apply isqrt_small100, Hs]. exists (f i). split; [reflexivity|]. rewrite Rmult_1_l. apply Hf. Qed.
Lemma slope_small i : small 160 1 (slope_fl b64 s v (f i)).
Proof.
  unfold slope_fl. apply (small_mul 160 1 0 1); try lia.
  - apply (small_mul 60 1 100 1); try lia; [|apply isqrt_small100, Hs]. exists v. split; [reflexivity|]. assert (P := bpow_gt_0 radix2 (-60)). rewrite Rabs_right; lra.
  - destruct (arg_small i) as [z [-> _]]. destruct (pdf_le z 0 ltac:(lia) ltac:(nra)) as [p [-> [B _]]]. exists p. split; [reflexivity|]. change (bpow radix2 0) with 1. rewrite Rabs_right; lra.
Qed.
Lemma tmp_small x i : inside x -> small 101 4 (tmp_fl b64 sp s v x (f i)).
Proof.
  intros [r [-> H]]. assert (P := bpow_gt_0 radix2 (-50)). destruct (params_sized i) as [a [b [Ea [Eb [A B]]]]]. unfold tmp_fl. rewrite Ea, Eb. destruct (proj1 Hsp a A) as [da [-> Da]]. destruct (proj1 Hsp b B) as [db [-> Db]].
  assert (L1 := fln_unit r ltac:(lra)). unfold fsub at 3. cbn [fneg fadd]. destruct (rnd_between b64 b64_rounding (1 + - r) 0 1 ltac:(lia) ltac:(lia) ltac:(lra)) as [-> B1].
  assert (M := rdm (bpow radix2 (-50)) (1 + - r) ltac:(lra)). rewrite <- (Rmult_1_l (bpow radix2 (-50))), (rd_scaled 1), Rmult_1_l in M by lia. assert (L2 := fln_unit (rd b64 (1 + - r)) ltac:(lra)).
  apply (small_add 101 3 1); try lia; [|exists db; split; [reflexivity|lra]]. apply (small_add 101 2 1); try lia; [|apply small_neg; exists da; split; [reflexivity|lra]]. apply (small_add 101 1 1); try lia; [exact L1|apply small_neg, L2].
Qed.
Lemma dpy_small x i : inside x -> small 261 4 (abs_dpy_fl b64 sp s v x (f i)).
Proof. intro H. apply (small_mul 160 1 101 4); try lia; [apply slope_small|now apply tmp_small]. Qed.
Lemma Wdiag_small x i : inside x -> small 561 6 (abs_Wdiag_fl b64 sp s v x (f i)).
Proof.
  intro H. unfold abs_Wdiag_fl. apply (small_mul 160 1 401 6); try lia; [apply small_neg, slope_small|]. apply (small_add 401 4 2); try lia.
  - apply (small_mul 300 1 101 4); try lia; [|now apply tmp_small]. apply (small_mul 100 1 200 1); try lia.
    + exists (f i). split; [reflexivity|]. rewrite Rmult_1_l. apply Hf.
    + apply (small_mul 100 1 100 1); try lia; apply isqrt_small100, Hs.
  - apply (small_up 361 2); [lia|apply Rmult_le_compat_l; [lra|apply bpow_le; lia]|]. apply (small_mul 160 1 201 2); try lia; [apply slope_small|].
    destruct (params_sized i) as [a [b [-> [-> [A B]]]]]. destruct (proj1 (proj2 Hsp) a A) as [ta [-> Ta]]. destruct (proj1 (proj2 Hsp) b B) as [tb [-> Tb]]. apply (small_add 201 1 1); try lia; eexists; (split; [reflexivity|lra]).
Qed.
Lemma py_small x i : inside x -> small 201 1 (abs_py_fl b64 sp s v x (f i)).
Proof. intros [r [-> H]]. destruct (params_sized i) as [a [b [Ea [Eb [A B]]]]]. unfold abs_py_fl. rewrite Ea, Eb. destruct Hsp as [_ [_ [_ HL]]]. destruct (HL r a b H A B) as [l [-> L]]. exists l. split; [reflexivity|lra]. Qed.
Lemma put_prop (Q : fval -> Prop) y g i d : Q d -> (forall p, In p y -> Q (g (fst p))) -> Q (put_fl y g i d).
Proof.
  revert d. induction y as [|[x j] y IH]; intros d Hd H; cbn; [exact Hd|]. apply IH; [|intros p Hp; apply H; now right]. destruct (Nat.eqb i j); [apply (H (x, j)); now left|exact Hd].
Qed.
Lemma adds_small e l a : (-1074 <= e <= 970)%Z -> adds b64 l a -> (Z.of_nat (length l) <= 2 ^ 53)%Z -> (forall v, In v l -> small e 1 v) -> small e (Z.of_nat (length l)) a.
Proof.
  intro He. induction 1 as [x|l1 l2 l a b A1 IH1 A2 IH2 P]; intros HL HV; [apply HV; now left|]. assert (L := Permutation_length P). rewrite app_length in L. rewrite L, Nat2Z.inj_add in *.
  apply small_add; try lia.
  - apply IH1; [lia|]. intros v0 Hv0. apply HV. apply (Permutation_in _ (Permutation_sym P)), in_or_app. now left.
  - apply IH2; [lia|]. intros v0 Hv0. apply HV. apply (Permutation_in _ (Permutation_sym P)), in_or_app. now right.
Qed.
Lemma ratings_finite sm y : sums b64 sm -> y <> [] -> (Z.of_nat (length y) <= 2 ^ 53)%Z -> (forall p, In p y -> inside (fst p)) ->
  let '(W, g, l) := abs_derivatives_fl b64 sm sp s v y f in (forall i j, finite (W i j)) /\ (forall i, finite (g i)) /\ finite l.
Proof.
  intros Hsm N L HI. unfold abs_derivatives_fl. split; [|split].
  - intros i j. assert (F : finite (if Nat.eqb i j then put_fl y (fun x => abs_Wdiag_fl b64 sp s v x (f i)) i (Fin 0) else Fin 0)).
    { destruct (Nat.eqb i j); [|now exists 0]. apply put_prop; [now exists 0|]. intros p Hp. eapply small_finite, Wdiag_small, HI, Hp. }
    destruct F as [w ->]. now exists (- w).
  - intro i. apply put_prop; [now exists 0|]. intros p Hp. eapply small_finite, dpy_small, HI, Hp.
  - eapply small_finite, (adds_small 201); [lia|apply Hsm, map_ne, N|now rewrite map_length|]. intros u Hu. apply in_map_iff in Hu. destruct Hu as [p [<- Hp]]. apply py_small, HI, Hp.
Qed.
(** beyond 70 standard deviations ratings have no effect *)
Lemma arg_far i : 70 * s <= Rabs (f i) -> exists z, fmul b64 (Fin (f i)) (isqrt_fl b64 s) = Fin z /\ 47 <= Rabs z.
Proof.
  intro H. assert (P := bpow_gt_0 radix2 (-100)). destruct (isqrt_tight s s400) as [k [Ek [_ [K KS]]]]. destruct (arg_small i) as [z [Ez Bz]]. exists z. split; [exact Ez|]. revert Ez. rewrite Ek. cbn [fmul]. unfold rnd. destruct (Rleb _ _); [discriminate|]. destruct (Rleb _ _); [discriminate|]. intro Ez. injection Ez as <-.
  assert (M : IZR 47 <= Rabs (f i * k)) by (rewrite Rabs_mult, (Rabs_right k) by lra; nra).
  destruct (Rcase_abs (f i * k)) as [C|C].
  - rewrite (Rabs_left _ C) in M. assert (R := rdm _ _ M). rewrite (rd_int b64 b64_rounding), rd_opp in R by lia. rewrite <- Rabs_Ropp. eapply Rle_trans; [exact R|apply Rle_abs].
  - rewrite (Rabs_right _ C) in M. assert (R := rdm _ _ M). rewrite (rd_int b64 b64_rounding) in R by lia. eapply Rle_trans; [exact R|apply Rle_abs].
Qed.
Lemma ratings_flat sm y : (forall p, In p y -> inside (fst p)) -> (forall p, In p y -> 70 * s <= Rabs (f (snd p))) ->
  let '(W, g, l) := abs_derivatives_fl b64 sm sp s v y f in (forall i j, W i j = Fin 0) /\ (forall i, g i = Fin 0).
Proof.
  intros HI HF. unfold abs_derivatives_fl.
  assert (SL : forall i, 70 * s <= Rabs (f i) -> slope_fl b64 s v (f i) = Fin 0).
  { intros i H. unfold slope_fl. destruct (arg_far i H) as [z [-> Z]]. rewrite (pdf_far z Z). apply mul_zero. eapply small_finite, (small_mul 60 1 100 1); try lia; [|apply isqrt_small100, Hs]. exists v. split; [reflexivity|]. assert (P := bpow_gt_0 radix2 (-60)). rewrite Rabs_right; lra. }
  assert (PZ : forall g i, (forall p, In p y -> snd p = i -> g (fst p) = Fin 0) -> put_fl y g i (Fin 0) = Fin 0).
  { clear. intros g i. generalize (eq_refl (Fin 0)). generalize (Fin 0) at 1 4. induction y as [|[x j] y' IH]; intros d Hd H; cbn; [exact Hd|]. apply IH; [|intros p Hp; apply H; now right]. destruct (Nat.eqb i j) eqn:E; [|exact Hd]. apply Nat.eqb_eq in E. apply (H (x, j)); [now left|now symmetry]. }
  split.
  - intros i j. destruct (Nat.eqb i j); [|cbn; now rewrite Ropp_0]. rewrite PZ; [cbn; now rewrite Ropp_0|]. intros p Hp <-. unfold abs_Wdiag_fl. rewrite (SL _ (HF p Hp)). cbn [fneg]. rewrite Ropp_0. apply zero_mul.
    apply (small_finite 401 6). apply (small_add 401 4 2); try lia.
    + apply (small_mul 300 1 101 4); try lia; [|apply tmp_small, HI, Hp]. apply (small_mul 100 1 200 1); try lia; [eexists; split; [reflexivity|rewrite Rmult_1_l; apply Hf]|]. apply (small_mul 100 1 100 1); try lia; apply isqrt_small100, Hs.
    + destruct (params_sized (snd p)) as [a [b [-> [-> [A B]]]]]. destruct (proj1 (proj2 Hsp) a A) as [ta [-> Ta]]. destruct (proj1 (proj2 Hsp) b B) as [tb [-> Tb]]. rewrite zero_mul.
      * exists 0. split; [reflexivity|]. rewrite Rabs_R0. assert (Q := bpow_gt_0 radix2 401). lra.
      * eapply small_finite, (small_add 201 1 1); try lia; eexists; (split; [reflexivity|lra]).
  - intro i. apply PZ. intros p Hp <-. unfold abs_dpy_fl. rewrite (SL _ (HF p Hp)). apply zero_mul. eapply small_finite, tmp_small, HI, Hp.
Qed.
End Sizes.

(** ---- stored ratings ---- *)
Lemma clamp_bounds : bpow radix2 (-50) <= rd b64 (1 / 1000) <= 1 / 2 /\ 1 / 2 <= rd b64 (999 / 1000) <= 1 - bpow radix2 (-50).
Proof.
  assert (B : bpow radix2 (-1022) <= 1 / 1000). { apply Rle_trans with (bpow radix2 (-10)); [apply bpow_le; lia|]. change (bpow radix2 (-10)) with (/ 1024). lra. }
  assert (R1 := rd_rel6 _ B). assert (R2 := rd_rel6 (999 / 1000) ltac:(lra)). assert (E : 0 < bpow radix2 (-50) <= 1 / 10000) by (split; [apply bpow_gt_0|]; apply Rle_trans with (bpow radix2 (-14)); [apply bpow_le; lia|change (bpow radix2 (-14)) with (/ 16384); lra]). lra.
Qed.
Lemma fltb_num x y : fltb (Fin x) (Fin y) = Rltb x y.
Proof. cbn [fltb fleb]. destruct (Rltb x y) eqn:E; [apply Rltb_true in E|apply Rltb_false in E]; [now rewrite (proj2 (Rleb_false _ _)) by lra|now rewrite (proj2 (Rleb_true _ _)) by lra]. Qed.
Definition clamp1 (x : fval) : fval :=
  let x1 := if fltb x (Fin (rd b64 (1 / 1000))) then Fin (rd b64 (1 / 1000)) else x in if fltb (Fin (rd b64 (999 / 1000))) x1 then Fin (rd b64 (999 / 1000)) else x1.
Lemma check_eq v : (forall x, In x v -> fltb x (Fin 0) = false /\ fltb (Fin 1) x = false) -> check_ratings_fl b64 v = Ok (map clamp1 v).
Proof.
  intro H. unfold check_ratings_fl. assert (E : forall g, (forall x, In x v -> g x = false) -> existsb g v = false). { clear. intros g H. induction v as [|x v IH]; [reflexivity|]. cbn. rewrite H by now left. apply IH. intros y Hy. apply H. now right. }
  rewrite !E by (intros x Hx; apply (H x Hx)). cbn [orb]. rewrite map_map. reflexivity.
Qed.
Lemma clamp_inside r : 0 <= r <= 1 -> inside (clamp1 (Fin r)).
Proof.
  intro H. assert (C := clamp_bounds). unfold clamp1. rewrite fltb_num. destruct (Rltb r (rd b64 (1 / 1000))) eqn:E1; [apply Rltb_true in E1|apply Rltb_false in E1]; cbv zeta; rewrite fltb_num.
  - destruct (Rltb _ _) eqn:E2; [apply Rltb_true in E2; lra|]. eexists. split; [reflexivity|lra].
  - destruct (Rltb _ _) eqn:E2; [apply Rltb_true in E2|apply Rltb_false in E2]; eexists; (split; [reflexivity|lra]).
Qed.
Lemma ratings_clamped v : (forall x, In x v -> unit_fin x) -> exists r, check_ratings_fl b64 v = Ok r /\ length r = length v /\ forall x, In x r -> inside x.
Proof.
  intro H. exists (map clamp1 v). split; [|split; [apply map_length|]].
  - apply check_eq. intros x Hx. destruct (H x Hx) as [r [-> B]]. rewrite !fltb_num. split; apply Rltb_false; lra.
  - intros x Hx. apply in_map_iff in Hx. destruct Hx as [u [<- Hu]]. destruct (H u Hu) as [r [-> B]]. now apply clamp_inside.
Qed.
Lemma ratings_missing v : (forall x, In x v -> x = NaN \/ unit_fin x) -> In NaN v -> exists r, check_ratings_fl b64 v = Ok r /\ length r = length v /\ In NaN r.
Proof.
  intros H HN. exists (map clamp1 v). split; [|split; [apply map_length|]].
  - apply check_eq. intros x Hx. destruct (H x Hx) as [->|[r [-> B]]]; [split; reflexivity|]. rewrite !fltb_num. split; apply Rltb_false; lra.
  - apply in_map_iff. exists NaN. split; [reflexivity|exact HN].
Qed.
Lemma fadd_nan_l a : fadd b64 NaN a = NaN.
Proof. destruct a; reflexivity. Qed.
Lemma fadd_nan_r a : fadd b64 a NaN = NaN.
Proof. destruct a; reflexivity. Qed.
Lemma fmul_nan_r a : fmul b64 a NaN = NaN.
Proof. destruct a; reflexivity. Qed.
Lemma adds_nan l a : adds b64 l a -> In NaN l -> a = NaN.
Proof.
  induction 1 as [x|l1 l2 l a b A1 IH1 A2 IH2 P]; intro H; [destruct H as [H|[]]; exact H|]. apply (Permutation_in _ P) in H. apply in_app_or in H. destruct H as [H|H]; [rewrite (IH1 H); apply fadd_nan_l|rewrite (IH2 H); apply fadd_nan_r].
Qed.
Lemma tmp_nan sp s v f : tmp_fl b64 sp s v NaN f = NaN.
Proof. unfold tmp_fl, fsub. cbn [fln]. rewrite !fadd_nan_l. reflexivity. Qed.
Lemma put_last y g i d x y' : y = y' ++ [(x, i)] -> put_fl y g i d = g x.
Proof. intros ->. revert d. induction y' as [|[x' j] y' IH]; intro d; cbn; [now rewrite Nat.eqb_refl|]. apply IH. Qed.
Lemma ratings_nan sm sp s v y i f : sums b64 sm -> regular sp ->
  let '(W, g, l) := abs_derivatives_fl b64 sm sp s v (y ++ [(NaN, i)]) f in W i i = NaN /\ g i = NaN /\ l = NaN.
Proof.
  intros Hsm Hsp. unfold abs_derivatives_fl. rewrite Nat.eqb_refl. rewrite !(put_last _ _ _ _ NaN y eq_refl). split; [|split].
  - unfold abs_Wdiag_fl. rewrite tmp_nan, fmul_nan_r, fadd_nan_l, fmul_nan_r. reflexivity.
  - unfold abs_dpy_fl. rewrite tmp_nan. apply fmul_nan_r.
  - eapply adds_nan; [apply Hsm; destruct y; discriminate|]. rewrite map_app. apply in_or_app. right. left. cbn [fst snd]. unfold abs_py_fl. apply Hsp.
Qed.
