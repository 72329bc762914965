(** The periodic and the linear kernel in binary64. *)
From Coq Require Import Reals ZArith Lra Lia List Bool Permutation.
From Flocq Require Import Core Relative.
From Verif Require Import M_Base M_RBase M_Kernel M_Float M_FloatProbit M_FloatKern M_FloatPer S_Float S_FloatProbit P_RBase P_Float P_FloatProbit P_FloatProbit2 P_FloatProbit3 P_FloatNorm P_FloatOrd P_FloatAbs P_FloatKern P_FloatKern2 P_PiBounds.
Import ListNotations.
Local Open Scope R_scope.

(** ---- symmetry ---- *)
Lemma fabs_neg d : fabs (fneg d) = fabs d.
Proof. destruct d as [| | |x]; cbn [fneg fabs]; try reflexivity. now rewrite Rabs_Ropp. Qed.
Lemma l1_sym sm u v : l1_fl b64 sm u v = l1_fl b64 sm v u.
Proof.
  unfold l1_fl. f_equal. revert v. induction u as [|a u IH]; intros [|b v]; cbn [combine map fst snd]; try reflexivity.
  rewrite IH. f_equal. rewrite (fsub_swap a b), fabs_neg. reflexivity.
Qed.
Lemma per_sym sm s l p u v : per_fl b64 sm s l p u v = per_fl b64 sm s l p v u.
Proof. unfold per_fl, phase_fl. now rewrite l1_sym. Qed.
Lemma fmul_sym a b : fmul b64 a b = fmul b64 b a.
Proof. destruct a as [| | |x], b as [| | |y]; cbn [fmul]; try reflexivity. now rewrite Rmult_comm. Qed.
Lemma lin_sym sm s sb c u v : lin_fl b64 sm s sb c u v = lin_fl b64 sm s sb c v u.
Proof.
  unfold lin_fl. do 3 f_equal. revert v. induction u as [|a u IH]; intros [|b v]; cbn [combine map fst snd]; try reflexivity.
  rewrite IH. f_equal. apply fmul_sym.
Qed.

(** ---- distances ---- *)
Lemma abs_weighs x : weighs (fabs (rnd b64 x)).
Proof.
  unfold rnd. destruct (Rleb _ _); [now left|]. destruct (Rleb _ _); [now left|]. right. cbn [fabs]. exists (Rabs (rd b64 x)). split; [reflexivity|]. split; [apply Rabs_pos|].
  assert (I : rd b64 (rd b64 x) = rd b64 x) by apply b64_rounding. unfold Rabs. destruct (Rcase_abs (rd b64 x)); [|exact I]. now rewrite rd_opp, I.
Qed.
Lemma diff_weighs u v w : In w (map (fun ab : R * R => fabs (fsub b64 (Fin (fst ab)) (Fin (snd ab)))) (combine u v)) -> weighs w.
Proof. intro H. apply in_map_iff in H. destruct H as [[a b] [<- _]]. unfold fsub. cbn [fst snd fneg fadd]. apply abs_weighs. Qed.
Lemma diffs_some {A} (f : R * R -> A) (u v : point) : u <> [] -> length u = length v -> map f (combine u v) <> [].
Proof. destruct u, v; cbn; intros; try contradiction; discriminate. Qed.
Lemma l1_weighs sm u v : sums b64 sm -> u <> [] -> length u = length v -> weighs (l1_fl b64 sm u v) /\
  forall a b, In (a, b) (combine u v) -> no_less (l1_fl b64 sm u v) (fabs (rnd b64 (a - b))).
Proof.
  intros Hs Hu HL. destruct (adds_weighs _ _ (Hs _ (diffs_some _ u v Hu HL)) (diff_weighs u v)) as [W K]. split; [exact W|].
  intros a b H. apply K. apply in_map_iff. exists (a, b). split; [reflexivity|exact H].
Qed.
Lemma same_coord (u : point) a b : In (a, b) (combine u u) -> a = b.
Proof. induction u as [|x u IH]; cbn; [easy|]. intros [E|E]; [now injection E as <- <-|auto]. Qed.
Lemma l1_self sm u : sums b64 sm -> u <> [] -> l1_fl b64 sm u u = Fin 0.
Proof.
  intros Hs Hu. apply (adds_zero _ _ (Hs _ (diffs_some _ u u Hu eq_refl))). intros w Hw. apply in_map_iff in Hw. destruct Hw as [[a b] [<- H]].
  apply same_coord in H. subst b. unfold fsub. cbn [fst snd fneg fadd]. rewrite Rplus_opp_r, rnd_0. cbn [fabs]. now rewrite Rabs_R0.
Qed.

(** ---- the exponent ---- *)
Lemma rnd_one x : -1 <= x <= 1 -> rnd b64 x = Fin (rd b64 x) /\ -1 <= rd b64 x <= 1.
Proof.
  intros [A B]. assert (O : rd b64 1 = 1) by (apply rd_1, b64_rounding). assert (L := rdm _ _ A). assert (U := rdm _ _ B). replace (-1) with (- (1)) in L by lra. rewrite rd_opp, O in L. rewrite O in U.
  assert (H : bpow radix2 1 < huge b64) by (apply bpow_lt; lia). change (bpow radix2 1) with 2 in H. unfold rnd. rewrite (proj2 (Rleb_false _ _)) by lra. rewrite (proj2 (Rleb_false _ _)) by lra. split; [reflexivity|lra].
Qed.
(** the numerator is a number that is not positive *)
Lemma numerator_ok y : -1 <= y <= 1 -> exists t, fmul b64 (fmul b64 (Fin (-2)) (Fin y)) (Fin y) = Fin t /\ t <= 0 /\ rd b64 t = t /\ (y <= - (1 / 2) -> t <= - (1 / 2)).
Proof.
  intros [A B]. cbn [fmul]. assert (S2 : Rabs (-2 * y) <= IZR 2 * bpow radix2 0) by (cbn [bpow]; apply Rabs_le; lra).
  destruct (rnd_scaled (-2 * y) 2 0 ltac:(lia) ltac:(lia) S2) as [-> C]. cbn [bpow] in C. rewrite Rmult_1_r in C. cbn [fmul]. set (z := rd b64 (-2 * y)) in *.
  assert (SG : z * y <= 0 /\ (y <= - (1 / 2) -> z * y <= - (1 / 2))).
  { destruct (Rle_dec y 0) as [N|N].
    - assert (P : 0 <= z) by (unfold z; rewrite <- (rd_0 b64 b64_rounding); apply rdm; lra). split; [nra|]. intro Y. assert (Q : 1 <= z) by (unfold z; rewrite <- (rd_1 b64 b64_rounding); apply rdm; lra). nra.
    - assert (P : z <= 0) by (unfold z; rewrite <- (rd_0 b64 b64_rounding); apply rdm; lra). split; [nra|lra]. }
  apply Rabs_le_inv in C. assert (S3 : Rabs (z * y) <= IZR 2 * bpow radix2 0) by (cbn [bpow]; apply Rabs_le; nra).
  destruct (rnd_scaled (z * y) 2 0 ltac:(lia) ltac:(lia) S3) as [-> _]. eexists. split; [reflexivity|]. split; [|split].
  - rewrite <- (rd_0 b64 b64_rounding). apply rdm. tauto.
  - apply b64_rounding.
  - intro Y. replace (- (1 / 2)) with (rd b64 (- (1 / 2))); [apply rdm; tauto|]. rewrite rd_opp. f_equal. replace (1 / 2) with (bpow radix2 (-1)) by (cbn; lra). apply rd_bpow. lia.
Qed.
Lemma square_pos l : bpow radix2 (-537) <= Rabs l -> 0 < rd b64 (l * l).
Proof.
  intro L. assert (P := bpow_gt_0 radix2 (-537)). assert (SQ : l * l = Rabs l * Rabs l) by (rewrite <- Rabs_mult, Rabs_right; nra).
  assert (B : bpow radix2 (-1074) <= l * l). { rewrite SQ. replace (bpow radix2 (-1074)) with (bpow radix2 (-537) * bpow radix2 (-537)) by (rewrite <- bpow_plus; reflexivity). nra. }
  assert (H := rdm _ _ B). rewrite rd_bpow in H by lia. assert (Q := bpow_gt_0 radix2 (-1074)). lra.
Qed.
Lemma exponent_ok l z : bpow radix2 (-537) <= Rabs l <= bpow radix2 511 -> exponent_fl b64 l (Fin z) = NInf \/ exists e, exponent_fl b64 l (Fin z) = Fin e /\ e <= 0.
Proof.
  intros [L U]. unfold exponent_fl. cbv zeta. cbn [fsin]. destruct (rnd_one (sin z) (SIN_bound z)) as [-> B]. destruct (numerator_ok _ B) as [t [-> [N [Ft _]]]].
  destruct (square_ok l U) as [-> _]. assert (W : weighs (Fin (- t))) by (right; exists (- t); split; [reflexivity|]; split; [lra|]; now rewrite rd_opp, Ft).
  assert (Q := quot_ok _ _ W (square_pos l L)). cbn [fneg] in Q. now rewrite Ropp_involutive in Q.
Qed.
Lemma per_of_phase s e : Rabs s <= bpow radix2 511 -> e = NInf \/ (exists z, e = Fin z /\ z <= 0) -> exists x, fmul b64 (fmul b64 (Fin s) (Fin s)) (fexp b64 e) = Fin x /\ 0 <= x <= rd b64 (s * s).
Proof.
  intros Us E. destruct (square_ok s Us) as [-> B]. assert (H : exists y, fexp b64 e = Fin y /\ 0 <= y <= 1).
  { destruct E as [-> |[z [-> Hz]]]; cbn [fexp]; [exists 0; split; [reflexivity|lra]|]. assert (E := exp_neg1 z Hz). assert (E' := exp_pos z).
    destruct (rnd_unit b64 b64_rounding (exp z) ltac:(lra)) as [-> C]. eexists. split; [reflexivity|exact C]. }
  destruct H as [y [-> Hy]]. cbn [fmul]. destruct (rnd_below (rd b64 (s * s) * y) (rd b64 (s * s)) ltac:(nra) ltac:(apply b64_rounding) ltac:(lra)) as [-> C]. eexists. split; [reflexivity|exact C].
Qed.
Lemma np_pi_bound : 3 <= np_pi <= 4.
Proof. unfold np_pi. lra. Qed.
Lemma phase_ok sm p u v : sums b64 sm -> u <> [] -> length u = length v -> (Z.of_nat (length u) <= 2 ^ 20)%Z -> bpow radix2 (-400) <= Rabs p ->
  (forall a b, In (a, b) (combine u v) -> Rabs (a - b) <= bpow radix2 400) -> exists z, phase_fl b64 sm p u v = Fin z.
Proof.
  intros Hs Hu HL HN Hp HD. assert (LC : length (combine u v) = length u) by (rewrite combine_length; lia).
  assert (S1 : small 400 (2 ^ 20) (l1_fl b64 sm u v)).
  { assert (A := adds_small 400 _ _ ltac:(lia) (Hs _ (diffs_some (fun ab : R * R => fabs (fsub b64 (Fin (fst ab)) (Fin (snd ab)))) u v Hu HL))). rewrite map_length, LC in A.
    apply (small_mono 400 (Z.of_nat (length u))); [lia|]. apply A; [lia|]. intros w Hw. apply in_map_iff in Hw. destruct Hw as [[a b] [<- Hab]]. unfold fsub. cbn [fst snd fneg fadd].
    assert (D : Rabs (a + - b) <= IZR 1 * bpow radix2 400) by (rewrite Rmult_1_l; apply HD, Hab). destruct (rnd_scaled (a + - b) 1 400 ltac:(lia) ltac:(lia) D) as [-> C]. cbn [fabs].
    exists (Rabs (rd b64 (a + - b))). split; [reflexivity|]. now rewrite Rabs_Rabsolu. }
  assert (S2 : small (0 + 400) (4 * 2 ^ 20) (fmul b64 (Fin np_pi) (l1_fl b64 sm u v))).
  { apply small_mul; [lia|lia|lia|lia| |exact S1]. exists np_pi. split; [reflexivity|]. assert (B := np_pi_bound). cbn [bpow]. rewrite Rabs_right; lra. }
  unfold phase_fl. destruct S2 as [t [-> T]]. cbn [fdiv]. assert (P := bpow_gt_0 radix2 (-400)). destruct (Req_EM_T p 0) as [Z|Z]; [subst p; rewrite Rabs_R0 in Hp; lra|].
  assert (Q : Rabs (t / p) <= IZR (4 * 2 ^ 20) * bpow radix2 800).
  { unfold Rdiv. rewrite Rabs_mult, Rabs_inv. change 800%Z with (0 + 400 + 400)%Z. rewrite bpow_plus, <- Rmult_assoc. apply Rmult_le_compat; [apply Rabs_pos|left; apply Rinv_0_lt_compat; lra|exact T|].
    change (bpow radix2 400) with (/ bpow radix2 (-400)) || (replace (bpow radix2 400) with (/ bpow radix2 (-400)) by (rewrite <- bpow_opp; reflexivity)). apply Rinv_le; [exact P|exact Hp]. }
  destruct (rnd_scaled (t / p) (4 * 2 ^ 20) 800 ltac:(lia) ltac:(lia) Q) as [-> _]. eexists. reflexivity.
Qed.
Lemma per_range sm s l p u v : sums b64 sm -> u <> [] -> length u = length v -> (Z.of_nat (length u) <= 2 ^ 20)%Z -> Rabs s <= bpow radix2 511 ->
  bpow radix2 (-537) <= Rabs l <= bpow radix2 511 -> bpow radix2 (-400) <= Rabs p -> (forall a b, In (a, b) (combine u v) -> Rabs (a - b) <= bpow radix2 400) ->
  exists x, per_fl b64 sm s l p u v = Fin x /\ 0 <= x <= rd b64 (s * s).
Proof.
  intros Hs Hu HL HN Us Hl Hp HD. unfold per_fl. destruct (phase_ok sm p u v Hs Hu HL HN Hp HD) as [z ->]. apply per_of_phase; [exact Us|]. now apply exponent_ok.
Qed.
Lemma phase_self sm p u : sums b64 sm -> u <> [] -> p <> 0 -> phase_fl b64 sm p u u = Fin 0.
Proof.
  intros Hs Hu Hp. unfold phase_fl. rewrite (l1_self sm u Hs Hu). cbn [fmul]. rewrite Rmult_0_r, rnd_0. cbn [fdiv]. destruct (Req_EM_T p 0); [contradiction|].
  replace (0 / p) with 0 by (field; exact Hp). apply rnd_0.
Qed.
Lemma numerator_0 : fmul b64 (fmul b64 (Fin (-2)) (fsin b64 (Fin 0))) (fsin b64 (Fin 0)) = Fin 0.
Proof. cbn [fsin]. rewrite sin_0, rnd_0. cbn [fmul]. rewrite Rmult_0_r, rnd_0. cbn [fmul]. rewrite Rmult_0_r. apply rnd_0. Qed.
Lemma per_self sm s l p u : sums b64 sm -> u <> [] -> Rabs s <= bpow radix2 511 -> bpow radix2 (-537) <= Rabs l <= bpow radix2 511 -> p <> 0 -> per_fl b64 sm s l p u u = Fin (rd b64 (s * s)).
Proof.
  intros Hs Hu Us [L U] Hp. unfold per_fl. rewrite (phase_self sm p u Hs Hu Hp). unfold exponent_fl. cbv zeta. rewrite numerator_0. destruct (square_ok l U) as [-> _].
  assert (P := square_pos l L). cbn [fdiv]. destruct (Req_EM_T _ 0); [lra|]. replace (0 / rd b64 (l * l)) with 0 by (field; lra). rewrite rnd_0, exp_zero. now apply times_one.
Qed.
Lemma per_tiny_length sm s l p u : sums b64 sm -> u <> [] -> Rabs l <= bpow radix2 (-540) -> p <> 0 -> per_fl b64 sm s l p u u = NaN.
Proof.
  intros Hs Hu Hl Hp. unfold per_fl. rewrite (phase_self sm p u Hs Hu Hp). unfold exponent_fl. cbv zeta. rewrite numerator_0. change (fmul b64 (Fin l) (Fin l)) with (rnd b64 (l * l)). rewrite (tiny_square l Hl).
  cbn [fdiv]. destruct (Req_EM_T 0 0); [|lra]. rewrite inf_times_0. cbn [fexp]. destruct (fmul b64 (Fin s) (Fin s)); reflexivity.
Qed.
Lemma per_far sm s l p u v a b : sums b64 sm -> u <> [] -> length u = length v -> 0 < p <= bpow radix2 (-530) -> In (a, b) (combine u v) -> bpow radix2 500 <= Rabs (a - b) -> per_fl b64 sm s l p u v = NaN.
Proof.
  intros Hs Hu HL [P0 P1] Hab Hd. destruct (l1_weighs sm u v Hs Hu HL) as [W K]. specialize (K a b Hab).
  assert (B0 := bpow_gt_0 radix2 500).
  assert (N : no_less (fabs (rnd b64 (a - b))) (Fin (bpow radix2 500))).
  { assert (R : bpow radix2 500 <= Rabs (rd b64 (a - b))).
    { unfold Rabs in Hd. destruct (Rcase_abs (a - b)) as [C|C].
      - assert (H := rdm _ _ Hd). rewrite rd_bpow, rd_opp in H by lia. rewrite Rabs_left by lra. lra.
      - assert (H := rdm _ _ Hd). rewrite rd_bpow in H by lia. rewrite Rabs_right by lra. lra. }
    unfold rnd. destruct (Rleb _ _); [exact I|]. destruct (Rleb _ _); [exact I|]. cbn [fabs no_less]. exact R. }
  assert (M := no_less_trans _ _ _ K N). assert (E : phase_fl b64 sm p u v = PInf).
  { unfold phase_fl. assert (B := np_pi_bound). assert (T : fmul b64 (Fin np_pi) (l1_fl b64 sm u v) = PInf \/ exists t, fmul b64 (Fin np_pi) (l1_fl b64 sm u v) = Fin t /\ bpow radix2 500 <= t).
    { destruct (l1_fl b64 sm u v) as [| | |r]; cbn [no_less] in M; try contradiction.
      - left. cbn [fmul]. unfold inf_times. now rewrite (proj2 (Rltb_true _ _)) by lra.
      - cbn [fmul]. destruct (rnd_nonneg (np_pi * r) ltac:(nra)) as [[-> | ->] _]; [now left|]. right. eexists. split; [reflexivity|].
        rewrite <- (rd_bpow 500) by lia. apply rdm. nra. }
    destruct T as [-> |[t [-> Ht]]]; cbn [fdiv].
    - now rewrite (proj2 (Rltb_false _ _)) by lra.
    - destruct (Req_EM_T p 0); [lra|]. assert (Q : bpow radix2 1024 <= t / p).
      { apply Rle_trans with (bpow radix2 1030); [apply bpow_le; lia|]. replace (bpow radix2 1030) with (bpow radix2 500 * / bpow radix2 (-530)) by (rewrite <- bpow_opp, <- bpow_plus; reflexivity).
        apply Rmult_le_compat; [lra|left; apply Rinv_0_lt_compat, bpow_gt_0|exact Ht|]. now apply Rinv_le. }
      assert (H := rdm _ _ Q). rewrite rd_bpow in H by lia. unfold rnd. now rewrite (proj2 (Rleb_true _ _)) by exact H. }
  unfold per_fl. rewrite E. unfold exponent_fl. cbv zeta. cbn [fsin fmul fdiv fexp]. destruct (rnd b64 (s * s)); reflexivity.
Qed.

(** ---- whole periods ---- *)
Lemma sin_turns x k : (0 <= k)%Z -> sin (x + 2 * IZR k * PI) = sin x.
Proof. intro H. rewrite <- (Z2Nat.id k H), <- INR_IZR_INZ. apply sin_period. Qed.
Definition far_turn : R := IZR (2 ^ 52).
Lemma phase_turns sm : sums b64 sm -> phase_fl b64 sm 1 [0] [far_turn] = Fin (np_pi * far_turn).
Proof.
  intro Hs. unfold phase_fl, l1_fl. cbn [combine map fst snd]. assert (NE : [fabs (fsub b64 (Fin 0) (Fin far_turn))] <> []) by discriminate. rewrite (adds_single _ _ (Hs _ NE)). unfold fsub. cbn [fneg fadd]. rewrite Rplus_0_l, rnd_opp. unfold far_turn. rewrite (rnd_int (2 ^ 52) ltac:(lia)). cbn [fneg fabs].
  rewrite Rabs_Ropp, Rabs_right by (apply Rle_ge, IZR_le; lia). cbn [fmul].
  assert (E : np_pi * IZR (2 ^ 52) = IZR 884279719003555 * bpow radix2 4) by (unfold np_pi; change (bpow radix2 4) with 16; change (IZR (2 ^ 52)) with 4503599627370496; lra).
  assert (R : rnd b64 (np_pi * IZR (2 ^ 52)) = Fin (np_pi * IZR (2 ^ 52))).
  { rewrite E. destruct (rnd_scaled (IZR 884279719003555 * bpow radix2 4) 884279719003555 4 ltac:(lia) ltac:(lia)) as [-> _]; [rewrite Rabs_right; [lra|apply Rle_ge; change (bpow radix2 4) with 16; lra]|]. f_equal. apply rd_scaled; lia. }
  rewrite R. cbn [fdiv]. destruct (Req_EM_T 1 0); [lra|]. unfold Rdiv. now rewrite Rinv_1, Rmult_1_r.
Qed.
Lemma turns_sin : sin (np_pi * far_turn) <= - (1 / 2).
Proof.
  set (d := far_turn * (PI - np_pi)). assert (E : np_pi * far_turn = - d + 2 * IZR (2 ^ 51) * PI).
  { unfold d, far_turn. change (2 ^ 52)%Z with (2 * 2 ^ 51)%Z. rewrite mult_IZR. ring. }
  rewrite E, sin_turns by lia. rewrite sin_neg. destruct pi_bounds as [L U].
  assert (D : 54 / 100 <= d <= 56 / 100) by (unfold d, far_turn, np_pi; change (IZR (2 ^ 52)) with 4503599627370496; lra).
  destruct (pre_sin_bound d 0 ltac:(lra) ltac:(lra)) as [S _]. unfold sin_approx, sin_term in S. cbn in S. nra.
Qed.
Lemma per_turns sm : sums b64 sm -> (exists x, per_fl b64 sm 1 1 1 [0] [far_turn] = Fin x /\ x <= 11 / 16) /\ per_call 1 1 1 [0] [far_turn] = 1.
Proof.
  intro Hs. split.
  - unfold per_fl. rewrite (phase_turns sm Hs). unfold exponent_fl. cbv zeta. cbn [fsin]. assert (T := turns_sin).
    destruct (rnd_one _ (SIN_bound (np_pi * far_turn))) as [-> B]. assert (Y : rd b64 (sin (np_pi * far_turn)) <= - (1 / 2)).
    { replace (- (1 / 2)) with (rd b64 (- (1 / 2))); [now apply rdm|]. rewrite rd_opp. f_equal. replace (1 / 2) with (bpow radix2 (-1)) by (cbn; lra). apply rd_bpow. lia. }
    destruct (numerator_ok _ B) as [t [-> [N [Ft K]]]]. specialize (K Y).
    assert (O : fmul b64 (Fin 1) (Fin 1) = Fin 1) by (cbn [fmul]; rewrite Rmult_1_r; exact (rnd_int 1 ltac:(lia))). rewrite O. cbn [fdiv]. destruct (Req_EM_T 1 0); [lra|]. unfold Rdiv. rewrite Rinv_1, Rmult_1_r.
    assert (X : rnd b64 t = Fin t \/ rnd b64 t = NInf). { unfold rnd. rewrite Ft. assert (Q := huge_pos b64 b64_rounding). rewrite (proj2 (Rleb_false _ _)) by lra. destruct (Rleb _ _); auto. }
    destruct X as [-> | ->]; cbn [fexp].
    + assert (E : exp t <= 11 / 16). { assert (A : 3 / 2 <= exp (- t)) by (assert (H := exp_ineq1_le (- t)); lra). rewrite exp_Ropp in A. assert (P := exp_pos t). assert (I : / exp t * exp t = 1) by (field; lra). nra. }
      assert (P := exp_pos t). destruct (rnd_unit b64 b64_rounding (exp t) ltac:(lra)) as [-> C]. cbn [fmul]. rewrite Rmult_1_l.
      destruct (rnd_unit b64 b64_rounding _ C) as [-> _]. eexists. split; [reflexivity|]. assert (I : rd b64 (rd b64 (exp t)) = rd b64 (exp t)) by apply b64_rounding. rewrite I.
      assert (H := rdm _ _ E). assert (V : IZR 11 * bpow radix2 (-4) = 11 / 16) by (cbn; lra). rewrite <- V, rd_scaled, V in H by lia. exact H.
    + exists 0. split; [|lra]. cbn [fmul]. rewrite Rmult_0_r. apply rnd_0.
  - unfold per_call. cbv zeta. unfold l1dist. cbn [combine map fst snd rsum]. replace (PI * (Rabs (0 - far_turn) + 0) / 1) with (0 + 2 * IZR (2 ^ 51) * PI).
    + rewrite sin_turns, sin_0 by lia. replace (-2 * 0 * 0 / (1 * 1)) with 0 by field. rewrite exp_0. lra.
    + rewrite Rminus_0_l, Rabs_Ropp, Rabs_right by (apply Rle_ge, IZR_le; lia). unfold far_turn. change (2 ^ 52)%Z with (2 * 2 ^ 51)%Z. rewrite mult_IZR. field.
Qed.

(** ---- the linear kernel ---- *)
Lemma offset_absorbed k a : (-400 <= k <= 400)%Z -> - bpow radix2 (k - 53) <= a <= 0 -> fsub b64 (Fin a) (Fin (bpow radix2 k)) = Fin (- bpow radix2 k).
Proof.
  intros Hk Ha. unfold fsub. cbn [fneg fadd]. replace (a + - bpow radix2 k) with (- (bpow radix2 k + - a)) by ring. rewrite rnd_opp.
  assert (P := bpow_gt_0 radix2 k). assert (R : rd b64 (bpow radix2 k + - a) = bpow radix2 k) by (apply rd_absorb; [lia|lra]).
  unfold rnd. rewrite R. assert (H : bpow radix2 k < huge b64) by (apply bpow_lt; lia). rewrite (proj2 (Rleb_false _ _)) by lra. rewrite (proj2 (Rleb_false _ _)) by lra. reflexivity.
Qed.
Lemma lin_offset sm s sb k u v u' v' : (-400 <= k <= 400)%Z -> length u = length v -> length u' = length u -> length v' = length u ->
  (forall a, In a (u ++ v ++ u' ++ v') -> - bpow radix2 (k - 53) <= a <= 0) -> lin_fl b64 sm s sb (bpow radix2 k) u v = lin_fl b64 sm s sb (bpow radix2 k) u' v'.
Proof.
  intros Hk L1 L2 L3 H. unfold lin_fl. do 3 f_equal.
  assert (G : forall w z : point, length w = length z -> (forall a, In a (w ++ z) -> - bpow radix2 (k - 53) <= a <= 0) ->
    map (fun ab : R * R => fmul b64 (fsub b64 (Fin (fst ab)) (Fin (bpow radix2 k))) (fsub b64 (Fin (snd ab)) (Fin (bpow radix2 k)))) (combine w z) = repeat (fmul b64 (Fin (- bpow radix2 k)) (Fin (- bpow radix2 k))) (length w)).
  { induction w as [|a w IH]; intros [|b z] E I; cbn [length] in E; try discriminate E; [reflexivity|]. cbn [combine map fst snd length repeat]. rewrite !offset_absorbed; [|exact Hk|apply I; cbn; rewrite in_app_iff; cbn; tauto|exact Hk|apply I; now left].
    f_equal. apply IH; [lia|]. intros c Hc. apply I. cbn. rewrite in_app_iff in *. cbn. tauto. }
  rewrite (G u v L1), (G u' v'); [now rewrite L2|lia| |]; intros a Ha; apply H; rewrite !in_app_iff in *; tauto.
Qed.
Lemma lin_range sm s sb c u v : sums b64 sm -> u <> [] -> length u = length v -> (Z.of_nat (length u) <= 2 ^ 20)%Z -> Rabs s <= bpow radix2 200 -> Rabs sb <= bpow radix2 200 -> Rabs c <= bpow radix2 200 ->
  (forall a, In a (u ++ v) -> Rabs a <= bpow radix2 200) -> exists x, lin_fl b64 sm s sb c u v = Fin x.
Proof.
  intros Hs Hu HL HN Us Ub Uc HD. assert (SM : forall t, Rabs t <= bpow radix2 200 -> small 200 1 (Fin t)) by (intros t T; exists t; split; [reflexivity|lra]).
  assert (F : forall a, Rabs a <= bpow radix2 200 -> small 200 2 (fsub b64 (Fin a) (Fin c))).
  { intros a A. unfold fsub. apply (small_add 200 1 1); try lia; [now apply SM|]. apply small_neg. now apply SM. }
  assert (T : small 400 (4 * 2 ^ 20) (sm (map (fun ab : R * R => fmul b64 (fsub b64 (Fin (fst ab)) (Fin c)) (fsub b64 (Fin (snd ab)) (Fin c))) (combine u v)))).
  { assert (LC : length (combine u v) = length u) by (rewrite combine_length; lia).
    assert (A := adds_small 402 _ _ ltac:(lia) (Hs _ (diffs_some (fun ab : R * R => fmul b64 (fsub b64 (Fin (fst ab)) (Fin c)) (fsub b64 (Fin (snd ab)) (Fin c))) u v Hu HL))). rewrite map_length, LC in A.
    assert (B : small 402 (Z.of_nat (length u)) (sm (map (fun ab : R * R => fmul b64 (fsub b64 (Fin (fst ab)) (Fin c)) (fsub b64 (Fin (snd ab)) (Fin c))) (combine u v)))).
    { apply A; [lia|]. intros w Hw. apply in_map_iff in Hw. destruct Hw as [[a b] [<- Hab]]. cbn [fst snd]. apply (small_up 400 4 402 1); [lia| |].
      - change 402%Z with (400 + 2)%Z. rewrite bpow_plus. change (bpow radix2 2) with 4. lra.
      - apply (small_mul 200 2 200 2); try lia; apply F, HD, in_app_iff; [left; exact (in_combine_l _ _ _ _ Hab)|right; exact (in_combine_r _ _ _ _ Hab)]. }
    apply (small_up 402 (2 ^ 20) 400 (4 * 2 ^ 20)); [lia| |].
    - change 402%Z with (400 + 2)%Z. rewrite bpow_plus, mult_IZR. change (bpow radix2 2) with 4. assert (P := bpow_gt_0 radix2 400). lra.
    - apply (small_mono 402 (Z.of_nat (length u))); [lia|exact B]. }
  assert (Q : small 400 1 (fmul b64 (Fin s) (Fin s))) by (apply (small_mul 200 1 200 1); try lia; now apply SM).
  assert (Q2 : small 400 1 (fmul b64 (Fin sb) (Fin sb))) by (apply (small_mul 200 1 200 1); try lia; now apply SM).
  assert (M := small_mul 400 1 400 (4 * 2 ^ 20) _ _ ltac:(lia) ltac:(lia) ltac:(lia) ltac:(lia) Q T).
  assert (Z : small 800 (1 + 1 * (4 * 2 ^ 20)) (lin_fl b64 sm s sb c u v)).
  { unfold lin_fl. apply small_add; try lia; [|exact M]. apply (small_up 400 1 800 1); [lia| |exact Q2]. rewrite !Rmult_1_l. apply bpow_le. lia. }
  destruct Z as [x [E _]]. now exists x.
Qed.
Lemma lin_self sm s sb c u x : sums b64 sm -> u <> [] -> lin_fl b64 sm s sb c u u = Fin x -> rd b64 (sb * sb) <= x.
Proof.
  intros Hs Hu E. unfold lin_fl in E.
  assert (W : weighs (sm (map (fun ab : R * R => fmul b64 (fsub b64 (Fin (fst ab)) (Fin c)) (fsub b64 (Fin (snd ab)) (Fin c))) (combine u u)))).
  { refine (proj1 (adds_weighs _ _ (Hs _ (diffs_some _ u u Hu eq_refl)) _)). intros w Hw. apply in_map_iff in Hw. destruct Hw as [[a b] [<- H]]. apply same_coord in H. subst b. apply square_weighs, fsub_fin. }
  revert E W. set (t := sm _). intros E W. assert (W2 : weighs (fmul b64 (Fin s) (Fin s))) by now apply square_weighs. assert (W3 : weighs (fmul b64 (Fin sb) (Fin sb))) by now apply square_weighs.
  assert (M : fmul b64 (fmul b64 (Fin s) (Fin s)) t = NaN \/ weighs (fmul b64 (fmul b64 (Fin s) (Fin s)) t)).
  { destruct W as [-> |[y [-> [Hy Fy]]]], W2 as [-> |[z [-> [Hz Fz]]]]; cbn [fmul].
    - right. now left.
    - unfold inf_times. destruct (Rltb 0 z) eqn:B; [right; now left|]. rewrite (proj2 (Rltb_false z 0)) by lra. now left.
    - unfold inf_times. destruct (Rltb 0 y) eqn:B; [right; now left|]. rewrite (proj2 (Rltb_false y 0)) by lra. now left.
    - right. apply rnd_weighs. nra. }
  destruct M as [M|M]; [rewrite M in E; destruct (fmul b64 (Fin sb) (Fin sb)); discriminate E|].
  destruct (add_weighs _ _ W3 M) as [_ [N _]]. rewrite E in N. destruct W3 as [W3|[y [W3 [Hy Fy]]]]; rewrite W3 in N; cbn [no_less] in N; [contradiction|].
  change (fmul b64 (Fin sb) (Fin sb)) with (rnd b64 (sb * sb)) in W3. unfold rnd in W3. destruct (Rleb _ _); [discriminate W3|]. destruct (Rleb _ _); [discriminate W3|]. injection W3 as W3. change (rd b64 (sb * sb) = y) in W3. rewrite W3. exact N.
Qed.
