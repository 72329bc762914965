(** The RBF kernel in binary64. *)
From Coq Require Import Reals ZArith Lra Lia List Bool Permutation.
From Flocq Require Import Core Relative.
From Verif Require Import M_Base M_RBase M_Kernel M_Float M_FloatProbit M_FloatKern S_Float S_FloatProbit P_RBase P_Float P_FloatProbit P_FloatProbit3 P_FloatNorm P_FloatOrd.
Import ListNotations.
Local Open Scope R_scope.

(** ---- symmetry ---- *)
Lemma rnd_opp x : rnd b64 (- x) = fneg (rnd b64 x).
Proof.
  unfold rnd. rewrite rd_opp. assert (H := huge_pos b64 b64_rounding). set (h := huge b64) in *. set (r := rd b64 x).
  unfold Rleb. repeat (destruct (Rle_dec _ _)); cbn [fneg]; try reflexivity; try (exfalso; lra); f_equal; lra.
Qed.
Lemma fsub_swap a b : fsub b64 (Fin a) (Fin b) = fneg (fsub b64 (Fin b) (Fin a)).
Proof. unfold fsub. cbn [fneg fadd]. rewrite <- rnd_opp. f_equal. lra. Qed.
Lemma square_neg d : fmul b64 (fneg d) (fneg d) = fmul b64 d d.
Proof. destruct d as [| | |x]; cbn [fneg fmul]; try reflexivity. f_equal. lra. Qed.
Lemma sqdist_sym sm u v : sqdist_fl b64 sm u v = sqdist_fl b64 sm v u.
Proof.
  unfold sqdist_fl. f_equal. revert v. induction u as [|a u IH]; intros [|b v]; cbn [combine map fst snd]; try reflexivity.
  rewrite IH. f_equal. cbv zeta. rewrite (fsub_swap a b), square_neg. reflexivity.
Qed.
Lemma rbf_sym sm s l u v : rbf_fl b64 sm s l u v = rbf_fl b64 sm s l v u.
Proof. unfold rbf_fl. now rewrite sqdist_sym. Qed.

(** ---- sums of squares ---- *)
(** a number of the format that is not negative, or infinity *)
Definition weighs (v : fval) : Prop := v = PInf \/ exists x, v = Fin x /\ 0 <= x /\ rd b64 x = x.
Lemma rnd_nonneg x : 0 <= x -> (rnd b64 x = PInf \/ rnd b64 x = Fin (rd b64 x)) /\ 0 <= rd b64 x.
Proof.
  intro H. assert (P := rdm _ _ H). rewrite (rd_0 b64 b64_rounding) in P. assert (Q := huge_pos b64 b64_rounding). split; [|exact P].
  unfold rnd. destruct (Rleb _ _); [now left|]. rewrite (proj2 (Rleb_false _ _)) by lra. now right.
Qed.
Lemma rnd_weighs x : 0 <= x -> weighs (rnd b64 x).
Proof. intro H. destruct (rnd_nonneg x H) as [[-> | ->] P]; [now left|]. right. eexists. split; [reflexivity|]. split; [exact P|apply b64_rounding]. Qed.
Lemma square_weighs d : d <> NaN -> weighs (fmul b64 d d).
Proof. intro H. destruct d as [| | |x]; try contradiction; cbn [fmul]; [now left|now left|]. apply rnd_weighs. nra. Qed.
Lemma fsub_fin a b : fsub b64 (Fin a) (Fin b) <> NaN.
Proof. unfold fsub. cbn [fneg fadd]. unfold rnd. destruct (Rleb _ _); [discriminate|]. destruct (Rleb _ _); discriminate. Qed.
(** the larger of two such values *)
Definition no_less (a b : fval) : Prop := match a, b with PInf, _ => True | Fin x, Fin y => y <= x | _, _ => False end.
Lemma add_weighs a b : weighs a -> weighs b -> weighs (fadd b64 a b) /\ no_less (fadd b64 a b) a /\ no_less (fadd b64 a b) b.
Proof.
  intros [-> |[x [-> [Hx Fx]]]] [-> |[y [-> [Hy Fy]]]]; cbn [fadd]; try (split; [now left|now split]).
  split; [apply rnd_weighs; lra|]. destruct (rnd_nonneg (x + y) ltac:(lra)) as [[-> | ->] P]; cbn [no_less]; [now split|].
  assert (A := rdm x (x + y) ltac:(lra)). assert (B := rdm y (x + y) ltac:(lra)). lra.
Qed.
Lemma no_less_trans a b c : no_less a b -> no_less b c -> no_less a c.
Proof. destruct a, b, c; cbn; try tauto. lra. Qed.
Lemma no_less_refl a : weighs a -> no_less a a.
Proof. intros [-> |[x [-> _]]]; cbn; [exact I|lra]. Qed.
Lemma adds_weighs l a : adds b64 l a -> (forall v, In v l -> weighs v) -> weighs a /\ forall v, In v l -> no_less a v.
Proof.
  induction 1 as [x|l1 l2 l a b A1 IH1 A2 IH2 P]; intro HV.
  - split; [apply HV; now left|]. intros v [<-|[]]. apply no_less_refl, HV. now left.
  - assert (I1 : forall v, In v l1 -> weighs v) by (intros v Hv; apply HV; apply (Permutation_in _ (Permutation_sym P)), in_or_app; now left).
    assert (I2 : forall v, In v l2 -> weighs v) by (intros v Hv; apply HV; apply (Permutation_in _ (Permutation_sym P)), in_or_app; now right).
    destruct (IH1 I1) as [Wa Ka]. destruct (IH2 I2) as [Wb Kb]. destruct (add_weighs a b Wa Wb) as [W [Na Nb]]. split; [exact W|].
    intros v Hv. apply (Permutation_in _ P), in_app_iff in Hv. destruct Hv as [Hv|Hv]; [exact (no_less_trans _ _ _ Na (Ka v Hv))|exact (no_less_trans _ _ _ Nb (Kb v Hv))].
Qed.
Lemma adds_zero l a : adds b64 l a -> (forall v, In v l -> v = Fin 0) -> a = Fin 0.
Proof.
  induction 1 as [x|l1 l2 l a b A1 IH1 A2 IH2 P]; intro HV; [apply HV; now left|].
  rewrite IH1 by (intros v Hv; apply HV; apply (Permutation_in _ (Permutation_sym P)), in_or_app; now left).
  rewrite IH2 by (intros v Hv; apply HV; apply (Permutation_in _ (Permutation_sym P)), in_or_app; now right).
  apply add_zero.
Qed.
Lemma adds_single x a : adds b64 [x] a -> a = x.
Proof.
  intro H. inversion H as [y E1 E2|l1 l2 l b c A1 A2 P E1 E2]; subst; [reflexivity|]. exfalso.
  assert (N : forall l b, adds b64 l b -> l <> []).
  { induction 1 as [y|k1 k2 k b' c' B1 IH1 B2 IH2 Q]; [discriminate|]. intro E. subst k. apply Permutation_nil in Q. apply app_eq_nil in Q. tauto. }
  apply Permutation_length in P. rewrite app_length in P. cbn in P. assert (N1 := N _ _ A1). assert (N2 := N _ _ A2).
  destruct l1; [contradiction|]. destruct l2; [contradiction|]. cbn in P. lia.
Qed.
Lemma squares_in u v w : In w (map (fun ab : R * R => let d := fsub b64 (Fin (fst ab)) (Fin (snd ab)) in fmul b64 d d) (combine u v)) -> weighs w.
Proof. intro H. apply in_map_iff in H. destruct H as [[a b] [<- _]]. apply square_weighs, fsub_fin. Qed.
Lemma squares_some (u v : point) : u <> [] -> length u = length v -> map (fun ab : R * R => let d := fsub b64 (Fin (fst ab)) (Fin (snd ab)) in fmul b64 d d) (combine u v) <> [].
Proof. destruct u, v; cbn; try congruence; discriminate. Qed.
Lemma sqdist_weighs sm u v : sums b64 sm -> u <> [] -> length u = length v -> weighs (sqdist_fl b64 sm u v) /\
  forall a b, In (a, b) (combine u v) -> no_less (sqdist_fl b64 sm u v) (fmul b64 (fsub b64 (Fin a) (Fin b)) (fsub b64 (Fin a) (Fin b))).
Proof.
  intros Hs Hu HL. assert (A := Hs _ (squares_some u v Hu HL)). destruct (adds_weighs _ _ A (squares_in u v)) as [W K]. split; [exact W|].
  intros a b Hab. apply K. exact (in_map _ _ (a, b) Hab).
Qed.

(** ---- the exponent and its exponential ---- *)
Lemma two_l2_ok l : bpow radix2 (-537) <= Rabs l <= bpow radix2 511 -> exists q, two_l2_fl b64 l = Fin q /\ 0 < q /\ l * l / 2 <= q <= 8 * (l * l).
Proof.
  intros [L U]. assert (P : 0 < bpow radix2 (-537)) by apply bpow_gt_0. unfold two_l2_fl. cbn [fmul].
  assert (A2 : Rabs (2 * l) <= IZR 1 * bpow radix2 512). { rewrite Rabs_mult, (Rabs_right 2) by lra. change (bpow radix2 512) with (bpow radix2 (511 + 1)). rewrite bpow_S. lra. }
  destruct (rnd_scaled (2 * l) 1 512 ltac:(lia) ltac:(lia) A2) as [-> B]. rewrite Rmult_1_l in B. cbn [fmul]. set (t := rd b64 (2 * l)) in *.
  assert (T : bpow radix2 (-1074) <= Rabs (2 * l)). { rewrite Rabs_mult, (Rabs_right 2) by lra. apply Rle_trans with (bpow radix2 (-537)); [apply bpow_le; lia|lra]. }
  assert (H := rd_abs_half _ T). fold t in H.
  (* doubling is exact up to the sign *)
  assert (S : 0 <= t * l /\ l * l <= t * l <= 4 * (l * l)).
  { destruct (Rcase_abs l) as [N|N].
    - rewrite (Rabs_left l) in * by lra. assert (T2 : bpow radix2 (-1074) <= - (2 * l)) by (rewrite Rabs_left in T by lra; exact T).
      assert (D := rd_double _ T2). assert (E := rd_half _ T2). rewrite rd_opp in D, E. fold t in D, E. nra.
    - rewrite (Rabs_right l) in * by lra. assert (T2 : bpow radix2 (-1074) <= 2 * l) by (rewrite Rabs_right in T by lra; exact T).
      assert (D := rd_double _ T2). assert (E := rd_half _ T2). fold t in D, E. nra. }
  assert (SQ : l * l = Rabs l * Rabs l) by (rewrite <- Rabs_mult, Rabs_right; nra).
  assert (LO : bpow radix2 (-1074) <= t * l). { apply Rle_trans with (l * l); [|lra]. rewrite SQ. replace (bpow radix2 (-1074)) with (bpow radix2 (-537) * bpow radix2 (-537)) by (rewrite <- bpow_plus; reflexivity). nra. }
  assert (UP : Rabs (t * l) <= IZR (2 ^ 53) * bpow radix2 970).
  { rewrite Rabs_mult. apply Rle_trans with (bpow radix2 512 * bpow radix2 511). { apply Rmult_le_compat; try apply Rabs_pos; lra. }
    change (IZR (2 ^ 53)) with (bpow radix2 53). rewrite <- !bpow_plus. apply Req_le. reflexivity. }
  destruct (rnd_scaled (t * l) (2 ^ 53) 970 ltac:(lia) ltac:(lia) UP) as [-> _]. eexists. split; [reflexivity|].
  assert (D := rd_double _ LO). assert (E := rd_half _ LO). assert (Q := bpow_gt_0 radix2 (-1074)). nra.
Qed.
Definition unit_exp (sm : list fval -> fval) (l : R) (u v : point) : fval := fexp b64 (fdiv b64 (fneg (sqdist_fl b64 sm u v)) (two_l2_fl b64 l)).
Lemma exp_zero : fexp b64 (Fin 0) = Fin 1.
Proof. cbn [fexp]. rewrite exp_0. exact (rnd_int 1 ltac:(lia)). Qed.
Lemma quot_ok top q : weighs top -> 0 < q -> fdiv b64 (fneg top) (Fin q) = NInf \/ exists z, fdiv b64 (fneg top) (Fin q) = Fin z /\ z <= 0.
Proof.
  intros [-> |[x [-> [Hx Fx]]]] Hq; cbn [fneg fdiv].
  - left. now rewrite (proj2 (Rltb_false _ _)) by lra.
  - destruct (Req_EM_T q 0); [lra|]. replace (- x / q) with (- (x / q)) by (field; lra). rewrite rnd_opp.
    assert (D : 0 <= x / q) by (apply Rmult_le_pos; [lra|left; now apply Rinv_0_lt_compat]).
    destruct (rnd_nonneg (x / q) D) as [[-> | ->] P]; cbn [fneg]; [now left|]. right. eexists. split; [reflexivity|lra].
Qed.
Lemma unit_exp_ok sm l u v : sums b64 sm -> u <> [] -> length u = length v -> bpow radix2 (-537) <= Rabs l <= bpow radix2 511 ->
  exists e, unit_exp sm l u v = Fin e /\ 0 <= e <= 1.
Proof.
  intros Hs Hu HL Hl. destruct (two_l2_ok l Hl) as [q [Eq [Hq _]]]. unfold unit_exp. rewrite Eq. destruct (sqdist_weighs sm u v Hs Hu HL) as [W _].
  destruct (quot_ok _ q W Hq) as [-> |[z [-> Hz]]]; cbn [fexp]; [exists 0; split; [reflexivity|lra]|].
  assert (E := exp_neg1 z Hz). assert (E' := exp_pos z). destruct (rnd_unit b64 b64_rounding (exp z) ltac:(lra)) as [-> B]. eexists. split; [reflexivity|exact B].
Qed.
Lemma square_ok s : Rabs s <= bpow radix2 511 -> fmul b64 (Fin s) (Fin s) = Fin (rd b64 (s * s)) /\ 0 <= rd b64 (s * s) <= bpow radix2 1022.
Proof.
  intro U. cbn [fmul]. assert (A := Rabs_pos s).
  assert (B : Rabs (s * s) <= IZR (2 ^ 52) * bpow radix2 970).
  { rewrite Rabs_mult. apply Rle_trans with (bpow radix2 511 * bpow radix2 511); [apply Rmult_le_compat; lra|]. change (IZR (2 ^ 52)) with (bpow radix2 52). rewrite <- !bpow_plus. apply Req_le. reflexivity. }
  destruct (rnd_scaled (s * s) (2 ^ 52) 970 ltac:(lia) ltac:(lia) B) as [-> C]. split; [reflexivity|].
  assert (P : 0 <= rd b64 (s * s)) by (rewrite <- (rd_0 b64 b64_rounding); apply rdm; nra). split; [exact P|]. rewrite Rabs_right in C by lra.
  replace (bpow radix2 1022) with (IZR (2 ^ 52) * bpow radix2 970); [exact C|]. change (IZR (2 ^ 52)) with (bpow radix2 52). rewrite <- bpow_plus. reflexivity.
Qed.
Lemma rnd_below x t : 0 <= x <= t -> rd b64 t = t -> t <= bpow radix2 1022 -> rnd b64 x = Fin (rd b64 x) /\ 0 <= rd b64 x <= t.
Proof.
  intros [H0 H] Ft Ht. destruct (rnd_nonneg x H0) as [_ P]. assert (U := rdm _ _ H). rewrite Ft in U.
  assert (B : bpow radix2 1022 < huge b64) by (apply bpow_lt; lia). unfold rnd. rewrite (proj2 (Rleb_false _ _)) by lra. rewrite (proj2 (Rleb_false _ _)) by lra. split; [reflexivity|lra].
Qed.
Lemma rbf_range sm s l u v : sums b64 sm -> u <> [] -> length u = length v -> Rabs s <= bpow radix2 511 -> bpow radix2 (-537) <= Rabs l <= bpow radix2 511 ->
  exists x, rbf_fl b64 sm s l u v = Fin x /\ 0 <= x <= rd b64 (s * s).
Proof.
  intros Hs Hu HL Us Hl. unfold rbf_fl. destruct (square_ok s Us) as [-> B]. destruct (unit_exp_ok sm l u v Hs Hu HL Hl) as [e [E H]]. unfold unit_exp in E. rewrite E.
  cbn [fmul]. destruct (rnd_below (rd b64 (s * s) * e) (rd b64 (s * s)) ltac:(nra) ltac:(apply b64_rounding) ltac:(lra)) as [-> C]. eexists. split; [reflexivity|exact C].
Qed.
Lemma times_one s : Rabs s <= bpow radix2 511 -> fmul b64 (fmul b64 (Fin s) (Fin s)) (Fin 1) = Fin (rd b64 (s * s)).
Proof.
  intro Us. destruct (square_ok s Us) as [-> B]. cbn [fmul]. rewrite Rmult_1_r.
  destruct (rnd_below (rd b64 (s * s)) (rd b64 (s * s)) ltac:(lra) ltac:(apply b64_rounding) ltac:(lra)) as [-> _]. f_equal. apply b64_rounding.
Qed.
Lemma rbf_one sm s l u v : Rabs s <= bpow radix2 511 -> unit_exp sm l u v = Fin 1 -> rbf_fl b64 sm s l u v = Fin (rd b64 (s * s)).
Proof. intros Us E. unfold rbf_fl. unfold unit_exp in E. rewrite E. now apply times_one. Qed.
Lemma rnd_0 : rnd b64 0 = Fin 0.
Proof. exact (rnd_int 0 ltac:(lia)). Qed.
Lemma rbf_self sm s l u : sums b64 sm -> u <> [] -> Rabs s <= bpow radix2 511 -> bpow radix2 (-537) <= Rabs l <= bpow radix2 511 ->
  rbf_fl b64 sm s l u u = Fin (rd b64 (s * s)).
Proof.
  intros Hs Hu Us Hl. apply rbf_one; [exact Us|]. unfold unit_exp. destruct (two_l2_ok l Hl) as [q [-> [Hq _]]].
  assert (Z : sqdist_fl b64 sm u u = Fin 0).
  { apply (adds_zero _ _ (Hs _ (squares_some u u Hu eq_refl))). intros w Hw. apply in_map_iff in Hw. destruct Hw as [[a b] [<- Hab]].
    assert (E : a = b). { clear - Hab. induction u as [|x u IH]; [easy|]. destruct Hab as [E|E]; [now injection E as <- <-|auto]. }
    subst b. cbv zeta. unfold fsub. cbn [fst snd fneg fadd]. rewrite Rplus_opp_r, rnd_0. cbn [fmul]. rewrite Rmult_0_l. apply rnd_0. }
  rewrite Z. cbn [fneg fdiv]. destruct (Req_EM_T q 0); [lra|]. replace (- 0 / q) with 0 by (field; lra). rewrite rnd_0. apply exp_zero.
Qed.
