(** The choice rule in floating point. *)
From Coq Require Import Reals ZArith Lra Lia List Permutation Bool.
From Flocq Require Import Core.
From Verif Require Import M_Base M_RBase M_Util M_Select M_Info M_Tune M_Float S_Util S_Info S_Float P_RBase P_Util P_Info P_Info2.
Import ListNotations.
Local Open Scope R_scope.

(** ---- binary64 ---- *)
Lemma b64_rounding : rounding b64.
Proof.
  assert (V : Valid_exp (FLT_exp (-1074) 53)) by (apply FLT_exp_valid; reflexivity). repeat split.
  - intros x y L. apply round_le; auto with typeclass_instances.
  - intro x. apply round_generic; auto with typeclass_instances. apply generic_format_round; auto with typeclass_instances.
  - intros z Hz. apply round_generic; auto with typeclass_instances. destruct (Z.eq_dec (Z.abs z) (2 ^ 53)) as [E|E].
    + apply generic_format_FLT. assert (Z2 : z = (2 ^ 53)%Z \/ z = (- 2 ^ 53)%Z) by lia. destruct Z2 as [-> | ->].
      * apply (FLT_spec radix2 (-1074) 53 _ (Float radix2 1 53)); cbn; [unfold F2R; cbn; lra|lia|lia].
      * apply (FLT_spec radix2 (-1074) 53 _ (Float radix2 (-1) 53)); cbn; [unfold F2R; cbn; lra|lia|lia].
    + apply generic_format_FLT. apply (FLT_spec radix2 (-1074) 53 _ (Float radix2 z 0)); cbn; [unfold F2R; cbn; ring|lia|lia].
  - change (IZR (2 ^ 53)) with (bpow radix2 53). apply bpow_lt. lia.
Qed.
Lemma b64_flushes : flushes b64 (bpow radix2 (-1075)).
Proof.
  intros x [L U]. cbn. destruct (Req_dec x 0) as [-> |N]; [apply round_0; auto with typeclass_instances|]. assert (V : Valid_exp (FLT_exp (-1074) 53)) by (apply FLT_exp_valid; reflexivity).
  destruct (mag radix2 x) as [ex Hex]. specialize (Hex N). rewrite Rabs_right in Hex by lra. apply (round_N_small_pos radix2 (FLT_exp (-1074) 53) _ x ex Hex).
  assert (E : (ex - 1 < -1075)%Z) by (apply (lt_bpow radix2); lra). unfold FLT_exp. lia.
Qed.

(** ---- rounding ---- *)
Section Rounding.
Variable F : fmt.
Hypothesis HF : rounding F.
Lemma rd_int z : (Z.abs z <= 2 ^ 53)%Z -> rd F (IZR z) = IZR z.
Proof. apply HF. Qed.
Lemma rd_0 : rd F 0 = 0.
Proof. apply (rd_int 0). lia. Qed.
Lemma rd_1 : rd F 1 = 1.
Proof. apply (rd_int 1). lia. Qed.
Lemma rd_le x y : x <= y -> rd F x <= rd F y.
Proof. apply HF. Qed.
Lemma huge_big : IZR (2 ^ 53) < huge F.
Proof. apply HF. Qed.
Lemma huge_pos : 0 < huge F.
Proof. assert (K := huge_big). assert (0 < IZR (2 ^ 53)) by (apply IZR_lt; lia). lra. Qed.
Lemma rnd_between x a b : (Z.abs a <= 2 ^ 53)%Z -> (Z.abs b <= 2 ^ 53)%Z -> IZR a <= x <= IZR b -> rnd F x = Fin (rd F x) /\ IZR a <= rd F x <= IZR b.
Proof.
  intros Ha Hb H. assert (La := rd_le _ _ (proj1 H)). assert (Lb := rd_le _ _ (proj2 H)). rewrite rd_int in La, Lb by auto. assert (K := huge_big). assert (IZR b <= IZR (2 ^ 53)) by (apply IZR_le; lia). assert (- IZR (2 ^ 53) <= IZR a) by (rewrite <- opp_IZR; apply IZR_le; lia).
  split; [|lra]. unfold rnd. rewrite (proj2 (Rleb_false _ _)) by lra. rewrite (proj2 (Rleb_false _ _)) by lra. reflexivity.
Qed.
Lemma rnd_neg x : x <= 0 -> (rnd F x = NInf /\ rd F x <= - huge F) \/ (rnd F x = Fin (rd F x) /\ - huge F < rd F x <= 0).
Proof.
  intro H. assert (L := rd_le _ _ H). rewrite rd_0 in L. assert (P := huge_pos). unfold rnd. rewrite (proj2 (Rleb_false (huge F) _)) by lra. destruct (Rleb (rd F x) (- huge F)) eqn:E; [apply Rleb_true in E; left; auto|apply Rleb_false in E; right; split; [reflexivity|lra]].
Qed.
Lemma rnd_unit x : 0 <= x <= 1 -> rnd F x = Fin (rd F x) /\ 0 <= rd F x <= 1.
Proof. intro H. apply (rnd_between x 0 1); auto; lia. Qed.
(** what the exponent becomes *)
Lemma exponent p mx v : 0 < p -> v <= mx -> fmul F (rnd F (v - mx)) (Fin p) = NInf \/ exists z, fmul F (rnd F (v - mx)) (Fin p) = Fin z /\ z <= 0.
Proof.
  intros Hp L. destruct (rnd_neg (v - mx) ltac:(lra)) as [[-> _]|[-> B]]; cbn.
  - left. unfold ninf_times. now rewrite (proj2 (Rltb_true 0 p)).
  - destruct (rnd_neg (rd F (v - mx) * p) ltac:(nra)) as [[-> _]|[-> C]]; [now left|right]. eexists. split; [reflexivity|lra].
Qed.
Lemma weight_range p mx v : 0 < p -> v <= mx -> exists x, fweight F p mx v = Fin x /\ 0 <= x <= 1 /\ rd F x = x.
Proof.
  intros Hp L. unfold fweight. destruct (exponent p mx v Hp L) as [-> |[z [-> Hz]]]; cbn; [exists 0; split; [reflexivity|split; [lra|apply rd_0]]|]. assert (E : 0 <= exp z <= 1) by (split; [apply Rlt_le, exp_pos|rewrite <- exp_0; destruct Hz as [Hz| ->]; [apply Rlt_le, exp_increasing, Hz|lra]]). destruct (rnd_unit _ E) as [-> B]. exists (rd F (exp z)). split; [reflexivity|]. split; [exact B|apply HF].
Qed.
Lemma weight_top p mx : 0 < p -> fweight F p mx mx = Fin 1.
Proof.
  intro Hp. unfold fweight. replace (mx - mx) with 0 by ring. destruct (rnd_unit 0 ltac:(lra)) as [-> _]. rewrite rd_0. cbn. rewrite Rmult_0_l. destruct (rnd_unit 0 ltac:(lra)) as [-> _]. rewrite rd_0. cbn. rewrite exp_0. destruct (rnd_unit 1 ltac:(lra)) as [-> _]. now rewrite rd_1.
Qed.
Lemma weight_mono p mx v w x y : 0 < p -> v <= w <= mx -> fweight F p mx v = Fin x -> fweight F p mx w = Fin y -> x <= y.
Proof.
  intros Hp L E1 E2. destruct (weight_range p mx w Hp ltac:(lra)) as [y' [E2' [B2 _]]]. rewrite E2 in E2'. injection E2' as <-. unfold fweight in *.
  destruct (rnd_neg (v - mx) ltac:(lra)) as [[Q1 _]|[Q1 C1]]; rewrite Q1 in E1; cbn in E1.
  { unfold ninf_times in E1. rewrite (proj2 (Rltb_true 0 p)) in E1 by auto. cbn in E1. injection E1 as <-. lra. }
  assert (M1 := rd_le (v - mx) (w - mx) ltac:(lra)). destruct (rnd_neg (w - mx) ltac:(lra)) as [[Q2 D]|[Q2 C2]]; [lra|]. rewrite Q2 in E2. cbn in E2.
  assert (M2 : rd F (v - mx) * p <= rd F (w - mx) * p) by (apply Rmult_le_compat_r; lra). assert (M3 := rd_le _ _ M2). destruct (rnd_neg (rd F (v - mx) * p) ltac:(nra)) as [[Q3 _]|[Q3 C3]]; rewrite Q3 in E1; cbn in E1; [injection E1 as <-; lra|].
  destruct (rnd_neg (rd F (w - mx) * p) ltac:(nra)) as [[Q4 D]|[Q4 C4]]; [lra|]. rewrite Q4 in E2. cbn in E2.
  assert (X : forall z, z <= 0 -> 0 <= exp z <= 1) by (intros z Hz; split; [apply Rlt_le, exp_pos|rewrite <- exp_0; destruct Hz as [Hz| ->]; [apply Rlt_le, exp_increasing, Hz|lra]]).
  destruct (rnd_unit _ (X _ (proj2 C3))) as [Q5 _]. destruct (rnd_unit _ (X _ (proj2 C4))) as [Q6 _]. rewrite Q5 in E1. rewrite Q6 in E2. injection E1 as <-. injection E2 as <-. apply rd_le. destruct M3 as [M3| ->]; [apply Rlt_le, exp_increasing, M3|lra].
Qed.
(** sums of weights *)
Definition weight (v : fval) : Prop := exists x, v = Fin x /\ 0 <= x <= 1 /\ rd F x = x.
Lemma adds_unit l a : adds F l a -> (forall v, In v l -> weight v) -> (Z.of_nat (length l) <= 2 ^ 53)%Z ->
  exists s, a = Fin s /\ rd F s = s /\ 0 <= s <= INR (length l) /\ (forall x, In (Fin x) l -> x <= s) /\ (s = 0 -> forall v, In v l -> v = Fin 0).
Proof.
  induction 1 as [x|l1 l2 l a b A1 IH1 A2 IH2 P]; intros W N.
  - destruct (W x (or_introl eq_refl)) as [t [-> [B E]]]. exists t. cbn [length INR]. repeat split; auto; try lra; [intros u [Q|[]]; injection Q as ->; lra|intros -> v [<- |[]]; reflexivity].
  - assert (L := Permutation_length P). rewrite app_length in L. destruct IH1 as [s1 [-> [R1 [B1 [U1 Z1]]]]]; [intros v Hv; apply W; apply (Permutation_in _ (Permutation_sym P)), in_or_app; now left|lia|]. destruct IH2 as [s2 [-> [R2 [B2 [U2 Z2]]]]]; [intros v Hv; apply W; apply (Permutation_in _ (Permutation_sym P)), in_or_app; now right|lia|].
    rewrite L. rewrite plus_INR. assert (S0 : IZR 0 <= s1 + s2 <= IZR (Z.of_nat (length l))). { rewrite <- INR_IZR_INZ, L, plus_INR. lra. } cbn [fadd]. destruct (rnd_between (s1 + s2) 0 (Z.of_nat (length l)) ltac:(lia) ltac:(lia) S0) as [-> B]. rewrite <- INR_IZR_INZ, L, plus_INR in B. exists (rd F (s1 + s2)).
    assert (G1 : s1 <= rd F (s1 + s2)) by (rewrite <- R1 at 1; apply rd_le; lra). assert (G2 : s2 <= rd F (s1 + s2)) by (rewrite <- R2 at 1; apply rd_le; lra).
    repeat split; try lra; [apply HF| |].
    + intros x Hx. apply (Permutation_in _ P), in_app_or in Hx. destruct Hx as [Hx|Hx]; [specialize (U1 x Hx)|specialize (U2 x Hx)]; lra.
    + intros E v Hv. apply (Permutation_in _ P), in_app_or in Hv. destruct Hv as [Hv|Hv]; [apply Z1|apply Z2]; auto; lra.
Qed.
End Rounding.

(** ---- rows ---- *)
Lemma inf_times_0 : inf_times 0 = NaN.
Proof. unfold inf_times. rewrite (proj2 (Rltb_false 0 0)) by lra. reflexivity. Qed.
Lemma row_cases F sm p mx row : rounding F -> sums F sm -> 0 < p -> row <> [] -> (Z.of_nat (length row) <= 2 ^ 53)%Z -> (forall v, In v row -> v <= mx) ->
  let s := sm (map (fweight F p mx) row) in
  (forall v, In v row -> fweight F p mx v = Fin 0 /\ fdiv F (fweight F p mx v) s = NaN) \/
  exists t, s = Fin t /\ 0 < t <= INR (length row) /\ (exists v, In v row /\ fweight F p mx v <> Fin 0) /\
    forall v, In v row -> exists x, fweight F p mx v = Fin x /\ 0 <= x <= t /\ fdiv F (fweight F p mx v) s = Fin (rd F (x / t)) /\ 0 <= rd F (x / t) <= 1.
Proof.
  intros HF HS Hp N L M s. set (e := map (fweight F p mx) row). assert (W : forall v, In v e -> weight F v) by (intros v Hv; apply in_map_iff in Hv; destruct Hv as [u [<- Hu]]; destruct (weight_range F HF p mx u Hp (M u Hu)) as [x Hx]; now exists x).
  assert (Ne : e <> []) by (destruct row; [congruence|discriminate]). destruct (adds_unit F HF e _ (HS e Ne) W) as [t [E [R0 [B [U Z0]]]]]; [unfold e; now rewrite map_length|]. fold e in s. change (sm e) with s in E. unfold e in B. rewrite map_length in B. destruct (Req_dec t 0) as [Q|Q].
  - left. intros v Hv. assert (V : fweight F p mx v = Fin 0) by (apply Z0; auto; now apply in_map). split; [exact V|]. rewrite V, E, Q. cbn. destruct (Req_EM_T 0 0); [apply inf_times_0|contradiction].
  - right. exists t. split; [exact E|]. split; [lra|]. split.
    + destruct (Exists_dec (fun v => fweight F p mx v <> Fin 0) row) as [X|X]; [intro v; destruct (weight_range F HF p mx v) as [x _] || idtac; destruct (fweight F p mx v) as [| | |x]; try (left; discriminate); destruct (Req_EM_T x 0) as [-> |Nx]; [right; intro K; now apply K|left; congruence]| |].
      * apply Exists_exists in X. exact X.
      * exfalso. assert (A : forall v, In v e -> v = Fin 0). { intros v Hv. apply in_map_iff in Hv. destruct Hv as [u [<- Hu]]. destruct (W (fweight F p mx u) (in_map _ _ _ Hu)) as [x [Ex _]]. destruct (Req_dec x 0) as [-> |Nx]; [exact Ex|]. exfalso. apply X. apply Exists_exists. exists u. split; [exact Hu|]. rewrite Ex. congruence. }
        assert (S0 : forall l a, adds F l a -> (forall v, In v l -> v = Fin 0) -> a = Fin 0).
        { induction 1 as [x|l1 l2 l a b A1 IH1 A2 IH2 P]; intro H; [apply H; now left|]. rewrite IH1, IH2; [|intros v Hv; apply H, (Permutation_in _ (Permutation_sym P)), in_or_app; now right|intros v Hv; apply H, (Permutation_in _ (Permutation_sym P)), in_or_app; now left]. cbn. rewrite Rplus_0_r. destruct (rnd_unit F HF 0 ltac:(lra)) as [-> _]. now rewrite (rd_0 F HF). }
        assert (K := S0 _ _ (HS e Ne) A). change (sm e) with s in K. rewrite E in K. injection K as K. contradiction.
    + intros v Hv. destruct (weight_range F HF p mx v Hp (M v Hv)) as [x [Ex [Bx Rx]]]. assert (Ux : x <= t) by (apply U; rewrite <- Ex; now apply in_map). exists x. split; [exact Ex|]. split; [lra|]. rewrite Ex, E. cbn. destruct (Req_EM_T t 0); [contradiction|]. assert (D : 0 <= x / t <= 1) by (split; [apply Rmult_le_pos; [lra|apply Rlt_le, Rinv_0_lt_compat; lra]|apply Rmult_le_reg_r with t; [lra|]; unfold Rdiv; rewrite Rmult_assoc, Rinv_l by lra; lra]).
      destruct (rnd_unit F HF _ D) as [-> B']. split; [reflexivity|exact B'].
Qed.
Lemma choice_vector F sm r p : rounding F -> sums F sm -> r <> [] -> (Z.of_nat (length r) <= 2 ^ 53)%Z -> 0 < p ->
  exists f, choice_fl F sm r p = Ok (map (fun v => Fin (f v)) r) /\ (forall v, In v r -> 0 <= f v <= 1) /\
    (forall v w, In v r -> In w r -> v <= w -> f v <= f w) /\ (forall v, In v r -> (forall w, In w r -> w <= v) -> rd F (/ INR (length r)) <= f v).
Proof.
  intros HF HS N L Hp. destruct (np_max_ok r N) as [mx [E [I M]]]. unfold choice_fl. rewrite E. cbn [bind]. destruct (row_cases F sm p mx r HF HS Hp N L M) as [A|[t [Et [Bt [_ A]]]]].
  - exfalso. destruct (A mx I) as [K _]. rewrite weight_top in K by auto. injection K as K. lra.
  - set (s := sm (map (fweight F p mx) r)) in *. exists (fun v => match fdiv F (fweight F p mx v) s with Fin x => x | _ => 0 end). split; [|split; [|split]].
    + f_equal. rewrite map_map. apply map_ext_in. intros v Hv. destruct (A v Hv) as [x [_ [_ [-> _]]]]. reflexivity.
    + intros v Hv. destruct (A v Hv) as [x [_ [_ [-> B]]]]. exact B.
    + intros v w Hv Hw Lvw. destruct (A v Hv) as [x [X1 [X2 [X3 _]]]]. destruct (A w Hw) as [y [Y1 [Y2 [Y3 _]]]]. rewrite X3, Y3. apply rd_le; auto. apply Rmult_le_compat_r; [apply Rlt_le, Rinv_0_lt_compat; lra|]. exact (weight_mono F HF p mx v w x y Hp (conj Lvw (M w Hw)) X1 Y1).
    + intros v Hv Top. assert (Q : v = mx) by (apply Rle_antisym; [now apply M|now apply Top]). subst v. destruct (A mx Hv) as [x [X1 [X2 [X3 _]]]]. rewrite X3. rewrite weight_top in X1 by auto. injection X1 as <-. apply rd_le; auto. unfold Rdiv. rewrite Rmult_1_l. apply Rinv_le_contravar; lra.
Qed.
Lemma choice_matrix F sm r p : rounding F -> sums F sm -> r <> [] -> (forall row, In row r -> row <> [] /\ (Z.of_nat (length row) <= 2 ^ 53)%Z) -> 0 < p ->
  exists mx ps, In mx (concat r) /\ (forall v, In v (concat r) -> v <= mx) /\ choice_rows_fl F sm r p = Ok ps /\
    Forall2 (fun row out => length out = length row /\
      ((Forall (fun v => fweight F p mx v = Fin 0) row /\ Forall (fun x => x = NaN) out) \/ (Exists (fun v => fweight F p mx v <> Fin 0) row /\ Forall unit_fin out))) r ps.
Proof.
  intros HF HS N L Hp. assert (Nc : concat r <> []) by (destruct r as [|[|v row] r]; [congruence|destruct (L [] (or_introl eq_refl)); congruence|discriminate]).
  destruct (np_max_ok _ Nc) as [mx [E [I M]]]. unfold choice_rows_fl. rewrite E. cbn [bind]. exists mx. eexists. split; [exact I|]. split; [exact M|]. split; [reflexivity|]. rewrite map_map.
  assert (M' : forall row, In row r -> forall v, In v row -> v <= mx) by (intros row Hr v Hv; apply M, in_concat; eauto). clear E I M N Nc. induction r as [|row r IH]; cbn [map]; constructor; [|apply IH; [intros; apply L; now right|intros; eapply M'; [right; eauto|auto]]].
  split; [now rewrite !map_length|]. destruct (L row (or_introl eq_refl)) as [Nr Lr]. destruct (row_cases F sm p mx row HF HS Hp Nr Lr (M' row (or_introl eq_refl))) as [A|[t [Et [Bt [Ex A]]]]].
  - left. split; apply Forall_forall; [intros v Hv; now apply A|]. intros x Hx. rewrite map_map in Hx. apply in_map_iff in Hx. destruct Hx as [v [<- Hv]]. now apply A.
  - right. split; [apply Exists_exists; exact Ex|]. apply Forall_forall. intros x Hx. rewrite map_map in Hx. apply in_map_iff in Hx. destruct Hx as [v [<- Hv]]. destruct (A v Hv) as [y [_ [_ [-> B]]]]. eexists. split; [reflexivity|exact B].
Qed.
(** ---- underflow ---- *)
Lemma pow2_exp n : exp (- INR n) <= / 2 ^ n.
Proof.
  rewrite exp_Ropp. apply Rinv_le_contravar; [apply pow_lt; lra|]. induction n as [|n IH]; [cbn; rewrite exp_0; lra|]. rewrite S_INR, exp_plus. cbn [pow]. assert (K := exp_ineq1 1 ltac:(lra)). assert (0 < 2 ^ n) by (apply pow_lt; lra). nra.
Qed.
Lemma bpow_neg n : bpow radix2 (- Z.of_nat n) = / 2 ^ n.
Proof. rewrite bpow_opp. f_equal. rewrite bpow_powerRZ, <- pow_powerRZ. reflexivity. Qed.
(** [z] times [p] above 1075: the weight is 0 *)
Lemma weight_flush F p mx v z : rounding F -> flushes F (bpow radix2 (-1075)) -> 0 < p -> (0 <= z <= 2 ^ 53)%Z -> v <= mx - IZR z -> 1076 <= IZR z * p -> fweight F p mx v = Fin 0.
Proof.
  intros HF FL Hp Hz Lv Lz. assert (Pz : 0 <= IZR z) by (apply (IZR_le 0); lia). unfold fweight. assert (R1 := rd_le F HF (v - mx) (IZR (- z)) ltac:(rewrite opp_IZR; lra)). rewrite rd_int in R1 by (auto; lia). rewrite opp_IZR in R1.
  destruct (rnd_neg F HF (v - mx) ltac:(lra)) as [[-> _]|[-> B]]; cbn.
  - unfold ninf_times. now rewrite (proj2 (Rltb_true 0 p)).
  - assert (R2 : rd F (v - mx) * p <= IZR (-1076)) by (assert (K := Rmult_le_compat_r p _ _ (Rlt_le _ _ Hp) R1); lra). assert (R3 := rd_le F HF _ _ R2). rewrite rd_int in R3 by (auto; lia).
    destruct (rnd_neg F HF (rd F (v - mx) * p) ltac:(lra)) as [[-> _]|[-> C]]; [reflexivity|]. cbn. set (x := rd F (rd F (v - mx) * p)) in *.
    assert (E : 0 <= exp x < bpow radix2 (-1075)).
    { split; [apply Rlt_le, exp_pos|]. apply Rle_lt_trans with (exp (IZR (-1076))); [destruct R3 as [R3|R3]; [apply Rlt_le, exp_increasing, R3|rewrite R3; lra]|].
      replace (IZR (-1076)) with (- INR (Z.to_nat 1076)) by (rewrite INR_IZR_INZ, Z2Nat.id by lia; rewrite <- opp_IZR; reflexivity). eapply Rle_lt_trans; [apply pow2_exp|]. rewrite <- bpow_neg. apply bpow_lt. rewrite Z2Nat.id; lia. }
    assert (E1 : 0 <= exp x <= 1) by (split; [apply E|]; rewrite <- exp_0; apply Rlt_le, exp_increasing; lra). destruct (rnd_unit F HF _ E1) as [-> _]. now rewrite FL.
Qed.
(** [z] times [p] at most 537: it is not *)
Lemma b64_tiny x : bpow radix2 (-1074) <= x -> 0 < rd b64 x.
Proof.
  intro H. apply Rlt_le_trans with (rd b64 (bpow radix2 (-1074))); [|apply (rd_le b64 b64_rounding), H]. assert (V : Valid_exp (FLT_exp (-1074) 53)) by (apply FLT_exp_valid; reflexivity). change (0 < round radix2 (FLT_exp (-1074) 53) ZnearestE (bpow radix2 (-1074))). rewrite round_generic; auto with typeclass_instances; [apply bpow_gt_0|]. apply generic_format_bpow. unfold FLT_exp. lia.
Qed.
Lemma exp_pow4 n : / 2 ^ (2 * n) <= exp (- INR n).
Proof.
  rewrite exp_Ropp. apply Rinv_le_contravar; [apply exp_pos|]. rewrite pow_mult. replace (2 ^ 2) with 4 by ring. induction n as [|n IH]; [cbn; rewrite exp_0; lra|]. rewrite S_INR, exp_plus. cbn [pow]. assert (K := exp_le_3). assert (0 < exp (INR n)) by apply exp_pos. assert (0 < exp 1) by apply exp_pos. nra.
Qed.
Lemma weight_kept p mx v z : 0 < p -> (0 <= z <= 2 ^ 53)%Z -> mx - IZR z <= v <= mx -> IZR z * p <= 537 -> fweight b64 p mx v <> Fin 0.
Proof.
  intros Hp Hz Lv Lz. assert (HF := b64_rounding). assert (Pz : 0 <= IZR z) by (apply (IZR_le 0); lia). unfold fweight.
  assert (I1 : IZR (- z) <= v - mx <= IZR 0) by (rewrite opp_IZR; lra). destruct (rnd_between b64 HF (v - mx) (- z) 0 ltac:(lia) ltac:(lia) I1) as [-> B]. rewrite opp_IZR in B. cbn [fmul].
  assert (I2 : IZR (-537) <= rd b64 (v - mx) * p <= IZR 0) by (destruct B; nra). destruct (rnd_between b64 HF _ (-537) 0 ltac:(lia) ltac:(lia) I2) as [-> C]. cbn [fexp]. set (x := rd b64 (rd b64 (v - mx) * p)) in *.
  assert (E1 : 0 <= exp x <= 1) by (split; [apply Rlt_le, exp_pos|]; rewrite <- exp_0; destruct C as [_ [C|C]]; [apply Rlt_le, exp_increasing, C|rewrite C; apply Rle_refl]). destruct (rnd_unit b64 HF _ E1) as [-> _]. assert (T : 0 < rd b64 (exp x)); [|intro K; assert (J : forall a, Fin a = Fin 0 -> a = 0) by congruence; apply J in K; lra]. apply b64_tiny.
  apply Rle_trans with (exp (IZR (-537))); [|destruct C as [[C|C] _]; [apply Rlt_le, exp_increasing, C|rewrite C; lra]]. replace (IZR (-537)) with (- INR (Z.to_nat 537)) by (rewrite INR_IZR_INZ, Z2Nat.id by lia; rewrite <- opp_IZR; reflexivity). eapply Rle_trans; [|apply exp_pow4]. rewrite <- bpow_neg. apply bpow_le. lia.
Qed.
