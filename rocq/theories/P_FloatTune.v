(** The tuning objectives of HumanChoiceUser2 in binary64. *)
From Coq Require Import Reals ZArith Lra Lia List Bool Permutation.
From Flocq Require Import Core Relative.
From Verif Require Import M_Base M_RBase M_Normal M_Float M_FloatProbit M_FloatPer M_FloatTune S_Float P_RBase P_Normal P_Float P_FloatProbit P_FloatNorm P_FloatKern.
Import ListNotations.
Local Open Scope R_scope.

Notation R64 := b64_rounding.
Lemma rd_idem x : rd b64 (rd b64 x) = rd b64 x.
Proof. apply R64. Qed.
Lemma format_of x : rd b64 x = x -> generic_format radix2 (FLT_exp (-1074) 53) x.
Proof.
  assert (V : Valid_exp (FLT_exp (-1074) 53)) by (apply FLT_exp_valid; reflexivity). intros <-. apply generic_format_round; auto with typeclass_instances.
Qed.
Lemma rd_format x : generic_format radix2 (FLT_exp (-1074) 53) x -> rd b64 x = x.
Proof. assert (V : Valid_exp (FLT_exp (-1074) 53)) by (apply FLT_exp_valid; reflexivity). intros H. apply round_generic; auto with typeclass_instances. Qed.
Lemma rd_double x : rd b64 x = x -> rd b64 (2 * x) = 2 * x.
Proof.
  intros H. apply format_of in H. apply rd_format. apply FLT_format_generic in H; [|reflexivity]. destruct H as [f E1 E2 E3].
  apply generic_format_FLT. apply (FLT_spec radix2 (-1074) 53 _ (Float radix2 (Fnum f) (Fexp f + 1))); cbn [Fnum Fexp]; [|exact E2|lia].
  rewrite E1. unfold F2R. cbn [Fnum Fexp]. rewrite bpow_plus. change (bpow radix2 1) with 2. ring.
Qed.
(** one is absorbed by large numbers *)
Lemma one_absorbed x : rd b64 x = x -> bpow radix2 54 <= x -> rd b64 (1 + x) = x.
Proof.
  intros H L. assert (V : Valid_exp (FLT_exp (-1074) 53)) by (apply FLT_exp_valid; reflexivity).
  assert (G := format_of x H). pose proof (bpow_gt_0 radix2 54) as P54.
  assert (N := round_N_pt radix2 (FLT_exp (-1074) 53) (fun n => negb (Z.even n)) (1 + x)). fold (rd b64 (1 + x)) in N.
  destruct N as [Gr N]. specialize (N x G).
  assert (Lo : x <= rd b64 (1 + x)) by (rewrite <- H at 1; apply (rd_le b64 R64); lra).
  change (round radix2 (FLT_exp (-1074) 53) (Znearest (fun n => negb (Z.even n))) (1 + x)) with (rd b64 (1 + x)) in *.
  replace (x - (1 + x)) with (-1) in N by ring. rewrite (Rabs_left (-1)) in N by lra. apply Rabs_le_inv in N.
  destruct (Rle_lt_or_eq_dec _ _ Lo) as [Lt|E]; [|now symmetry]. exfalso.
  assert (S := succ_le_lt radix2 (FLT_exp (-1074) 53) x (rd b64 (1 + x)) G Gr Lt). rewrite succ_eq_pos in S by lra.
  assert (U : 4 <= ulp radix2 (FLT_exp (-1074) 53) x).
  { rewrite ulp_neq_0 by lra. change 4 with (bpow radix2 2). apply bpow_le. unfold cexp, FLT_exp.
    assert (M : (55 <= mag radix2 x)%Z) by (apply (mag_ge_bpow radix2 x 55); rewrite Rabs_pos_eq by lra; exact L). lia. }
  lra.
Qed.
Lemma rnd_small x t : (t <= 1000)%Z -> (-1074 <= t)%Z -> 0 <= x <= bpow radix2 t -> rnd b64 x = Fin (rd b64 x) /\ 0 <= rd b64 x <= bpow radix2 t.
Proof.
  intros Ht Ht' H. apply rnd_below; [exact H|apply rd_bpow; lia|apply bpow_le; lia].
Qed.
Lemma plus_one x : rd b64 x = x -> 1 <= x < bpow radix2 1024 -> exists s, fadd b64 (Fin 1) (Fin x) = Fin s /\ x <= s <= 2 * x /\ (bpow radix2 54 <= x -> s = x).
Proof.
  intros H B. cbn [fadd]. assert (Lo : x <= rd b64 (1 + x)) by (rewrite <- H at 1; apply (rd_le b64 R64); lra).
  assert (Hi : rd b64 (1 + x) <= 2 * x) by (rewrite <- (rd_double x H); apply (rd_le b64 R64); lra).
  exists (rd b64 (1 + x)). split; [|split; [lra|now apply one_absorbed]].
  destruct (Rle_lt_dec (bpow radix2 54) x) as [L|L].
  - unfold rnd. rewrite (one_absorbed x H L). change (huge b64) with (bpow radix2 1024). pose proof (bpow_gt_0 radix2 1024).
    rewrite (proj2 (Rleb_false (bpow radix2 1024) x)) by lra. rewrite (proj2 (Rleb_false x _)) by lra. reflexivity.
  - assert (1 + x <= bpow radix2 55) by (assert (E : bpow radix2 55 = 2 * bpow radix2 54) by (change 55%Z with (1 + 54)%Z; rewrite bpow_plus; reflexivity); lra).
    apply (rnd_small (1 + x) 55); [lia|lia|lra].
Qed.
(** the exponential of a non-negative product *)
Lemma grown b d : 0 <= b -> let eb := fexp b64 (fmul b64 (fabs (Fin d)) (Fin b)) in
  eb = PInf \/ exists x, eb = Fin x /\ rd b64 x = x /\ 1 <= x < bpow radix2 1024 /\ (54 <= Rabs d * b -> bpow radix2 54 <= x).
Proof.
  intros Hb eb. subst eb. cbn [fabs fmul]. assert (Hp : 0 <= Rabs d * b) by (apply Rmult_le_pos; [apply Rabs_pos|exact Hb]).
  destruct (rnd_nonneg _ Hp) as [[-> | ->] Hz]; [now left|]. cbn [fexp]. set (z := rd b64 (Rabs d * b)) in *.
  assert (E1 : 1 <= exp z) by (rewrite <- exp_0; destruct Hz as [Hz| <-]; [apply Rlt_le, exp_increasing, Hz|lra]).
  assert (E0 : 0 <= exp z) by lra. assert (G1 : 1 <= rd b64 (exp z)) by (rewrite <- (rd_1 b64 R64) at 1; apply (rd_le b64 R64); exact E1).
  unfold rnd. change (huge b64) with (bpow radix2 1024). destruct (Rleb (bpow radix2 1024) (rd b64 (exp z))) eqn:E; [now left|].
  apply Rleb_false in E. pose proof (bpow_gt_0 radix2 1024). rewrite (proj2 (Rleb_false _ (- bpow radix2 1024))) by lra.
  right. exists (rd b64 (exp z)). split; [reflexivity|]. split; [apply rd_idem|]. split; [lra|]. intros Hd.
  assert (Hz54 : 54 <= z) by (unfold z; rewrite <- (rd_int b64 R64 54) by lia; apply (rd_le b64 R64); exact Hd).
  rewrite <- (rd_bpow 54) by lia. apply (rd_le b64 R64).
  pose proof (pow2_exp 54) as K. replace (- INR 54) with (- (54)) in K by (rewrite INR_IZR_INZ; reflexivity). rewrite exp_Ropp in K.
  assert (L54 : exp 54 <= exp z) by (destruct Hz54 as [L| <-]; [apply Rlt_le, exp_increasing, L|lra]).
  eapply Rle_trans; [|exact L54]. pose proof (exp_pos 54) as P.
  assert (P2 : 0 < 2 ^ 54) by (apply pow_lt; lra).
  replace (bpow radix2 54) with (2 ^ 54); [|rewrite pow_IZR; reflexivity].
  apply Rnot_lt_le. intros C. apply (Rinv_lt_contravar (exp 54) (2 ^ 54)) in C; [lra|now apply Rmult_lt_0_compat].
Qed.
Lemma chance_ok b d : 0 <= b -> exists x, chance_fl b64 b d = Fin x /\ 1 / 2 <= x <= 1 /\ rd b64 x = x /\ (54 <= Rabs d * b -> x = 1).
Proof.
  intros Hb. unfold chance_fl. cbv zeta. destruct (grown b d Hb) as [-> | [x [-> [Hx [B L]]]]].
  - cbn [fadd fdiv fisnan]. exists 1. split; [reflexivity|]. split; [lra|]. split; [apply (rd_1 b64 R64)|auto].
  - destruct (plus_one x Hx B) as [s [-> [Hs Ls]]]. cbn [fdiv]. destruct (Req_EM_T s 0) as [E|_]; [lra|].
    assert (Q : 1 / 2 <= x / s <= 1).
    { split; apply (Rmult_le_reg_r s); try lra; replace (x / s * s) with x by (field; lra); lra. }
    destruct (rnd_unit b64 R64 (x / s)) as [-> Hr]; [lra|]. cbn [fisnan]. exists (rd b64 (x / s)). split; [reflexivity|].
    assert (H2 : rd b64 (1 / 2) = 1 / 2) by (replace (1 / 2) with (bpow radix2 (-1)) by (cbn; lra); apply rd_bpow; lia).
    split; [split; [rewrite <- H2; apply (rd_le b64 R64); lra|lra]|]. split; [apply rd_idem|]. intros Hd. rewrite (Ls (L Hd)).
    replace (x / x) with 1 by (field; lra). apply (rd_1 b64 R64).
Qed.
Definition counted (v : fval) : Prop := v = NaN \/ exists x, v = Fin x /\ 1 / 2 <= x <= 1.
Lemma fltb_fin x y : fltb (Fin x) (Fin y) = Rltb x y.
Proof. cbn. unfold Rltb, Rleb. destruct (Rle_dec y x), (Rlt_dec x y); cbn; auto; lra. Qed.
Lemma threshold_ok : exists t, rnd b64 (50000001 / 100000000) = Fin t /\ 1 / 2 < t < 3 / 4.
Proof.
  destruct (rnd_unit b64 R64 (50000001 / 100000000)) as [E B]; [lra|]. exists (rd b64 (50000001 / 100000000)). split; [exact E|].
  assert (A : rd b64 (IZR (2 ^ 29 + 1) * bpow radix2 (-30)) = IZR (2 ^ 29 + 1) * bpow radix2 (-30)) by (apply rd_scaled; lia).
  assert (A3 : rd b64 (IZR 5 * bpow radix2 (-3)) = IZR 5 * bpow radix2 (-3)) by (apply rd_scaled; lia).
  assert (V : IZR (2 ^ 29 + 1) * bpow radix2 (-30) = 536870913 / 1073741824) by (cbn; lra).
  assert (V3 : IZR 5 * bpow radix2 (-3) = 5 / 8) by (cbn; lra). rewrite V in A. rewrite V3 in A3.
  split.
  - apply Rlt_le_trans with (536870913 / 1073741824); [lra|]. rewrite <- A. apply (rd_le b64 R64). lra.
  - apply Rle_lt_trans with (5 / 8); [|lra]. rewrite <- A3. apply (rd_le b64 R64). lra.
Qed.
Lemma kept_ok b d : 0 <= b -> (kept_fl b64 b d = NaN \/ exists x, kept_fl b64 b d = Fin x /\ 1 / 2 < x <= 1) /\
  (Rabs d * b = 0 -> kept_fl b64 b d = NaN) /\ (54 <= Rabs d * b -> kept_fl b64 b d = Fin 1).
Proof.
  intros Hb. unfold kept_fl. cbv zeta. destruct (chance_ok b d Hb) as [x [E [B [_ L]]]]. rewrite E. destruct threshold_ok as [t [-> Ht]]. rewrite fltb_fin.
  split; [|split].
  - destruct (Rltb x t) eqn:C; [now left|]. apply Rltb_false in C. right. exists x. split; [reflexivity|lra].
  - intros Hz. assert (X : x = 1 / 2); [|rewrite X, (proj2 (Rltb_true _ _)) by lra; reflexivity].
    unfold chance_fl in E. cbn [fabs fmul] in E. rewrite Hz in E. rewrite rnd_0 in E. rewrite exp_zero in E. cbn [fadd] in E.
    destruct (rnd_between b64 R64 (1 + 1) 2 2) as [R2 B2]; [lia|lia|lra|]. rewrite R2 in E. assert (T2 : rd b64 (1 + 1) = 2) by lra. rewrite T2 in E.
    cbn [fdiv] in E. destruct (Req_EM_T 2 0) as [C|_]; [lra|].
    assert (H2 : rd b64 (1 / 2) = 1 / 2) by (replace (1 / 2) with (bpow radix2 (-1)) by (cbn; lra); apply rd_bpow; lia).
    destruct (rnd_unit b64 R64 (1 / 2)) as [R3 _]; [lra|]. rewrite R3, H2 in E. cbn [fisnan] in E. injection E as <-. reflexivity.
  - intros Hd. rewrite (L Hd). rewrite (proj2 (Rltb_false _ _)) by lra. reflexivity.
Qed.
Lemma rated_ok s d : 0 < s -> (d = 0 -> rated_fl b64 s d = NaN) /\ (d <> 0 -> exists x, rated_fl b64 s d = Fin x /\ 1 / 2 <= x <= 1).
Proof.
  intros Hs. unfold rated_fl. cbv zeta. split.
  - intros ->. rewrite Rabs_R0. destruct (Req_EM_T 0 0); [reflexivity|contradiction].
  - intros Hd. assert (Ad : 0 < Rabs d) by now apply Rabs_pos_lt. destruct (Req_EM_T (Rabs d) 0) as [C|_]; [lra|].
    assert (S2 : 1 <= sqrt 2 <= 2) by (pose proof (sqrt_pos 2); assert (sqrt 2 * sqrt 2 = 2) by (apply sqrt_sqrt; lra); split; nra).
    destruct (rnd_between b64 R64 (sqrt 2) 1 2) as [-> B2]; [lia|lia|exact S2|]. set (q := rd b64 (sqrt 2)) in *. cbn [fabs].
    assert (W : forall v, v = PInf \/ (exists z, v = Fin z /\ 0 <= z) -> exists x, ndtr_fl b64 v = Fin x /\ 1 / 2 <= x <= 1).
    { intros v [-> | [z [-> Hz]]]; cbn [ndtr_fl]; [exists 1; split; [reflexivity|lra]|].
      assert (N : 1 / 2 <= ndtr z < 1) by (split; [rewrite <- ndtr_0; apply ndtr_le; exact Hz|apply ndtr_range]).
      destruct (rnd_unit b64 R64 (ndtr z)) as [-> Br]; [lra|]. exists (rd b64 (ndtr z)). split; [reflexivity|]. split; [|lra].
      assert (H2 : rd b64 (1 / 2) = 1 / 2) by (replace (1 / 2) with (bpow radix2 (-1)) by (cbn; lra); apply rd_bpow; lia).
      rewrite <- H2. apply (rd_le b64 R64). lra. }
    apply W. cbn [fmul].
    assert (I : forall v, v = PInf \/ (exists z, v = Fin z /\ 0 <= z) -> fmul b64 (Fin (Rabs d)) v = PInf \/ (exists z, fmul b64 (Fin (Rabs d)) v = Fin z /\ 0 <= z)).
    { intros v [-> | [z [-> Hz]]]; cbn [fmul].
      - left. unfold inf_times. now rewrite (proj2 (Rltb_true 0 (Rabs d))).
      - assert (Hm : 0 <= Rabs d * z) by (apply Rmult_le_pos; lra). destruct (rnd_nonneg _ Hm) as [[-> | ->] Hr]; [now left|right; eexists; split; [reflexivity|exact Hr]]. }
    apply I. assert (Hq : 0 <= q * s) by (apply Rmult_le_pos; lra). destruct (rnd_nonneg _ Hq) as [[-> | ->] Hr]; cbn [fdiv].
    + right. exists 0. split; [reflexivity|lra].
    + set (w := rd b64 (q * s)) in *. destruct (Req_EM_T w 0) as [E|E].
      * left. unfold inf_times. now rewrite (proj2 (Rltb_true 0 1)) by lra.
      * assert (H1 : 0 <= 1 / w) by (apply Rlt_le, Rdiv_lt_0_compat; lra).
        destruct (rnd_nonneg _ H1) as [[-> | ->] Hx]; [now left|right; eexists; split; [reflexivity|exact Hx]].
Qed.
(** the mean of what is counted *)
Definition cnt (l : list fval) : nat := length (filter (fun v => negb (fisnan v)) l).
Definition fill (v : fval) : fval := if fisnan v then Fin 0 else v.
Lemma rd_half k : (Z.of_nat k <= 2 ^ 53)%Z -> rd b64 (INR k / 2) = INR k / 2.
Proof. intros H. rewrite INR_IZR_INZ. replace (IZR (Z.of_nat k) / 2) with (IZR (Z.of_nat k) * bpow radix2 (-1)) by (cbn; lra). apply rd_scaled; lia. Qed.
(** zeros and numbers between 1/2 and 1 *)
Definition filled (v : fval) : Prop := v = Fin 0 \/ exists x, v = Fin x /\ 1 / 2 <= x <= 1.
Definition pos (v : fval) : bool := match v with Fin x => Rltb 0 x | _ => false end.
Definition npos (l : list fval) : nat := length (filter pos l).
Lemma npos_app l m : npos (l ++ m) = (npos l + npos m)%nat.
Proof. unfold npos. now rewrite filter_app, app_length. Qed.
Lemma npos_perm l m : Permutation l m -> npos l = npos m.
Proof. induction 1; unfold npos in *; cbn [filter]; [reflexivity|destruct (pos x); cbn; congruence|destruct (pos x), (pos y); reflexivity|congruence]. Qed.
Lemma npos_len l : (npos l <= length l)%nat.
Proof. unfold npos. induction l as [|v l IH]; cbn; [lia|]. destruct (pos v); cbn; lia. Qed.
Lemma adds_filled l a : adds b64 l a -> (forall v, In v l -> filled v) -> (Z.of_nat (length l) <= 2 ^ 53)%Z ->
  exists s, a = Fin s /\ INR (npos l) / 2 <= s <= INR (npos l) /\ ((forall v, In v l -> v = Fin 1) -> s = INR (npos l)).
Proof.
  induction 1 as [x|l1 l2 l a b A1 IH1 A2 IH2 P]; intros W N.
  - destruct (W x (or_introl eq_refl)) as [-> | [t [-> B]]]; unfold npos; cbn [filter pos].
    + rewrite (proj2 (Rltb_false 0 0)) by lra. exists 0. cbn. split; [reflexivity|]. split; [lra|auto].
    + rewrite (proj2 (Rltb_true 0 t)) by lra. exists t. cbn. split; [reflexivity|]. split; [lra|]. intros H. specialize (H (Fin t) (or_introl eq_refl)). now injection H.
  - assert (L := Permutation_length P). rewrite app_length in L.
    destruct IH1 as [s1 [-> [B1 U1]]]; [intros v Hv; apply W; apply (Permutation_in _ (Permutation_sym P)), in_or_app; now left|lia|].
    destruct IH2 as [s2 [-> [B2 U2]]]; [intros v Hv; apply W; apply (Permutation_in _ (Permutation_sym P)), in_or_app; now right|lia|].
    rewrite (npos_perm _ _ P), npos_app. pose proof (npos_len l1). pose proof (npos_len l2). set (k := (npos l1 + npos l2)%nat) in *.
    assert (K : INR k = INR (npos l1) + INR (npos l2)) by apply plus_INR. assert (Hk : (Z.of_nat k <= 2 ^ 53)%Z) by (unfold k; lia).
    assert (P1 := pos_INR (npos l1)). assert (P2 := pos_INR (npos l2)). cbn [fadd].
    destruct (rnd_between b64 R64 (s1 + s2) 0 (Z.of_nat k)) as [-> B]; [lia|lia|rewrite <- INR_IZR_INZ; lra|]. rewrite <- INR_IZR_INZ in B.
    exists (rd b64 (s1 + s2)). split; [reflexivity|]. split.
    + split; [rewrite <- (rd_half k Hk); apply (rd_le b64 R64); lra|lra].
    + intros H1. rewrite U1, U2, <- K by (intros v Hv; apply H1, (Permutation_in _ (Permutation_sym P)), in_or_app; auto).
      rewrite INR_IZR_INZ. apply (rd_int b64 R64). lia.
Qed.
Lemma fill_filled v : counted v -> filled (fill v).
Proof. intros [-> | [x [-> H]]]; [now left|right]. exists x. auto. Qed.
Lemma npos_cnt l : (forall v, In v l -> counted v) -> npos (map fill l) = cnt l.
Proof.
  unfold npos, cnt. induction l as [|v l IH]; intros H; [reflexivity|]. cbn [map filter].
  specialize (IH (fun w Hw => H w (or_intror Hw))). destruct (H v (or_introl eq_refl)) as [-> | [x [-> B]]]; cbn [fill fisnan negb pos].
  - rewrite (proj2 (Rltb_false 0 0)) by lra. exact IH.
  - rewrite (proj2 (Rltb_true 0 x)) by lra. cbn [length]. now rewrite IH.
Qed.
Lemma cnt_0 l : cnt l = 0%nat <-> forall v, In v l -> v = NaN.
Proof.
  unfold cnt. induction l as [|v l IH]; cbn [filter length]; [split; [intros _ v []|reflexivity]|].
  destruct v; cbn [fisnan negb length].
  - rewrite IH. split; [intros H w [<- |Hw]; auto|intros H w Hw; apply H; now right].
  - split; [discriminate|intros H; specialize (H _ (or_introl eq_refl)); discriminate].
  - split; [discriminate|intros H; specialize (H _ (or_introl eq_refl)); discriminate].
  - split; [discriminate|intros H; specialize (H _ (or_introl eq_refl)); discriminate].
Qed.
Lemma mean_ok sm l : sums b64 sm -> l <> [] -> (Z.of_nat (length l) <= 2 ^ 53)%Z -> (forall v, In v l -> counted v) ->
  ((forall v, In v l -> v = NaN) -> nanmean_fl b64 sm l = NaN) /\
  ((exists v, In v l /\ v <> NaN) -> exists m, nanmean_fl b64 sm l = Fin m /\ 1 / 2 <= m <= 1) /\
  ((forall v, In v l -> v = Fin 1) -> nanmean_fl b64 sm l = Fin 1).
Proof.
  intros Hsm Hne N C. unfold nanmean_fl. change (map (fun v => if fisnan v then Fin 0 else v) l) with (map fill l). fold (cnt l).
  assert (Hne' : map fill l <> []) by (destruct l; [contradiction|discriminate]).
  destruct (adds_filled _ _ (Hsm _ Hne')) as [s [-> [B U]]]; [intros v Hv; apply in_map_iff in Hv; destruct Hv as [w [<- Hw]]; now apply fill_filled, C|now rewrite map_length|].
  rewrite npos_cnt in B, U by exact C. cbn [fdiv]. split; [|split].
  - intros H. apply cnt_0 in H. rewrite H in *. cbn in *. destruct (Req_EM_T 0 0) as [_|C0]; [|contradiction]. assert (s = 0) by lra. subst s. apply inf_times_0.
  - intros [v [Hv Hn]]. assert (Hc : cnt l <> 0%nat) by (intros E; apply Hn, (proj1 (cnt_0 l) E v Hv)).
    assert (Pc : 0 < INR (cnt l)) by (apply lt_0_INR; lia). destruct (Req_EM_T (INR (cnt l)) 0) as [E|_]; [lra|].
    assert (Q : 1 / 2 <= s / INR (cnt l) <= 1) by (split; apply (Rmult_le_reg_r (INR (cnt l))); try lra; replace (s / INR (cnt l) * INR (cnt l)) with s by (field; lra); lra).
    destruct (rnd_unit b64 R64 (s / INR (cnt l))) as [-> Br]; [lra|]. exists (rd b64 (s / INR (cnt l))). split; [reflexivity|]. split; [|lra].
    assert (H2 : rd b64 (1 / 2) = 1 / 2) by (replace (1 / 2) with (bpow radix2 (-1)) by (cbn; lra); apply rd_bpow; lia).
    rewrite <- H2. apply (rd_le b64 R64). lra.
  - intros H1. assert (S1 : s = INR (cnt l)) by (apply U; intros v Hv; apply in_map_iff in Hv; destruct Hv as [w [<- Hw]]; rewrite (H1 w Hw); reflexivity).
    assert (Hc : cnt l <> 0%nat).
    { intros E. destruct l as [|v l]; [contradiction|]. assert (X := proj1 (cnt_0 _) E v (or_introl eq_refl)). rewrite (H1 v (or_introl eq_refl)) in X. discriminate. }
    assert (Pc : 0 < INR (cnt l)) by (apply lt_0_INR; lia). destruct (Req_EM_T (INR (cnt l)) 0) as [E|_]; [lra|].
    rewrite S1. replace (INR (cnt l) / INR (cnt l)) with 1 by (field; lra). destruct (rnd_unit b64 R64 1) as [-> _]; [lra|]. now rewrite (rd_1 b64 R64).
Qed.
Lemma miss_ok m p : 0 <= m <= 1 -> 0 <= p <= 1 -> exists v, miss_fl b64 (Fin m) p = Fin v /\ 0 <= v <= 1.
Proof.
  intros Hm Hp. unfold miss_fl, fsub. cbn [fneg fadd]. destruct (rnd_between b64 R64 (m + - p) (-1) 1) as [-> B]; [lia|lia|lra|].
  cbn [fmul]. set (e := rd b64 (m + - p)) in *. destruct (rnd_unit b64 R64 (e * e)) as [-> Br]; [nra|]. eexists. split; [reflexivity|exact Br].
Qed.
Lemma miss_nan p : miss_fl b64 NaN p = NaN.
Proof. reflexivity. Qed.

Lemma nan_dec v : {v = NaN} + {v <> NaN}.
Proof. destruct v; [left; reflexivity|right; discriminate..]. Qed.
Lemma all_or_one (l : list fval) : (forall v, In v l -> v = NaN) \/ exists v, In v l /\ v <> NaN.
Proof.
  induction l as [|v l [IH|[w [Hw Hn]]]]; [left; intros v []| |right; exists w; split; [now right|exact Hn]].
  destruct (nan_dec v) as [E|E]; [left; intros w [<- |Hw]; auto|right; exists v; split; [now left|exact E]].
Qed.
Lemma kept_counted b ds v : 0 <= b -> In v (map (kept_fl b64 b) ds) -> counted v.
Proof. intros Hb H. apply in_map_iff in H. destruct H as [d [<- _]]. destruct (kept_ok b d Hb) as [[-> | [x [-> B]]] _]; [now left|right]. exists x. split; [reflexivity|lra]. Qed.
Lemma rated_counted s ds v : 0 < s -> In v (map (rated_fl b64 s) ds) -> counted v.
Proof.
  intros Hs H. apply in_map_iff in H. destruct H as [d [<- _]]. destruct (rated_ok s d Hs) as [A B]. destruct (Req_dec d 0) as [E|E]; [left; auto|right]. auto.
Qed.
Lemma pair_objective sm b ds p : sums b64 sm -> 0 <= b -> 0 <= p <= 1 -> ds <> [] -> (Z.of_nat (length ds) <= 2 ^ 53)%Z ->
  (obj_fl b64 sm b ds p = NaN <-> forall d, In d ds -> kept_fl b64 b d = NaN) /\
  (obj_fl b64 sm b ds p = NaN \/ exists v, obj_fl b64 sm b ds p = Fin v /\ 0 <= v <= 1).
Proof.
  intros Hsm Hb Hp Hne N. unfold obj_fl.
  destruct (mean_ok sm (map (kept_fl b64 b) ds) Hsm) as [M1 [M2 _]]; [destruct ds; [contradiction|discriminate]|now rewrite map_length|intros v; now apply kept_counted|].
  destruct (all_or_one (map (kept_fl b64 b) ds)) as [A|A].
  - rewrite (M1 A), miss_nan. split; [|now left]. split; [|reflexivity]. intros _ d Hd. apply A, in_map, Hd.
  - destruct (M2 A) as [m [-> Hm]]. destruct (miss_ok m p) as [v [E B]]; [lra|exact Hp|]. rewrite E. split; [|right; exists v; auto].
    split; [discriminate|]. intros H. exfalso. destruct A as [w [Hw Hn]]. apply in_map_iff in Hw. destruct Hw as [d [<- Hd]]. apply Hn, H, Hd.
Qed.
Lemma pair_flat sm b c ds p : sums b64 sm -> 0 <= b -> 0 <= c -> ds <> [] -> (Z.of_nat (length ds) <= 2 ^ 53)%Z ->
  (forall d, In d ds -> 54 <= Rabs d * b /\ 54 <= Rabs d * c) -> obj_fl b64 sm b ds p = miss_fl b64 (Fin 1) p /\ obj_fl b64 sm c ds p = miss_fl b64 (Fin 1) p.
Proof.
  intros Hsm Hb Hc Hne N H. assert (G : forall e, 0 <= e -> (forall d, In d ds -> 54 <= Rabs d * e) -> obj_fl b64 sm e ds p = miss_fl b64 (Fin 1) p).
  { intros e He Hd. unfold obj_fl. f_equal.
    destruct (mean_ok sm (map (kept_fl b64 e) ds) Hsm) as [_ [_ M3]]; [destruct ds; [contradiction|discriminate]|now rewrite map_length|intros v; now apply kept_counted|].
    apply M3. intros v Hv. apply in_map_iff in Hv. destruct Hv as [d [<- Hv]]. now apply kept_ok, Hd. }
  split; apply G; auto; intros d Hd; now apply H.
Qed.
Lemma rate_objective sm s ds p : sums b64 sm -> 0 < s -> 0 <= p <= 1 -> ds <> [] -> (Z.of_nat (length ds) <= 2 ^ 53)%Z ->
  (rate_obj_fl b64 sm s ds p = NaN <-> forall d, In d ds -> d = 0) /\
  (rate_obj_fl b64 sm s ds p = NaN \/ exists v, rate_obj_fl b64 sm s ds p = Fin v /\ 0 <= v <= 1).
Proof.
  intros Hsm Hs Hp Hne N. unfold rate_obj_fl.
  destruct (mean_ok sm (map (rated_fl b64 s) ds) Hsm) as [M1 [M2 _]]; [destruct ds; [contradiction|discriminate]|now rewrite map_length|intros v; now apply rated_counted|].
  assert (R : forall d, In d ds -> rated_fl b64 s d = NaN -> d = 0).
  { intros d _ E. destruct (Req_dec d 0) as [Z|Z]; [exact Z|]. destruct (proj2 (rated_ok s d Hs) Z) as [x [E' _]]. congruence. }
  destruct (all_or_one (map (rated_fl b64 s) ds)) as [A|A].
  - rewrite (M1 A), miss_nan. split; [|now left]. split; [|reflexivity]. intros _ d Hd. apply R; [exact Hd|]. apply A, in_map, Hd.
  - destruct (M2 A) as [m [-> Hm]]. destruct (miss_ok m p) as [v [E B]]; [lra|exact Hp|]. rewrite E. split; [|right; exists v; auto].
    split; [discriminate|]. intros H. exfalso. destruct A as [w [Hw Hn]]. apply in_map_iff in Hw. destruct Hw as [d [<- Hd]]. apply Hn.
    apply (proj1 (rated_ok s d Hs)), H, Hd.
Qed.
