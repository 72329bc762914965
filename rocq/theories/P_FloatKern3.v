(** The RBF kernel in binary64: matrices and the factorisation for two points. *)
From Coq Require Import Reals ZArith Lra Lia List Bool Permutation.
From Flocq Require Import Core Relative.
From Verif Require Import M_Base M_RBase M_Kernel M_Float M_FloatProbit M_FloatKern S_Float S_FloatProbit P_RBase P_Base P_Kernel P_Float P_FloatProbit P_FloatProbit2 P_FloatProbit3 P_FloatNorm P_FloatOrd P_FloatKern P_FloatKern2.
From Verif Require Import S_Kernel.
Import ListNotations.
Local Open Scope R_scope.

(** ---- matrices ---- *)
Lemma map_entry {A B} (f : A -> B) l i da db : (i < length l)%nat -> nth i (map f l) db = f (nth i l da).
Proof. intro H. rewrite (nth_indep _ db (f da)) by (now rewrite map_length). apply map_nth. Qed.
Lemma eye_entry n M i j : (i < length M)%nat -> (j < length (nth i M []))%nat ->
  entry_fl (add_eye_fl b64 n M) i j = fadd b64 (entry_fl M i j) (fmul b64 (Fin (if Nat.eqb i j then 1 else 0)) (Fin n)).
Proof.
  intros Hi Hj. unfold entry_fl, add_eye_fl. rewrite (map_entry _ _ i (0%nat, [])) by (unfold enumerate; rewrite enumerate_from_length; lia).
  unfold enumerate. rewrite (enumerate_from_nth_entry M 0 i []) by lia. cbn [fst snd].
  rewrite (map_entry _ _ j (0%nat, NaN)) by (rewrite enumerate_from_length; cbn [fst snd]; lia).
  rewrite (enumerate_from_nth_entry (nth i M []) 0 j NaN) by lia. cbn [fst snd]. reflexivity.
Qed.
Lemma cov_entry sm s l n X : X <> [] -> exists K, rbf_cov_fl b64 sm s l n X X = Ok K /\ length K = length X /\
  forall i j, (i < length X)%nat -> (j < length X)%nat ->
    entry_fl K i j = fadd b64 (rbf_fl b64 sm s l (pt X i) (pt X j)) (fmul b64 (Fin (if Nat.eqb i j then 1 else 0)) (Fin n)).
Proof.
  intro HX. unfold rbf_cov_fl. rewrite Nat.eqb_refl. assert (G : exists x, getitem X 0 = Ok x) by (destruct X as [|x X']; [contradiction|now exists x]). destruct G as [x G].
  rewrite G. cbn [bind]. rewrite point_eqb_refl. eexists. split; [reflexivity|].
  assert (L : forall i, (i < length X)%nat -> nth i (map (fun x => map (fun y => rbf_fl b64 sm s l x y) X) X) [] = map (fun y => rbf_fl b64 sm s l (pt X i) y) X).
  { intros i Hi. now rewrite (map_entry _ X i []). }
  split; [unfold add_eye_fl; rewrite map_length; unfold enumerate; now rewrite enumerate_from_length, map_length|].
  intros i j Hi Hj. rewrite eye_entry; [|now rewrite map_length|rewrite L by exact Hi; now rewrite map_length].
  f_equal. unfold entry_fl. rewrite L by exact Hi. now rewrite (map_entry _ X j []).
Qed.
Lemma cov_sym sm s l n X K i j : rbf_cov_fl b64 sm s l n X X = Ok K -> (i < length X)%nat -> (j < length X)%nat -> entry_fl K i j = entry_fl K j i.
Proof.
  intros E Hi Hj. destruct (cov_entry sm s l n X) as [K' [E' [_ H]]]; [intros ->; cbn in Hi; lia|]. rewrite E in E'. injection E' as <-.
  rewrite (H i j), (H j i) by assumption. now rewrite rbf_sym, (Nat.eqb_sym i j).
Qed.
Lemma plus_zero x n : rd b64 x = x -> 0 <= x <= bpow radix2 1022 -> fadd b64 (Fin x) (fmul b64 (Fin 0) (Fin n)) = Fin x.
Proof.
  intros Fx Hx. cbn [fmul]. rewrite Rmult_0_l, rnd_0. cbn [fadd]. rewrite Rplus_0_r. destruct (rnd_below x x ltac:(lra) Fx ltac:(lra)) as [-> _]. now rewrite Fx.
Qed.
Lemma plus_one x n : rd b64 n = n -> 0 <= n <= bpow radix2 1022 -> fadd b64 (Fin x) (fmul b64 (Fin 1) (Fin n)) = rnd b64 (x + n).
Proof.
  intros Fn Hn. cbn [fmul]. rewrite Rmult_1_l. destruct (rnd_below n n ltac:(lra) Fn ltac:(lra)) as [-> _]. cbn [fadd]. now rewrite Fn.
Qed.
Lemma rbf_fmt sm s l u v x : rbf_fl b64 sm s l u v = Fin x -> rd b64 x = x.
Proof.
  unfold rbf_fl. destruct (fmul b64 (Fin s) (Fin s)) as [| | |a]; destruct (fexp b64 _) as [| | |b]; cbn [fmul]; unfold inf_times, ninf_times; repeat destruct (Rltb _ _); try discriminate.
  unfold rnd. destruct (Rleb _ _); [discriminate|]. destruct (Rleb _ _); [discriminate|]. intro E. injection E as <-. apply b64_rounding.
Qed.
Section matrix.
Variables (sm : list fval -> fval) (s l n : R) (X : list point) (d : nat).
Hypothesis Hs : sums b64 sm.
Hypothesis Hd : (0 < d)%nat.
Hypothesis HX : forall x, In x X -> length x = d.
Hypothesis Us : Rabs s <= bpow radix2 511.
Hypothesis Hl : bpow radix2 (-537) <= Rabs l <= bpow radix2 511.
Hypothesis Hn : 0 <= n <= bpow radix2 1022.
Hypothesis Fn : rd b64 n = n.
Lemma pt_dim i : (i < length X)%nat -> length (pt X i) = d /\ pt X i <> [].
Proof. intro Hi. assert (L : length (pt X i) = d) by (apply HX, nth_In, Hi). split; [exact L|]. intro E. rewrite E in L. cbn in L. lia. Qed.
Lemma cov_ok : X <> [] -> exists K, rbf_cov_fl b64 sm s l n X X = Ok K /\ length K = length X /\
  forall i j, (i < length X)%nat -> (j < length X)%nat ->
    entry_fl K i i = rnd b64 (rd b64 (s * s) + n) /\ (i <> j -> exists x, entry_fl K i j = Fin x /\ rbf_fl b64 sm s l (pt X i) (pt X j) = Fin x /\ 0 <= x <= rd b64 (s * s)).
Proof.
  intro NE. destruct (cov_entry sm s l n X NE) as [K [E [L H]]]. exists K. split; [exact E|]. split; [exact L|]. intros i j Hi Hj.
  destruct (pt_dim i Hi) as [Li Ni]. destruct (pt_dim j Hj) as [Lj _]. destruct (square_ok s Us) as [_ B]. split.
  - rewrite (H i i Hi Hi), Nat.eqb_refl, (rbf_self sm s l _ Hs Ni Us Hl). now apply plus_one.
  - intro D. rewrite (H i j Hi Hj), (proj2 (Nat.eqb_neq i j) D). destruct (rbf_range sm s l (pt X i) (pt X j) Hs Ni ltac:(congruence) Us Hl) as [x [E' R]]. rewrite E'.
    exists x. split; [apply plus_zero; [exact (rbf_fmt _ _ _ _ _ _ E')|lra]|]. now split.
Qed.
End matrix.

(** ---- two training points ---- *)
Lemma fltb_zero : fltb (Fin 0) (Fin 0) = false.
Proof. cbn. now rewrite (proj2 (Rleb_true _ _)) by lra. Qed.
Lemma fltb_pos x : bpow radix2 (-1074) <= x -> fltb (Fin 0) (rnd b64 x) = true.
Proof.
  intro H. assert (P := b64_tiny x H). assert (Q := bpow_gt_0 radix2 (-1074)). destruct (rnd_nonneg x ltac:(lra)) as [[-> | ->] _]; [reflexivity|].
  cbn [fltb fleb]. now rewrite (proj2 (Rleb_false _ _)) by lra.
Qed.
Lemma fltb_fin x : 0 < x -> fltb (Fin 0) (Fin x) = true.
Proof. intro H. cbn [fltb fleb]. now rewrite (proj2 (Rleb_false _ _)) by lra. Qed.
Lemma chol2_pow inv fused k a : (-400 <= k <= 400)%Z -> a = Fin (bpow radix2 (2 * k)) -> chol2_fl b64 inv fused a a a = Raise LinAlgError.
Proof.
  intros Hk ->. unfold chol2_fl. assert (P := bpow_gt_0 radix2 (2 * k)). rewrite (fltb_fin _ P).
  assert (SQ : bpow radix2 (2 * k) = bpow radix2 k * bpow radix2 k) by (rewrite <- bpow_plus; f_equal; lia). assert (Pk := bpow_gt_0 radix2 k).
  assert (F : forall e, (-1000 <= e <= 1000)%Z -> rnd b64 (bpow radix2 e) = Fin (bpow radix2 e)).
  { intros e He. apply rnd_bpow; [lia|apply rd_bpow; lia|apply bpow_ge_0|assert (Q := bpow_gt_0 radix2 e); lra]. }
  assert (E1 : fsqrt b64 (Fin (bpow radix2 (2 * k))) = Fin (bpow radix2 k)).
  { cbn [fsqrt]. rewrite (proj2 (Rltb_false _ _)) by lra. rewrite SQ, sqrt_square by lra. apply F. lia. }
  rewrite E1. cbv zeta. assert (Q1 : bpow radix2 (2 * k) / bpow radix2 k = bpow radix2 k) by (rewrite SQ; field; lra).
  assert (Q2 : 1 / bpow radix2 k = bpow radix2 (- k)) by (rewrite bpow_opp; field; lra).
  assert (E2 : (if inv then fmul b64 (Fin (bpow radix2 (2 * k))) (fdiv b64 (Fin 1) (Fin (bpow radix2 k))) else fdiv b64 (Fin (bpow radix2 (2 * k))) (Fin (bpow radix2 k))) = Fin (bpow radix2 k)).
  { destruct inv; cbn [fdiv]; (destruct (Req_EM_T _ 0); [lra|]).
    - rewrite Q2, F by lia. cbn [fmul]. rewrite <- bpow_plus. replace (2 * k + - k)%Z with k by lia. apply F. lia.
    - rewrite Q1. apply F. lia. }
  rewrite E2. assert (Z : rnd b64 (bpow radix2 (2 * k) - bpow radix2 k * bpow radix2 k) = Fin 0) by (rewrite SQ, Rminus_diag_eq by reflexivity; apply rnd_0).
  destruct fused.
  - rewrite Z, fltb_zero. reflexivity.
  - cbn [fmul]. rewrite <- SQ, F by lia. unfold fsub. cbn [fneg fadd]. rewrite Rplus_opp_r, rnd_0, fltb_zero. reflexivity.
Qed.
Lemma near_factor sm inv fused k l n (x y : point) sx sy : sums b64 sm -> (-200 <= k <= 200)%Z -> x <> [] -> length x = length y -> (Z.of_nat (length x) <= 2 ^ 20)%Z ->
  bpow radix2 (-400) <= Rabs l <= bpow radix2 400 -> (forall a b, In (a, b) (combine x y) -> Rabs (a - b) <= bpow radix2 (-41) * Rabs l) ->
  rd b64 n = n -> 0 <= n <= bpow radix2 (2 * k - 53) -> 0 <= sx <= bpow radix2 (2 * k - 53) -> 0 <= sy <= bpow radix2 (2 * k - 53) ->
  gp_factor2_fl b64 sm inv fused (bpow radix2 k) l n x y sx sy = Raise LinAlgError.
Proof.
  intros Hs Hk Hx HL HD Hl HN Fn Hn Hsx Hsy. set (S := bpow radix2 (2 * k)). assert (SQ : bpow radix2 k * bpow radix2 k = S) by (unfold S; rewrite <- bpow_plus; f_equal; lia).
  assert (FS : rd b64 S = S) by (apply rd_bpow; lia). assert (Us : Rabs (bpow radix2 k) <= bpow radix2 511) by (rewrite Rabs_right by (apply Rle_ge, bpow_ge_0); apply bpow_le; lia).
  assert (Hl' : bpow radix2 (-537) <= Rabs l <= bpow radix2 511). { split; [apply Rle_trans with (bpow radix2 (-400)); [apply bpow_le; lia|lra]|apply Rle_trans with (bpow radix2 400); [lra|apply bpow_le; lia]]. }
  assert (HB : bpow radix2 (2 * k - 53) <= bpow radix2 1022) by (apply bpow_le; lia).
  assert (HP : 0 < S) by apply bpow_gt_0.
  assert (HX : forall z, In z [x; y] -> length z = length x) by (intros z [<-|[<-|[]]]; [reflexivity|now symmetry]).
  assert (Hd : (0 < length x)%nat) by (destruct x; [contradiction|cbn; lia]).
  destruct (cov_ok sm (bpow radix2 k) l n [x; y] (length x) Hs Hd HX Us Hl' ltac:(lra) Fn ltac:(discriminate)) as [K [E [_ H]]].
  unfold gp_factor2_fl. rewrite E. cbn [bind]. destruct (H 0%nat 0%nat ltac:(cbn; lia) ltac:(cbn; lia)) as [H00 _]. destruct (H 1%nat 0%nat ltac:(cbn; lia) ltac:(cbn; lia)) as [H11 H10].
  destruct (H10 ltac:(discriminate)) as [b [E10 [Eb _]]]. rewrite SQ, FS in H00, H11.
  assert (AB : forall t, 0 <= t <= bpow radix2 (2 * k - 53) -> rnd b64 (S + t) = Fin S).
  { intros t Ht. apply rnd_bpow; [lia| |lra|]; [apply rd_absorb; [lia|fold S; lra]|]. assert (Q : bpow radix2 (2 * k - 53) <= S) by (apply bpow_le; lia). fold S. lra. }
  rewrite H00, H11, (AB n Hn). cbn [fadd]. rewrite (AB sx Hsx), (AB sy Hsy).
  assert (NB : b = S).
  { cbn [pt nth] in Eb. rewrite (rbf_near sm (bpow radix2 k) l y x Hs) in Eb; [rewrite SQ, FS in Eb; congruence|intros ->; destruct x; [contradiction|discriminate]|now symmetry|lia|exact Us|exact Hl|].
    intros a c Hac. rewrite Rabs_minus_sym. apply HN. clear - Hac. revert x Hac. induction y as [|q y IH]; intros [|p x]; cbn; try tauto. intros [E|E]; [left; congruence|right; auto]. }
  rewrite E10, NB. cbn [fadd]. rewrite Rplus_0_r. assert (Z0 : rnd b64 S = Fin S) by (rewrite <- (Rplus_0_r S) at 1; apply AB; split; [lra|apply bpow_ge_0]). rewrite Z0.
  apply (chol2_pow inv fused k); [lia|reflexivity].
Qed.
(** ---- enough noise ---- *)
Lemma rd_rel x : bpow radix2 (-1022) <= x -> x * (1 - bpow radix2 (-53)) <= rd b64 x <= x * (1 + bpow radix2 (-53)).
Proof.
  intro H. assert (P := bpow_gt_0 radix2 (-1022)). assert (R := relative_error_N_FLT radix2 (-1074) 53 ltac:(reflexivity) (fun z => negb (Z.even z)) x).
  rewrite (Rabs_right x) in R by lra. specialize (R H). change (round radix2 (FLT_exp (-1074) 53) (Znearest (fun z => negb (Z.even z))) x) with (rd b64 x) in R.
  assert (B := bpow_S (-53)). change (- (53) + 1)%Z with (-53 + 1)%Z in R. rewrite B in R. apply Rabs_le_inv in R. lra.
Qed.
Lemma rnd_fin x t : 0 <= x <= bpow radix2 t -> (-1074 <= t <= 1000)%Z -> rnd b64 x = Fin (rd b64 x) /\ 0 <= rd b64 x <= bpow radix2 t.
Proof. intros H Ht. apply rnd_below; [exact H|apply rd_bpow; lia|apply bpow_le; lia]. Qed.
Lemma chol2_ok inv fused S A b : rd b64 S = S -> bpow radix2 (-400) <= S <= bpow radix2 400 -> A <= bpow radix2 402 -> S * (1 + bpow radix2 (-41)) <= A -> 0 <= b <= S ->
  exists r, chol2_fl b64 inv fused (Fin A) (Fin b) (Fin A) = Ok r.
Proof.
  intros FS HS HA HG Hb. assert (P400 := bpow_gt_0 radix2 (-400)). assert (P41 := bpow_gt_0 radix2 (-41)). assert (PA : 0 < A) by nra. assert (SA : S <= A) by nra.
  assert (SS : sqrt A * sqrt A = A) by (apply sqrt_sqrt; lra). set (r := sqrt A) in *.
  assert (R1 : bpow radix2 (-200) <= r). { replace (bpow radix2 (-200)) with (sqrt (bpow radix2 (-400))); [apply sqrt_le_1; lra|]. replace (bpow radix2 (-400)) with (bpow radix2 (-200) * bpow radix2 (-200)) by (rewrite <- bpow_plus; reflexivity). apply sqrt_square, bpow_ge_0. }
  assert (R2 : r <= bpow radix2 201). { replace (bpow radix2 201) with (sqrt (bpow radix2 402)); [apply sqrt_le_1; [lra|apply bpow_ge_0|lra]|]. replace (bpow radix2 402) with (bpow radix2 201 * bpow radix2 201) by (rewrite <- bpow_plus; reflexivity). apply sqrt_square, bpow_ge_0. }
  unfold chol2_fl. rewrite (fltb_fin _ PA). cbn [fsqrt]. rewrite (proj2 (Rltb_false _ _)) by lra. fold r.
  assert (P200 := bpow_gt_0 radix2 (-200)). destruct (rnd_fin r 201 ltac:(lra) ltac:(lia)) as [-> T1]. assert (RR := rd_rel r ltac:(apply Rle_trans with (bpow radix2 (-200)); [apply bpow_le; lia|exact R1])). set (t := rd b64 r) in *.
  assert (T0 : bpow radix2 (-200) <= t) by (unfold t; rewrite <- (rd_bpow (-200)) by lia; now apply rdm).
  set (u := bpow radix2 (-53)) in *. assert (Pu : 0 < u) by apply bpow_gt_0. assert (Uu : u <= / 1000000) by (unfold u; change (bpow radix2 (-53)) with (/ 9007199254740992); lra).
  cbv zeta.
  assert (DIV : forall z, bpow radix2 (-201) <= z <= bpow radix2 202 -> 0 <= b * z -> rnd b64 (b * z) = Fin (rd b64 (b * z)) /\ 0 <= rd b64 (b * z) <= S * z * (1 + u)).
  { intros z Hz Hbz. assert (Pz : 0 < z) by (assert (Q := bpow_gt_0 radix2 (-201)); lra). assert (Le : b * z <= S * z) by nra.
    assert (UB : S * z <= bpow radix2 602). { replace (bpow radix2 602) with (bpow radix2 400 * bpow radix2 202) by (rewrite <- bpow_plus; reflexivity). apply Rmult_le_compat; lra. }
    destruct (rnd_fin (b * z) 602 ltac:(lra) ltac:(lia)) as [-> B]. split; [reflexivity|]. split; [apply B|]. assert (M := rdm _ _ Le).
    assert (LB : bpow radix2 (-1022) <= S * z). { apply Rle_trans with (bpow radix2 (-400) * bpow radix2 (-201)); [rewrite <- bpow_plus; apply bpow_le; lia|]. assert (Q := bpow_gt_0 radix2 (-201)). apply Rmult_le_compat; lra. }
    assert (RS := rd_rel _ LB). fold u in RS. lra. }
  assert (IT : bpow radix2 (-201) <= / t <= bpow radix2 200).
  { split.
    - rewrite <- (Rinv_involutive (bpow radix2 (-201))) by (apply Rgt_not_eq, bpow_gt_0). rewrite <- bpow_opp. apply Rinv_le_contravar; [lra|]. change (- -201)%Z with 201%Z. lra.
    - change 200%Z with (- -200)%Z. rewrite bpow_opp. apply Rinv_le_contravar; lra. }
  assert (P202 : bpow radix2 200 <= bpow radix2 202) by (apply bpow_le; lia). assert (Pt : 0 < t) by lra. assert (Pit : 0 < / t) by now apply Rinv_0_lt_compat.
  assert (LL : exists x, (if inv then fmul b64 (Fin b) (fdiv b64 (Fin 1) (Fin t)) else fdiv b64 (Fin b) (Fin t)) = Fin x /\ 0 <= x /\ x * t <= S * (1 + u) * (1 + u)).
  { destruct inv; cbn [fdiv]; (destruct (Req_EM_T t 0); [lra|]).
    - replace (1 / t) with (/ t) by (field; lra). destruct (rnd_fin (/ t) 200 ltac:(lra) ltac:(lia)) as [-> W]. cbn [fmul]. set (w := rd b64 (/ t)) in *.
      assert (W0 : bpow radix2 (-201) <= w) by (unfold w; rewrite <- (rd_bpow (-201)) by lia; now apply rdm).
      assert (RW := rd_rel (/ t) ltac:(apply Rle_trans with (bpow radix2 (-201)); [apply bpow_le; lia|lra])). fold w u in RW.
      assert (Q := bpow_gt_0 radix2 (-201)). destruct (DIV w ltac:(lra) ltac:(nra)) as [-> B]. eexists. split; [reflexivity|]. split; [apply B|].
      assert (WT : w * t <= 1 + u). { apply Rle_trans with (/ t * (1 + u) * t); [apply Rmult_le_compat_r; lra|]. apply Req_le. field. lra. }
      apply Rle_trans with (S * w * (1 + u) * t); [apply Rmult_le_compat_r; lra|]. replace (S * w * (1 + u) * t) with (S * (1 + u) * (w * t)) by ring. apply Rmult_le_compat_l; [nra|exact WT].
    - destruct (DIV (/ t) ltac:(lra) ltac:(nra)) as [E B]. unfold Rdiv. rewrite E. eexists. split; [reflexivity|]. split; [apply B|].
      apply Rle_trans with (S * / t * (1 + u) * t); [apply Rmult_le_compat_r; lra|]. replace (S * / t * (1 + u) * t) with (S * (1 + u)) by (field; lra). assert (0 < S) by lra. nra. }
  destruct LL as [x [-> [X0 XT]]].
  assert (XS : x * x <= S).
  { assert (Y1 : (x * t) * (x * t) <= (S * (1 + u) * (1 + u)) * (S * (1 + u) * (1 + u))) by (apply Rmult_le_compat; nra).
    assert (Y2 : A * ((1 - u) * (1 - u)) <= t * t). { replace (A * ((1 - u) * (1 - u))) with ((r * (1 - u)) * (r * (1 - u))) by (rewrite <- SS; ring). apply Rmult_le_compat; nra. }
    assert (Y3 : (x * x) * (S * ((1 + bpow radix2 (-41)) * ((1 - u) * (1 - u)))) <= S * (S * ((1 + u) * (1 + u) * (1 + u) * (1 + u)))).
    { apply Rle_trans with ((x * x) * (t * t)); [|apply Rle_trans with ((x * t) * (x * t)); [apply Req_le; ring|eapply Rle_trans; [exact Y1|apply Req_le; ring]]].
      apply Rmult_le_compat_l; [nra|]. eapply Rle_trans; [|exact Y2]. replace (S * ((1 + bpow radix2 (-41)) * ((1 - u) * (1 - u)))) with (S * (1 + bpow radix2 (-41)) * ((1 - u) * (1 - u))) by ring. apply Rmult_le_compat_r; [nra|exact HG]. }
    assert (Y4 : (1 + u) * (1 + u) * (1 + u) * (1 + u) <= (1 + bpow radix2 (-41)) * ((1 - u) * (1 - u))).
    { unfold u. change (bpow radix2 (-53)) with (/ 9007199254740992). change (bpow radix2 (-41)) with (/ 2199023255552). lra. }
    set (g := (1 + bpow radix2 (-41)) * ((1 - u) * (1 - u))) in *. assert (Pg : 0 < g) by (unfold g; nra). assert (PS : 0 < S) by lra.
    apply (Rmult_le_reg_r (S * g)); [nra|]. eapply Rle_trans; [exact Y3|]. apply Rmult_le_compat_l; [lra|]. apply Rmult_le_compat_l; lra. }
  assert (D0 : bpow radix2 (-1074) <= A - S). { apply Rle_trans with (S * bpow radix2 (-41)); [|lra]. apply Rle_trans with (bpow radix2 (-400) * bpow radix2 (-41)); [rewrite <- bpow_plus; apply bpow_le; lia|apply Rmult_le_compat_r; lra]. }
  assert (OKd : fltb (Fin 0) (if fused then rnd b64 (A - x * x) else fsub b64 (Fin A) (fmul b64 (Fin x) (Fin x))) = true).
  { destruct fused; [apply fltb_pos; lra|]. cbn [fmul]. destruct (rnd_below (x * x) S ltac:(nra) FS) as [-> B]; [apply Rle_trans with (bpow radix2 400); [lra|apply bpow_le; lia]|].
    unfold fsub. cbn [fneg fadd]. apply fltb_pos. lra. }
  destruct fused; rewrite OKd; eexists; reflexivity.
Qed.
Lemma factor_ok sm inv fused s l n (x y : point) sx : sums b64 sm -> x <> [] -> length x = length y -> bpow radix2 (-200) <= Rabs s <= bpow radix2 200 ->
  bpow radix2 (-537) <= Rabs l <= bpow radix2 511 -> rd b64 n = n -> 0 <= n <= bpow radix2 400 -> 0 <= sx <= bpow radix2 400 -> bpow radix2 (-40) * (s * s) <= n + sx ->
  exists r, gp_factor2_fl b64 sm inv fused s l n x y sx sx = Ok r.
Proof.
  intros Hs Hx HL Hsg Hl Fn Hn Hsx HE. assert (SQ : s * s = Rabs s * Rabs s) by (rewrite <- Rabs_mult, Rabs_right; nra). assert (P200 := bpow_gt_0 radix2 (-200)).
  assert (S2 : bpow radix2 (-400) <= s * s <= bpow radix2 400).
  { rewrite SQ. replace (bpow radix2 (-400)) with (bpow radix2 (-200) * bpow radix2 (-200)) by (rewrite <- bpow_plus; reflexivity). replace (bpow radix2 400) with (bpow radix2 200 * bpow radix2 200) by (rewrite <- bpow_plus; reflexivity). split; apply Rmult_le_compat; lra. }
  set (S := rd b64 (s * s)). assert (FS : rd b64 S = S) by apply b64_rounding.
  assert (BS : bpow radix2 (-400) <= S <= bpow radix2 400). { unfold S. rewrite <- (rd_bpow (-400)), <- (rd_bpow 400) by lia. split; apply rdm; lra. }
  assert (RS := rd_rel (s * s) ltac:(apply Rle_trans with (bpow radix2 (-400)); [apply bpow_le; lia|lra])). fold S in RS.
  assert (Us : Rabs s <= bpow radix2 511) by (apply Rle_trans with (bpow radix2 200); [lra|apply bpow_le; lia]).
  assert (HX : forall z, In z [x; y] -> length z = length x) by (intros z [<-|[<-|[]]]; [reflexivity|now symmetry]).
  assert (Hd : (0 < length x)%nat) by (destruct x; [contradiction|cbn; lia]). assert (B4 : bpow radix2 400 <= bpow radix2 1022) by (apply bpow_le; lia).
  destruct (cov_ok sm s l n [x; y] (length x) Hs Hd HX Us Hl ltac:(lra) Fn ltac:(discriminate)) as [K [E [_ H]]].
  unfold gp_factor2_fl. rewrite E. cbn [bind]. destruct (H 0%nat 0%nat ltac:(cbn; lia) ltac:(cbn; lia)) as [H00 _]. destruct (H 1%nat 0%nat ltac:(cbn; lia) ltac:(cbn; lia)) as [H11 H10].
  destruct (H10 ltac:(discriminate)) as [b [E10 [Eb Bb]]]. fold S in H00, H11, Bb. rewrite H00, H11, E10.
  assert (P401 : bpow radix2 401 = 2 * bpow radix2 400) by (change 401%Z with (400 + 1)%Z; apply bpow_S). assert (P402 : bpow radix2 402 = 2 * bpow radix2 401) by (change 402%Z with (401 + 1)%Z; apply bpow_S).
  assert (PP := bpow_gt_0 radix2 (-400)). destruct (rnd_fin (S + n) 401 ltac:(lra) ltac:(lia)) as [-> T1]. cbn [fadd].
  assert (T2 := rd_rel (S + n) ltac:(apply Rle_trans with (bpow radix2 (-400)); [apply bpow_le; lia|lra])). set (v := rd b64 (S + n)) in *.
  assert (V0 : S <= v) by (unfold v; rewrite <- FS at 1; apply rdm; lra).
  destruct (rnd_fin (v + sx) 402 ltac:(lra) ltac:(lia)) as [-> T3]. assert (T4 := rd_rel (v + sx) ltac:(apply Rle_trans with (bpow radix2 (-400)); [apply bpow_le; lia|lra])). set (A := rd b64 (v + sx)) in *.
  assert (FB : rnd b64 (b + 0) = Fin b). { rewrite Rplus_0_r. destruct (rnd_fin b 400 ltac:(lra) ltac:(lia)) as [-> _]. now rewrite (rbf_fmt _ _ _ _ _ _ Eb). }
  rewrite FB. apply (chol2_ok inv fused S A b FS BS ltac:(lra)); [|exact Bb].
  change (bpow radix2 (-53)) with (/ 9007199254740992) in *. change (bpow radix2 (-41)) with (/ 2199023255552) in *. change (bpow radix2 (-40)) with (/ 1099511627776) in *. nra.
Qed.
