(** Lemmas about the alignment functions. *)
From Coq Require Import Lra.
From Verif Require Import M_RBase P_RBase S_Psd P_Psd M_Fake M_OrdProbit M_Select M_Info P_Info P_Info2 P_Info3 P_User S_User M_Acq S_Acq P_Acq M_Normal M_PrefProbit P_Normal.
From Coq Require Import Reals Lra Lia List.
Import ListNotations.
Local Open Scope R_scope.

(** * rho *)
Lemma expsum_pos r : r <> [] -> 0 < rsum (map exp r).
Proof. intro H. apply rsum_pos; [destruct r; [congruence|discriminate]|]. intros x Hx. apply in_map_iff in Hx. destruct Hx as [y [<- _]]. apply exp_pos. Qed.
Lemma softmax_length r : length (softmax r) = length r.
Proof. unfold softmax. now rewrite map_length. Qed.
Lemma softmax_pos r x : r <> [] -> In x (softmax r) -> 0 < x.
Proof. intros H Hx. apply in_map_iff in Hx. destruct Hx as [y [<- _]]. apply Rdiv_lt_0_compat; [apply exp_pos|now apply expsum_pos]. Qed.
Lemma softmax_sum r : r <> [] -> rsum (softmax r) = 1.
Proof.
  intro H. unfold softmax. rewrite <- (map_map exp (fun e => e / rsum (map exp r))), rsum_div. field. assert (K := expsum_pos r H). lra.
Qed.
Lemma zipw_comm (g : R -> R -> R) : (forall a b, g a b = g b a) -> forall x y, zipw g x y = zipw g y x.
Proof. intro H. induction x as [|a x IH]; intros [|b y]; cbn; try reflexivity. now rewrite H, IH. Qed.
Lemma dist2_sym a b : dist2 a b = dist2 b a.
Proof. unfold dist2. f_equal. f_equal. apply zipw_comm. intros; ring. Qed.
Lemma rho_sym r r' : rho_entry r r' = rho_entry r' r.
Proof. unfold rho_entry. now rewrite dist2_sym. Qed.
Lemma zipw_sq_nonneg : forall a b, 0 <= rsum (zipw (fun x y => (x - y) * (x - y)) a b).
Proof. induction a as [|x a IH]; intros [|y b]; cbn; try lra. specialize (IH b). assert (K := Rle_0_sqr (x - y)). unfold Rsqr in K. lra. Qed.
Lemma dist2_zero : forall a b, length a = length b -> (dist2 a b = 0 <-> a = b).
Proof.
  intros a b HL. unfold dist2. split.
  - intro H. apply sqrt_eq_0 in H; [|apply zipw_sq_nonneg]. revert b HL H. induction a as [|x a IH]; intros [|y b] HL H; try discriminate; auto.
    cbn in H. assert (K := zipw_sq_nonneg a b). assert (K2 := Rle_0_sqr (x - y)). unfold Rsqr in K2.
    assert (E0 : (x - y) * (x - y) = 0) by lra. assert (E : x = y) by (apply Rmult_integral in E0; destruct E0; lra). subst y. f_equal. apply IH; [now injection HL|lra].
  - intros ->. assert (E : rsum (zipw (fun x y => (x - y) * (x - y)) b b) = 0) by (clear HL; induction b as [|x b IH]; cbn; [lra|]; rewrite IH; ring). rewrite E. apply sqrt_0.
Qed.
Lemma rho_le0 r r' : rho_entry r r' <= 0.
Proof. unfold rho_entry, dist2. assert (K := sqrt_pos (rsum (zipw (fun x y => (x - y) * (x - y)) (softmax r') (softmax r)))). lra. Qed.
Lemma rho_self r : rho_entry r r = 0.
Proof. unfold rho_entry. rewrite (proj2 (dist2_zero _ _ eq_refl) eq_refl). ring. Qed.
Lemma sq_dist_le a : forall b, (forall x, In x a -> 0 <= x) -> (forall x, In x b -> 0 <= x) -> rsum a <= 1 -> rsum b <= 1 -> length a = length b ->
  rsum (zipw (fun x y => (x - y) * (x - y)) a b) <= rsum a + rsum b.
Proof.
  induction a as [|x a IH]; intros [|y b] Ha Hb Sa Sb HL; try discriminate; cbn; [lra|]. cbn in Sa, Sb.
  assert (A0 : 0 <= x) by (apply Ha; now left). assert (B0 : 0 <= y) by (apply Hb; now left).
  assert (A1 : 0 <= rsum a) by (apply rsum_nonneg; intros; apply Ha; now right). assert (B1 : 0 <= rsum b) by (apply rsum_nonneg; intros; apply Hb; now right).
  assert (K := IH b (fun z Hz => Ha z (or_intror Hz)) (fun z Hz => Hb z (or_intror Hz)) ltac:(lra) ltac:(lra) ltac:(now injection HL)). nra.
Qed.
Lemma rho_ge r r' : r <> [] -> length r = length r' -> - sqrt 2 <= rho_entry r r'.
Proof.
  intros Hr HL. assert (Hr' : r' <> []) by (destruct r'; [destruct r; [congruence|discriminate]|discriminate]).
  unfold rho_entry, dist2. apply Ropp_le_contravar, sqrt_le_1_alt.
  assert (K := sq_dist_le (softmax r') (softmax r) (fun x Hx => Rlt_le _ _ (softmax_pos r' x Hr' Hx)) (fun x Hx => Rlt_le _ _ (softmax_pos r x Hr Hx))).
  rewrite !softmax_sum, !softmax_length in K by auto. specialize (K ltac:(lra) ltac:(lra) ltac:(auto)). lra.
Qed.
Lemma softmax_shift c r : softmax (map (fun x => x + c) r) = softmax r.
Proof.
  unfold softmax. rewrite !map_map. assert (E : rsum (map (fun x => exp (x + c)) r) = exp c * rsum (map exp r)).
  { rewrite <- rsum_map_scale. apply rsum_ext. intros x _. rewrite exp_plus. ring. }
  rewrite E. apply map_ext_in. intros x Hx. rewrite exp_plus. assert (K := exp_pos c). assert (K2 : 0 < rsum (map exp r)) by (apply expsum_pos; intros ->; contradiction).
  field. lra.
Qed.
Lemma softmax_inj r r' : r <> [] -> softmax r = softmax r' -> exists c, r' = map (fun x => x + c) r.
Proof.
  intros Hr E. assert (HL : length r = length r') by (rewrite <- softmax_length, E; apply softmax_length).
  assert (Hr' : r' <> []) by (destruct r'; [destruct r; [congruence|discriminate]|discriminate]).
  assert (K := expsum_pos r Hr). assert (K' := expsum_pos r' Hr'). exists (ln (rsum (map exp r') / rsum (map exp r))).
  set (u := rsum (map exp r)) in *. set (v := rsum (map exp r')) in *. unfold softmax in E. fold u v in E. clearbody u v. clear Hr Hr'.
  revert r' HL E. induction r as [|x r IH]; intros [|y r'] HL E; try discriminate; auto. cbn in E. injection E as E1 E2. cbn. f_equal.
  - assert (E3 : exp y = exp x * (v / u)). { replace (exp x * (v / u)) with (v * (exp x / u)) by (field; lra). rewrite E1. field. lra. }
    assert (E4 : exp y = exp (x + ln (v / u))). { rewrite exp_plus, exp_ln; auto. now apply Rdiv_lt_0_compat. }
    now apply exp_inv.
  - apply IH; auto.
Qed.
Lemma rho_zero r r' : r <> [] -> length r = length r' -> (rho_entry r r' = 0 <-> exists c, r' = map (fun x => x + c) r).
Proof.
  intros Hr HL. unfold rho_entry. assert (L2 : length (softmax r') = length (softmax r)) by now rewrite !softmax_length. split.
  - intro H. assert (D : dist2 (softmax r') (softmax r) = 0) by lra. apply dist2_zero in D; auto. apply softmax_inj; auto.
  - intros [c ->]. rewrite softmax_shift, (proj2 (dist2_zero _ _ eq_refl) eq_refl). ring.
Qed.

(** * correlation *)
Definition dot (n : nat) (u v : nat -> R) : R := sumn n (fun i => u i * v i).
Definition cen (x : list R) (i : nat) : R := nth i x 0 - rmean x.
Lemma cov_dot x y : length x = length y -> cov_of x y = dot (length x) (cen x) (cen y) / (INR (length x) - 1).
Proof.
  intro H. unfold cov_of, dot. f_equal. rewrite (rsum_zipw_nth _ x y H). rewrite <- sum_to_sumn. reflexivity.
Qed.
Lemma dot_nonneg n u : 0 <= dot n u u.
Proof. apply sumn_nonneg. intros. apply Rle_0_sqr. Qed.
Lemma dot_sym n u v : dot n u v = dot n v u.
Proof. apply sumn_ext. intros. ring. Qed.
Lemma cauchy_schwarz n u v : dot n u v * dot n u v <= dot n u u * dot n v v.
Proof.
  set (A := dot n u u). set (B := dot n v v). set (C := dot n u v).
  assert (K : 0 <= B * (A * B - C * C)).
  { assert (E : B * (A * B - C * C) = sumn n (fun i => (B * u i - C * v i) * (B * u i - C * v i))).
    { rewrite (sumn_ext n _ (fun i => B * B * (u i * u i) + C * C * (v i * v i) - 2 * B * C * (u i * v i))) by (intros; ring).
      rewrite sumn_minus, sumn_plus, !sumn_scale. fold (dot n u u) (dot n v v) (dot n u v). fold A B C. ring. }
    rewrite E. apply sumn_nonneg. intros. apply Rle_0_sqr. }
  assert (HB : 0 <= B) by apply dot_nonneg. destruct HB as [HB | HB].
  - assert (0 <= A * B - C * C); [|lra]. apply (Rmult_le_reg_l B); auto. lra.
  - assert (Z : forall i, (i < n)%nat -> v i = 0).
    { intros i Hi. assert (Hs : v i * v i <= 0); [|nra]. fold B in HB. rewrite HB. unfold B, dot.
      clear - Hi. induction n as [|n IH]; [lia|]. cbn [sumn]. destruct (Nat.eq_dec i n) as [-> | Hn].
      - assert (0 <= sumn n (fun i => v i * v i)) by (apply sumn_nonneg; intros; apply Rle_0_sqr). lra.
      - assert (K := IH ltac:(lia)). nra. }
    assert (EC : C = 0). { unfold C, dot. apply sumn_zero. intros i Hi. rewrite Z by auto. ring. }
    rewrite EC, <- HB. lra.
Qed.
Lemma not_constant_length x : not_constant x -> (2 <= length x)%nat.
Proof.
  intros (a & b & Ha & Hb & N). destruct x as [|p [|q x]]; cbn; try lia; [contradiction|].
  destruct Ha as [<- | []]. destruct Hb as [<- | []]. congruence.
Qed.
Lemma dot_pos x : not_constant x -> 0 < dot (length x) (cen x) (cen x).
Proof.
  intros (a & b & Ha & Hb & N). destruct (dot_nonneg (length x) (cen x)) as [H | H]; auto. exfalso.
  assert (Z : forall i, (i < length x)%nat -> cen x i = 0).
  { intros i Hi. assert (K : cen x i * cen x i <= 0); [|nra]. rewrite H. unfold dot. clear - Hi. set (n := length x) in *. clearbody n.
    induction n as [|n IH]; [lia|]. cbn [sumn]. destruct (Nat.eq_dec i n) as [-> | Hn].
    - assert (0 <= sumn n (fun i => cen x i * cen x i)) by (apply sumn_nonneg; intros; apply Rle_0_sqr). lra.
    - assert (K := IH ltac:(lia)). nra. }
  apply (In_nth _ _ 0) in Ha. destruct Ha as [i [Hi <-]]. apply (In_nth _ _ 0) in Hb. destruct Hb as [j [Hj <-]].
  apply N. assert (A := Z i Hi). assert (B := Z j Hj). unfold cen in A, B. lra.
Qed.
Lemma len_pos x : not_constant x -> 0 < INR (length x) - 1.
Proof. intro H. apply not_constant_length in H. apply le_INR in H. cbn in H. lra. Qed.
Lemma corr_dot x y : length x = length y -> not_constant x -> not_constant y ->
  corr x y = dot (length x) (cen x) (cen y) / (sqrt (dot (length x) (cen x) (cen x)) * sqrt (dot (length x) (cen y) (cen y))) /\
  -1 <= dot (length x) (cen x) (cen y) / (sqrt (dot (length x) (cen x) (cen x)) * sqrt (dot (length x) (cen y) (cen y))) <= 1.
Proof.
  intros HL Hx Hy. assert (Px := dot_pos x Hx). assert (Py := dot_pos y Hy). assert (N := len_pos x Hx). rewrite <- HL in Py.
  assert (CS := cauchy_schwarz (length x) (cen x) (cen y)).
  unfold corr. rewrite !cov_dot by auto. rewrite <- HL.
  set (A := dot _ (cen x) (cen x)) in *. set (B := dot _ (cen y) (cen y)) in *. set (C := dot _ (cen x) (cen y)) in *. set (m := INR (length x) - 1) in *.
  assert (SA := sqrt_lt_R0 A Px). assert (SB := sqrt_lt_R0 B Py). assert (Sm := sqrt_lt_R0 m N).
  assert (EA := sqrt_sqrt A (Rlt_le _ _ Px)). assert (EB := sqrt_sqrt B (Rlt_le _ _ Py)). assert (Em := sqrt_sqrt m (Rlt_le _ _ N)).
  assert (E : C / m / sqrt (A / m) / sqrt (B / m) = C / (sqrt A * sqrt B)).
  { rewrite !sqrt_div_alt by auto. rewrite <- Em at 1. field. repeat split; lra. }
  rewrite E.
  assert (D : 0 < sqrt A * sqrt B) by now apply Rmult_lt_0_compat.
  assert (Q : (C / (sqrt A * sqrt B)) * (C / (sqrt A * sqrt B)) <= 1).
  { apply (Rmult_le_reg_r ((sqrt A * sqrt B) * (sqrt A * sqrt B))); [now apply Rmult_lt_0_compat|].
    replace (C / (sqrt A * sqrt B) * (C / (sqrt A * sqrt B)) * (sqrt A * sqrt B * (sqrt A * sqrt B))) with (C * C) by (field; lra).
    replace (1 * (sqrt A * sqrt B * (sqrt A * sqrt B))) with ((sqrt A * sqrt A) * (sqrt B * sqrt B)) by ring. rewrite EA, EB. exact CS. }
  set (t := C / (sqrt A * sqrt B)) in *. assert (T : -1 <= t <= 1) by nra. split; [|exact T].
  rewrite Rmax_right by lra. apply Rmin_right. lra.
Qed.
Lemma comoment_zip ma mb : forall x y, comoment ma mb x y = rsum (zipw (fun a b => (a - ma) * (b - mb)) x y).
Proof. induction x as [|a x IH]; intros [|b y]; cbn; auto. now rewrite IH. Qed.
Lemma comoment_dot x y : length x = length y -> comoment (average x) (average y) x y = dot (length x) (cen x) (cen y).
Proof. intro H. rewrite comoment_zip. rewrite (rsum_zipw_nth _ x y H). unfold dot. rewrite <- sum_to_sumn. reflexivity. Qed.
Lemma corr_pearson x y : length x = length y -> not_constant x -> not_constant y -> corr x y = pearson x y.
Proof.
  intros HL Hx Hy. destruct (corr_dot x y HL Hx Hy) as [E _]. rewrite E. unfold pearson. rewrite !comoment_dot by auto.
  rewrite <- HL. rewrite sqrt_mult_alt; [reflexivity|]. apply dot_nonneg.
Qed.
Lemma corr_range x y : -1 <= corr x y <= 1.
Proof. unfold corr. split; [|apply Rmin_l]. apply Rmin_glb; [lra|apply Rmax_l]. Qed.
Lemma corr_sym x y : length x = length y -> corr x y = corr y x.
Proof.
  intro H. unfold corr. f_equal. f_equal. rewrite !cov_dot by auto. rewrite <- H, (dot_sym _ (cen x) (cen y)). unfold Rdiv. ring.
Qed.
Lemma corr_self x : not_constant x -> corr x x = 1.
Proof.
  intro H. destruct (corr_dot x x eq_refl H H) as [E _]. rewrite E. assert (P := dot_pos x H).
  rewrite sqrt_sqrt by lra. field. lra.
Qed.
(** affine maps *)
Lemma sq_abs a : sqrt (a * a) = Rabs a.
Proof. exact (sqrt_Rsqr_abs a). Qed.
Definition affine (a b : R) (x : list R) : list R := map (fun t => a * t + b) x.
Lemma affine_mean a b x : x <> [] -> rmean (affine a b x) = a * rmean x + b.
Proof.
  intro H. unfold rmean, affine. rewrite map_length.
  assert (E : rsum (map (fun t => a * t + b) x) = a * rsum x + INR (length x) * b).
  { rewrite rsum_plus, rsum_map_scale, map_id, rsum_const. ring. }
  rewrite E. field. apply not_0_INR. destruct x; [congruence|discriminate].
Qed.
Lemma affine_cen a b x i : (i < length x)%nat -> cen (affine a b x) i = a * cen x i.
Proof.
  intro H. unfold cen. rewrite affine_mean by (intros ->; cbn in H; lia). unfold affine.
  rewrite (nth_indep _ 0 (a * 0 + b)) by now rewrite map_length. rewrite (map_nth (fun t => a * t + b)). ring.
Qed.
Lemma affine_not_constant a b x : a <> 0 -> not_constant x -> not_constant (affine a b x).
Proof.
  intros Ha (u & v & Hu & Hv & N). exists (a * u + b), (a * v + b). split; [|split]; [now apply (in_map (fun t => a * t + b))|now apply (in_map (fun t => a * t + b))|].
  intro E. apply N. apply (Rmult_eq_reg_l a); lra.
Qed.
Lemma corr_affine_self a b x : a <> 0 -> not_constant x -> corr x (affine a b x) = a / Rabs a.
Proof.
  intros Ha Hx. assert (HL : length x = length (affine a b x)) by (unfold affine; now rewrite map_length).
  destruct (corr_dot x (affine a b x) HL Hx (affine_not_constant a b x Ha Hx)) as [E _]. rewrite E.
  assert (E1 : dot (length x) (cen x) (cen (affine a b x)) = a * dot (length x) (cen x) (cen x)).
  { unfold dot. rewrite <- sumn_scale. apply sumn_ext. intros i Hi. rewrite affine_cen by auto. ring. }
  assert (E2 : dot (length x) (cen (affine a b x)) (cen (affine a b x)) = a * a * dot (length x) (cen x) (cen x)).
  { unfold dot. rewrite <- sumn_scale. apply sumn_ext. intros i Hi. rewrite affine_cen by auto. ring. }
  rewrite E1, E2. assert (P := dot_pos x Hx). rewrite sqrt_mult by (try apply Rle_0_sqr; lra). rewrite sq_abs.
  set (D := dot (length x) (cen x) (cen x)) in *. assert (S := sqrt_lt_R0 D P). assert (SS := sqrt_sqrt D (Rlt_le _ _ P)).
  replace (sqrt D * (Rabs a * sqrt D)) with (Rabs a * (sqrt D * sqrt D)) by ring. rewrite SS. field. split; try lra; now apply Rabs_no_R0.
Qed.
Lemma corr_affine a b x y : 0 < a -> length x = length y -> not_constant x -> not_constant y -> corr (affine a b x) y = corr x y.
Proof.
  intros Ha HL Hx Hy. assert (HL' : length (affine a b x) = length y) by (unfold affine; now rewrite map_length).
  destruct (corr_dot x y HL Hx Hy) as [E _]. destruct (corr_dot (affine a b x) y HL' (affine_not_constant a b x ltac:(lra) Hx) Hy) as [E' _].
  rewrite E, E'. assert (EL : length (affine a b x) = length x) by (unfold affine; now rewrite map_length). rewrite EL.
  assert (E1 : dot (length x) (cen (affine a b x)) (cen y) = a * dot (length x) (cen x) (cen y)).
  { unfold dot. rewrite <- sumn_scale. apply sumn_ext. intros i Hi. rewrite affine_cen by auto. ring. }
  assert (E2 : dot (length x) (cen (affine a b x)) (cen (affine a b x)) = a * a * dot (length x) (cen x) (cen x)).
  { unfold dot. rewrite <- sumn_scale. apply sumn_ext. intros i Hi. rewrite affine_cen by auto. ring. }
  rewrite E1, E2. assert (P := dot_pos x Hx). assert (P' := dot_pos y Hy). rewrite <- HL in P'. rewrite sqrt_mult by (try apply Rle_0_sqr; lra). rewrite sq_abs.
  rewrite (Rabs_right a) by lra. field. assert (S := sqrt_lt_R0 _ P). assert (S' := sqrt_lt_R0 _ P'). repeat split; lra.
Qed.

(** * epic *)
Lemma epic_arg x y : 0 <= 1 - corr x y <= 2.
Proof. assert (K := corr_range x y). lra. Qed.
Lemma sqrt2_pos : 0 < sqrt 2.
Proof. apply sqrt_lt_R0. lra. Qed.
Lemma epic_range x y : -1 <= epic_entry x y <= 0.
Proof.
  unfold epic_entry. assert (K := epic_arg x y). assert (S := sqrt2_pos). assert (L : sqrt (1 - corr x y) <= sqrt 2) by (apply sqrt_le_1_alt; lra).
  assert (P := sqrt_pos (1 - corr x y)). assert (Q : 0 <= sqrt (1 - corr x y) / sqrt 2 <= 1).
  { split; [apply Rmult_le_pos; auto; apply Rlt_le, Rinv_0_lt_compat; auto|]. apply (Rmult_le_reg_r (sqrt 2)); auto. unfold Rdiv. rewrite Rmult_assoc, Rinv_l by lra. lra. }
  lra.
Qed.
Lemma epic_sym x y : length x = length y -> epic_entry x y = epic_entry y x.
Proof. intro H. unfold epic_entry. now rewrite corr_sym. Qed.
Lemma epic_self x : not_constant x -> epic_entry x x = 0.
Proof. intro H. unfold epic_entry. rewrite corr_self by auto. rewrite Rminus_diag_eq by auto. rewrite sqrt_0. unfold Rdiv. ring. Qed.
Lemma epic_affine a b x y : 0 < a -> length x = length y -> not_constant x -> not_constant y -> epic_entry (affine a b x) y = epic_entry x y.
Proof. intros. unfold epic_entry. now rewrite corr_affine. Qed.
Lemma epic_affine_self a b x : 0 < a -> not_constant x -> epic_entry x (affine a b x) = 0.
Proof.
  intros Ha H. unfold epic_entry. rewrite corr_affine_self by (auto; lra). rewrite Rabs_right by lra. replace (1 - a / a) with 0 by (field; lra).
  rewrite sqrt_0. unfold Rdiv. ring.
Qed.
Lemma epic_opposite a b x : a < 0 -> not_constant x -> epic_entry x (affine a b x) = -1.
Proof.
  intros Ha H. unfold epic_entry. rewrite corr_affine_self by (auto; lra). rewrite Rabs_left by lra. replace (1 - a / - a) with 2 by (field; lra).
  assert (S := sqrt2_pos). field. lra.
Qed.
(** correlation one means an increasing affine relation *)
Lemma sumn_sq_zero n u : sumn n (fun i => u i * u i) = 0 -> forall i, (i < n)%nat -> u i = 0.
Proof.
  intros H i Hi. assert (K : u i * u i <= 0); [|nra]. rewrite <- H. clear H. induction n as [|n IH]; [lia|]. cbn [sumn].
  destruct (Nat.eq_dec i n) as [-> | Hn].
  - assert (0 <= sumn n (fun i => u i * u i)) by (apply sumn_nonneg; intros; apply Rle_0_sqr). lra.
  - assert (K := IH ltac:(lia)). assert (P := Rle_0_sqr (u n)). unfold Rsqr in P. lra.
Qed.
Lemma corr_one x y : length x = length y -> not_constant x -> not_constant y -> corr x y = 1 -> exists a b, 0 < a /\ y = affine a b x.
Proof.
  intros HL Hx Hy E1. destruct (corr_dot x y HL Hx Hy) as [E _]. rewrite E1 in E. assert (Px := dot_pos x Hx). assert (Py := dot_pos y Hy). rewrite <- HL in Py.
  set (A := dot _ (cen x) (cen x)) in *. set (B := dot (length x) (cen y) (cen y)) in *. set (C := dot _ (cen x) (cen y)) in *.
  assert (SA := sqrt_lt_R0 A Px). assert (SB := sqrt_lt_R0 B Py).
  assert (EA := sqrt_sqrt A (Rlt_le _ _ Px)). assert (EB := sqrt_sqrt B (Rlt_le _ _ Py)).
  assert (EC : C = sqrt A * sqrt B). { assert (D : 0 < sqrt A * sqrt B) by now apply Rmult_lt_0_compat. replace C with (C / (sqrt A * sqrt B) * (sqrt A * sqrt B)) by (field; lra). rewrite <- E. ring. }
  set (a := sqrt B / sqrt A). assert (Ha : 0 < a) by now apply Rdiv_lt_0_compat.
  assert (Z : sumn (length x) (fun i => (cen y i - a * cen x i) * (cen y i - a * cen x i)) = 0).
  { rewrite (sumn_ext _ _ (fun i => cen y i * cen y i + a * a * (cen x i * cen x i) - 2 * a * (cen x i * cen y i))) by (intros; ring).
    rewrite sumn_minus, sumn_plus, !sumn_scale. fold (dot (length x) (cen x) (cen x)) (dot (length x) (cen y) (cen y)) (dot (length x) (cen x) (cen y)).
    fold A B C. rewrite EC. unfold a. rewrite <- EB at 1. rewrite <- EA at 3. field. lra. }
  assert (Zi := sumn_sq_zero (length x) (fun i => cen y i - a * cen x i) Z). cbn beta in Zi.
  exists a, (rmean y - a * rmean x). split; auto. apply (nth_ext _ _ 0 0); [unfold affine; now rewrite map_length|]. intros i Hi.
  rewrite <- HL in Hi. specialize (Zi i Hi). unfold cen in Zi. unfold affine.
  rewrite (nth_indep (map _ x) 0 (a * 0 + (rmean y - a * rmean x))) by now rewrite map_length. rewrite (map_nth (fun t => a * t + (rmean y - a * rmean x))). lra.
Qed.
Lemma epic_zero x y : length x = length y -> not_constant x -> not_constant y -> (epic_entry x y = 0 <-> exists a b, 0 < a /\ y = affine a b x).
Proof.
  intros HL Hx Hy. split.
  - intro H. apply corr_one; auto. unfold epic_entry in H. assert (K := epic_arg x y). assert (S := sqrt2_pos).
    assert (Z : sqrt (1 - corr x y) = 0). { replace (sqrt (1 - corr x y)) with (- (- (sqrt (1 - corr x y) / sqrt 2)) * sqrt 2) by (field; lra). rewrite H. ring. }
    apply sqrt_eq_0 in Z; lra.
  - intros (a & b & Ha & ->). now apply epic_affine_self.
Qed.

(** * spearman *)
Lemma filter_map_len {A B} (g : A -> B) P l : length (filter P (map g l)) = length (filter (fun x => P (g x)) l).
Proof. induction l as [|x l IH]; [reflexivity|]. cbn. destruct (P (g x)); cbn; now rewrite IH. Qed.
Lemma filter_ext_in_len {A} (P P' : A -> bool) l : (forall x, In x l -> P x = P' x) -> length (filter P l) = length (filter P' l).
Proof. intro H. now rewrite (filter_ext_in P P' l H). Qed.
Lemma Rltb_increasing r g x y : increasing_on r g -> In x r -> In y r -> Rltb (g x) (g y) = Rltb x y.
Proof.
  intros H Hx Hy. destruct (Rltb x y) eqn:E.
  - apply Rltb_true in E. apply Rltb_true. now apply H.
  - apply Rltb_false in E. apply Rltb_false. destruct E as [E | ->]; [apply Rlt_le, H; auto|lra].
Qed.
Lemma rankdata_increasing g r : increasing_on r g -> rankdata (map g r) = rankdata r.
Proof.
  intro H. unfold rankdata. rewrite map_map. apply map_ext_in. intros x Hx. unfold rank_of. rewrite !filter_map_len.
  rewrite (filter_ext_in_len (fun y => Rltb (g y) (g x)) (fun y => Rltb y x)) by (intros; now apply Rltb_increasing with r).
  rewrite (filter_ext_in_len (fun y => negb (Rltb (g y) (g x)) && negb (Rltb (g x) (g y))) (fun y => negb (Rltb y x) && negb (Rltb x y))); [reflexivity|].
  intros y Hy. rewrite !(Rltb_increasing r g) by auto. reflexivity.
Qed.
Lemma rankdata_length r : length (rankdata r) = length r.
Proof. unfold rankdata. now rewrite map_length. Qed.
(** ranks order the entries *)
Lemma filter_len_le {A} (P P' : A -> bool) l : (forall x, In x l -> P x = true -> P' x = true) -> (length (filter P l) <= length (filter P' l))%nat.
Proof.
  induction l as [|x l IH]; intro H; [cbn; lia|]. cbn. assert (K := IH (fun y Hy => H y (or_intror Hy))).
  destruct (P x) eqn:E; [rewrite (H x (or_introl eq_refl) E); cbn; lia|]. destruct (P' x); cbn; lia.
Qed.
Lemma filter_split_len {A} (P P' : A -> bool) l : (forall x, In x l -> P x = true -> P' x = false) ->
  (length (filter P l) + length (filter P' l) = length (filter (fun x => P x || P' x) l))%nat.
Proof.
  induction l as [|x l IH]; intro H; [reflexivity|]. cbn. assert (K := IH (fun y Hy => H y (or_intror Hy))).
  destruct (P x) eqn:E; [rewrite (H x (or_introl eq_refl) E); cbn; lia|]. destruct (P' x); cbn; lia.
Qed.
Lemma rank_lt r x y : In x r -> In y r -> x < y -> rank_of r x < rank_of r y.
Proof.
  intros Hx Hy H. unfold rank_of.
  set (lx := length (filter (fun z => Rltb z x) r)). set (ex := length (filter (fun z => negb (Rltb z x) && negb (Rltb x z)) r)).
  set (ly := length (filter (fun z => Rltb z y) r)). set (ey := length (filter (fun z => negb (Rltb z y) && negb (Rltb y z)) r)).
  assert (K : (lx + ex <= ly)%nat).
  { unfold lx, ex, ly. rewrite filter_split_len.
    - apply filter_len_le. intros z _ Hz. apply Rltb_true. apply Bool.orb_true_iff in Hz. destruct Hz as [Hz | Hz].
      + apply Rltb_true in Hz. lra.
      + apply Bool.andb_true_iff in Hz. destruct Hz as [_ Hz]. apply Bool.negb_true_iff, Rltb_false in Hz. lra.
    - intros z _ Hz. now rewrite Hz. }
  assert (Ex : (0 < ex)%nat).
  { unfold ex. assert (In x (filter (fun z => negb (Rltb z x) && negb (Rltb x z)) r)).
    { apply filter_In. split; auto. assert (E : Rltb x x = false) by (apply Rltb_false; lra). now rewrite E. }
    destruct (filter (fun z => negb (Rltb z x) && negb (Rltb x z)) r); [contradiction|cbn; lia]. }
  assert (0 <= INR ey) by apply pos_INR. apply le_INR in K. rewrite plus_INR in K. apply (lt_INR 0) in Ex. cbn in Ex. lra.
Qed.
Lemma rank_not_constant r : not_constant r -> not_constant (rankdata r).
Proof.
  intros (x & y & Hx & Hy & N). exists (rank_of r x), (rank_of r y). split; [now apply in_map|split; [now apply in_map|]].
  destruct (Rtotal_order x y) as [H | [H | H]]; [|congruence|]; [apply (rank_lt r) in H|apply (rank_lt r) in H]; auto; lra.
Qed.
Lemma spearman_range x y : -1 <= spearman_entry x y <= 1.
Proof. apply corr_range. Qed.
Lemma spearman_sym x y : length x = length y -> spearman_entry x y = spearman_entry y x.
Proof. intro H. apply corr_sym. now rewrite !rankdata_length. Qed.
Lemma spearman_increasing g x y : increasing_on x g -> spearman_entry (map g x) y = spearman_entry x y.
Proof. intro H. unfold spearman_entry. now rewrite rankdata_increasing. Qed.
Lemma spearman_self g x : not_constant x -> increasing_on x g -> spearman_entry x (map g x) = 1.
Proof. intros N H. unfold spearman_entry. rewrite rankdata_increasing by auto. apply corr_self. now apply rank_not_constant. Qed.
Lemma spearman_pearson x y : length x = length y -> not_constant x -> not_constant y -> spearman_entry x y = pearson (rankdata x) (rankdata y).
Proof. intros. apply corr_pearson; [now rewrite !rankdata_length| |]; now apply rank_not_constant. Qed.

(** * loglikelihood *)
Lemma loglik_sym L Qs r r' : loglik_entry L Qs r r' = loglik_entry L Qs r' r.
Proof. unfold loglik_entry. ring. Qed.
Lemma query_p_length L Q : length (query_p L Q) = length Q.
Proof. unfold query_p. now rewrite !map_length, seq_length. Qed.
Lemma query_p_pos L Q : Q <> [] -> (forall a b, 0 < L a b) -> (forall x, In x (query_p L Q) -> 0 < x) /\ rsum (query_p L Q) = 1.
Proof.
  intros HQ HL. unfold query_p. set (p0 := map _ (seq 0 (length Q))).
  assert (Hp : forall x, In x p0 -> 0 < x).
  { intros x Hx. apply in_map_iff in Hx. destruct Hx as [i [<- _]]. apply rprod_pos. intros y Hy. apply in_map_iff in Hy. destruct Hy as [j [<- _]].
    destruct (Nat.eqb i j); [lra|auto]. }
  assert (S : 0 < rsum p0). { apply rsum_pos; auto. unfold p0. destruct Q; [congruence|discriminate]. }
  split; [|rewrite rsum_div; field; lra]. intros x Hx. apply in_map_iff in Hx. destruct Hx as [y [<- Hy]]. apply Rdiv_lt_0_compat; auto.
Qed.
Lemma best_alt_spec r Q : Q <> [] -> first_max (map (fun i => nth i r 0) Q) (best_alt r Q).
Proof.
  intro H. destruct (argmax_first (map (fun i => nth i r 0) Q)) as [i [E F]]; [destruct Q; [congruence|discriminate]|]. unfold best_alt. now rewrite E.
Qed.
Lemma best_alt_lt r Q : Q <> [] -> (best_alt r Q < length Q)%nat.
Proof.
  intro H. destruct (best_alt_spec r Q H) as [m [E _]]. rewrite <- (map_length (fun i => nth i r 0) Q). apply nth_error_Some. congruence.
Qed.
Lemma in_sum_le1 l x : (forall y, In y l -> 0 < y) -> rsum l = 1 -> In x l -> x <= 1.
Proof.
  intros H S Hx. rewrite <- S. clear S. induction l as [|y l IH]; [contradiction|]. cbn.
  assert (0 < y) by (apply H; now left). assert (0 <= rsum l) by (apply rsum_nonneg; intros; apply Rlt_le, H; now right).
  destruct Hx as [<- | Hx]; [lra|]. assert (K := IH (fun z Hz => H z (or_intror Hz)) Hx). lra.
Qed.
Lemma loglik_g_le0 L Qs r r' : (forall a b, 0 < L r a b) -> Forall (fun Q => Q <> []) Qs -> loglik_g L Qs r r' <= 0.
Proof.
  intros HL HQ. unfold loglik_g. apply Rle_trans with (rsum (map (fun _ : list nat => 0) Qs)); [|rewrite rsum_const; lra]. apply rsum_le.
  intros Q Hin. assert (Hn := proj1 (Forall_forall _ _) HQ Q Hin). destruct (query_p_pos (L r) Q Hn HL) as [P S].
  assert (Hi : In (nth (best_alt r' Q) (query_p (L r) Q) 0) (query_p (L r) Q)) by (apply nth_In; rewrite query_p_length; now apply best_alt_lt).
  assert (P1 := P _ Hi). assert (P2 := in_sum_le1 _ _ P S Hi). apply Rle_trans with (ln 1); [|rewrite ln_1; lra]. destruct P2 as [P2 | P2]; [apply Rlt_le, ln_increasing; auto|rewrite P2; lra].
Qed.
Lemma probit_pos s r a b : 0 < probit_of s r a b.
Proof. unfold probit_of, likelihood_all_pairs. apply std_norm_cdf_range. Qed.
Lemma loglik_le0 s Qs r r' : Forall (fun Q => Q <> []) Qs -> loglik_entry (probit_of s) Qs r r' <= 0.
Proof.
  intro HQ. unfold loglik_entry. assert (A := loglik_g_le0 (probit_of s) Qs r r' (probit_pos s r) HQ).
  assert (B := loglik_g_le0 (probit_of s) Qs r' r (probit_pos s r') HQ). lra.
Qed.
(** a more confident sample with the same opinion is aligned better than the sample itself *)
Lemma query_p_two L a b : 0 < L a b -> 0 < L b a -> query_p L [a; b] = [L a b / (L a b + L b a); L b a / (L a b + L b a)].
Proof. intros. unfold query_p. cbn. replace (1 * (L a b * 1)) with (L a b) by ring. replace (L b a * (1 * 1)) with (L b a) by ring. now rewrite Rplus_0_r. Qed.
Lemma loglik_self_not_best : 
  loglik_entry (probit_of 1) [[0; 1]%nat] [1; 0] [1; 0] < loglik_entry (probit_of 1) [[0; 1]%nat] [1; 0] [2; 0].
Proof.
  unfold loglik_entry, loglik_g. cbn [map rsum].
  assert (B1 : best_alt [1; 0] [0; 1]%nat = 0%nat).
  { unfold best_alt, argmax. cbn. replace (Rltb 1 0) with false by (symmetry; apply Rltb_false; lra). reflexivity. }
  assert (B2 : best_alt [2; 0] [0; 1]%nat = 0%nat).
  { unfold best_alt, argmax. cbn. replace (Rltb 2 0) with false by (symmetry; apply Rltb_false; lra). reflexivity. }
  rewrite B1, B2, !query_p_two by apply probit_pos. cbn [nth].
  set (u := probit_of 1 [1; 0] 0%nat 1%nat). set (v := probit_of 1 [1; 0] 1%nat 0%nat).
  set (u' := probit_of 1 [2; 0] 0%nat 1%nat). set (v' := probit_of 1 [2; 0] 1%nat 0%nat).
  assert (Pu : 0 < u) by apply probit_pos. assert (Pv : 0 < v) by apply probit_pos. assert (Pu' : 0 < u') by apply probit_pos. assert (Pv' : 0 < v') by apply probit_pos.
  assert (S2 : 1 < sqrt 2) by (rewrite <- sqrt_1; apply sqrt_lt_1; lra).
  assert (I : 0 < isqrt2sig 1 < 1).
  { unfold isqrt2sig. rewrite Rmult_1_l. split; [apply Rdiv_lt_0_compat; lra|]. apply (Rmult_lt_reg_r (sqrt 2)); [lra|]. unfold Rdiv. rewrite Rmult_assoc, Rinv_l by lra. lra. }
  assert (K1 : u < u').
  { unfold u, u', probit_of, likelihood_all_pairs. cbn [nth]. rewrite !std_norm_cdf_id by lra. apply ndtr_increasing. lra. }
  assert (K2 : v' < v).
  { unfold v, v', probit_of, likelihood_all_pairs. cbn [nth]. rewrite !std_norm_cdf_id by lra. apply ndtr_increasing. lra. }
  assert (L : ln (u / (u + v)) < ln (u' / (u' + v'))).
  { apply ln_increasing; [apply Rdiv_lt_0_compat; lra|]. apply (Rmult_lt_reg_r ((u + v) * (u' + v'))); [apply Rmult_lt_0_compat; lra|].
    replace (u / (u + v) * ((u + v) * (u' + v'))) with (u * (u' + v')) by (field; lra).
    replace (u' / (u' + v') * ((u + v) * (u' + v'))) with (u' * (u + v)) by (field; lra). nra. }
  lra.
Qed.
(** probits give answer probabilities *)
Lemma probit_answers s M rows a b : s <> 0 -> (forall k, (k < M)%nat -> Rabs ((nth a (nth k rows []) 0 - nth b (nth k rows []) 0) * isqrt2sig s) <= 30) ->
  answer_probabilities M (fun k => probit_of s (nth k rows [])) a b.
Proof.
  intros Hs H k Hk. split; [apply probit_pos|split; [apply probit_pos|]]. specialize (H k Hk). unfold probit_of, likelihood_all_pairs.
  set (x := nth a (nth k rows []) 0) in *. set (y := nth b (nth k rows []) 0) in *.
  replace ((y - x) * isqrt2sig s) with (- ((x - y) * isqrt2sig s)) by ring. set (z := (x - y) * isqrt2sig s) in *.
  assert (Z : -30 <= z <= 30) by (revert H; unfold Rabs; destruct (Rcase_abs z); lra).
  rewrite !std_norm_cdf_id by lra. rewrite ndtr_sym. ring.
Qed.
