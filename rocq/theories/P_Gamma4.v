(** Lemmas for the gamma distribution: its total over the positive numbers. *)
From Coquelicot Require Import Coquelicot.
From Coq Require Import Reals Lra Lia.
From Verif Require Import M_RBase M_AbsProbit M_Util S_AbsProbit S_Gamma P_Gamma P_Gamma2.
Local Open Scope R_scope.

Definition gk (h k x : R) : R := exp ((k - 1) * ln x - x / h).
Definition gedge (h k x : R) : R := exp (k * ln x - x / h).
Definition GT (h k : R) : R := exp (k * ln h + lgam true_special k).
Definition J (h k u v : R) : R := RInt (gk h k) u v.
Lemma pos_int (f : R -> R) u v : (forall x, 0 < x -> continuous f x) -> 0 < u -> 0 < v -> ex_RInt f u v.
Proof. intros C Hu Hv. apply (ex_RInt_continuous f). intros z Hz. apply C. unfold Rmin, Rmax in Hz. destruct (Rle_dec u v); lra. Qed.
Lemma gk_cont h k x : 0 < h -> 0 < x -> continuous (gk h k) x.
Proof. intros Hh H. apply (ex_derive_continuous (gk h k) x). unfold gk. auto_derive. lra. Qed.
Lemma gk_int h k u v : 0 < h -> 0 < u -> 0 < v -> ex_RInt (gk h k) u v.
Proof. intros. apply pos_int; auto. intros. now apply gk_cont. Qed.
Lemma gk_next h k x : 0 < x -> gk h (k + 1) x = x * gk h k x.
Proof. intro H. unfold gk. replace ((k + 1 - 1) * ln x - x / h) with (ln x + ((k - 1) * ln x - x / h)) by ring. rewrite exp_plus, exp_ln by lra. reflexivity. Qed.
Lemma gedge_derive h k x : 0 < h -> 0 < x -> is_derive (gedge h k) x (k * gk h k x - / h * gk h (k + 1) x).
Proof.
  intros Hh H. rewrite gk_next by exact H. assert (E : gedge h k x = x * gk h k x).
  { unfold gedge, gk. replace (k * ln x - x / h) with (ln x + ((k - 1) * ln x - x / h)) by ring. now rewrite exp_plus, exp_ln by lra. }
  replace (k * gk h k x - / h * (x * gk h k x)) with ((k / x - / h) * gedge h k x) by (rewrite E; field; lra). unfold gedge. auto_derive; [lra|]. unfold Rminus, Rdiv. field. lra.
Qed.
Lemma J_next h k u v : 0 < h -> 0 < u -> 0 < v -> J h (k + 1) u v = k * h * J h k u v - h * (gedge h k v - gedge h k u).
Proof.
  intros Hh Hu Hv. assert (L := int_lin (gk h k) (gk h (k + 1)) k (- / h) u v (gk_int h k u v Hh Hu Hv) (gk_int h (k + 1) u v Hh Hu Hv)). apply (is_RInt_unique (V := R_CompleteNormedModule)) in L.
  assert (E : RInt (fun x => k * gk h k x + - / h * gk h (k + 1) x) u v = gedge h k v - gedge h k u).
  { apply is_RInt_unique. apply (is_RInt_derive (gedge h k)).
    - intros x Hx. replace (k * gk h k x + - / h * gk h (k + 1) x) with (k * gk h k x - / h * gk h (k + 1) x) by ring. apply gedge_derive; [exact Hh|]. unfold Rmin, Rmax in Hx. destruct (Rle_dec u v); lra.
    - intros x Hx. assert (Hx' : 0 < x) by (unfold Rmin, Rmax in Hx; destruct (Rle_dec u v); lra). apply (ex_derive_continuous (fun x => k * gk h k x + - / h * gk h (k + 1) x)). unfold gk. auto_derive. lra. }
  rewrite E in L. fold (J h k u v) in L. fold (J h (k + 1) u v) in L. rewrite L. field. lra.
Qed.
(** eventually between two bounds, when the left end shrinks and the right end grows *)
Definition btw (G : R -> R -> R) (lo hi : R) : Prop := forall eps, 0 < eps -> exists d, 0 < d <= 1 / 2 /\ forall u v, 0 < u < d -> / d < v -> lo - eps < G u v < hi + eps.
Lemma ends d u v : 0 < d <= 1 / 2 -> 0 < u < d -> / d < v -> 0 < u < 1 / 2 /\ 2 < v.
Proof. intros Hd Hu Hv. split; [lra|]. assert (2 <= / d); [|lra]. replace 2 with (/ (1 / 2)) by field. apply Rinv_le_contravar; lra. Qed.
Lemma btw_ext G H lo hi : (forall u v, 0 < u < 1 / 2 -> 2 < v -> G u v = H u v) -> btw G lo hi -> btw H lo hi.
Proof. intros E N eps He. destruct (N eps He) as [d [P Q]]. exists d. split; [exact P|]. intros u v Hu Hv. destruct (ends d u v P Hu Hv) as [A B]. rewrite <- E by assumption. now apply Q. Qed.
Lemma btw_lin G E c lo hi : 0 < c -> btw G lo hi -> btw E 0 0 -> btw (fun u v => c * G u v + E u v) (c * lo) (c * hi).
Proof.
  intros Hc N H eps He. destruct (H (eps / 2) ltac:(lra)) as [d1 [P1 H1]]. assert (Hq : 0 < eps / 2 / c) by (apply Rdiv_lt_0_compat; lra). destruct (N (eps / 2 / c) Hq) as [d2 [P2 H2]]. exists (Rmin d1 d2). assert (M3 := Rmin_l d1 d2). assert (M4 := Rmin_r d1 d2). assert (D : 0 < Rmin d1 d2) by (apply Rmin_pos; lra). split; [lra|]. intros u v Hu Hv.
  assert (I1 : / d1 <= / Rmin d1 d2) by (apply Rinv_le_contravar; lra). assert (I2 : / d2 <= / Rmin d1 d2) by (apply Rinv_le_contravar; lra).
  specialize (H1 u v ltac:(lra) ltac:(lra)). specialize (H2 u v ltac:(lra) ltac:(lra)). destruct H2 as [L U]. apply (Rmult_lt_compat_l c) in L, U; auto. replace (c * (lo - eps / 2 / c)) with (c * lo - eps / 2) in L by (field; lra). replace (c * (hi + eps / 2 / c)) with (c * hi + eps / 2) in U by (field; lra). lra.
Qed.
Lemma btw_scal0 E c : btw E 0 0 -> btw (fun u v => c * E u v) 0 0.
Proof.
  intros H eps He. assert (A := Rabs_pos c). destruct (H (eps / (Rabs c + 1)) ltac:(apply Rdiv_lt_0_compat; lra)) as [d [P Q]]. exists d. split; [exact P|]. intros u v Hu Hv. specialize (Q u v Hu Hv).
  assert (B : Rabs (E u v) < eps / (Rabs c + 1)) by (apply Rabs_def1; lra). assert (T : Rabs (c * E u v) < eps). { rewrite Rabs_mult. apply Rle_lt_trans with ((Rabs c + 1) * Rabs (E u v)); [assert (Q2 := Rabs_pos (E u v)); nra|]. apply (Rmult_lt_compat_l (Rabs c + 1)) in B; [|lra]. replace ((Rabs c + 1) * (eps / (Rabs c + 1))) with eps in B by (field; lra). exact B. }
  apply Rabs_lt_between in T. lra.
Qed.
Lemma btw_squeeze G A B lo hi lo' hi' : (forall u v, 0 < u < 1 / 2 -> 2 < v -> A u v <= G u v <= B u v) -> btw A lo hi -> btw B lo' hi' -> btw G lo hi'.
Proof.
  intros S N1 N2 eps He. destruct (N1 eps He) as [d1 [P1 H1]]. destruct (N2 eps He) as [d2 [P2 H2]]. exists (Rmin d1 d2). assert (M3 := Rmin_l d1 d2). assert (M4 := Rmin_r d1 d2). assert (D : 0 < Rmin d1 d2) by (apply Rmin_pos; lra). split; [lra|]. intros u v Hu Hv.
  assert (I1 : / d1 <= / Rmin d1 d2) by (apply Rinv_le_contravar; lra). assert (I2 : / d2 <= / Rmin d1 d2) by (apply Rinv_le_contravar; lra).
  specialize (H1 u v ltac:(lra) ltac:(lra)). specialize (H2 u v ltac:(lra) ltac:(lra)). destruct (ends (Rmin d1 d2) u v ltac:(lra) Hu Hv) as [Eu Ev]. specialize (S u v Eu Ev). lra.
Qed.
Lemma gedge_range h k x : 0 < h -> 0 < k -> 0 < x -> gedge h k x <= exp (k * ln x) /\ gedge h k x <= exp (k * (ln (2 * h * k) - 1) - x / (2 * h)).
Proof.
  intros Hh Hk Hx. unfold gedge. assert (Q : 0 < x / h) by (apply Rdiv_lt_0_compat; lra). split; apply exp_le; [lra|].
  assert (C : 0 < 2 * h * k) by (apply Rmult_lt_0_compat; lra). assert (D : 0 < x / (2 * h * k)) by (apply Rdiv_lt_0_compat; lra). assert (T := ln_above (x / (2 * h * k) - 1) ltac:(lra)). replace (1 + (x / (2 * h * k) - 1)) with (x / (2 * h * k)) in T by ring. rewrite ln_div in T by lra. destruct T as [_ T]. apply (Rmult_le_compat_l k) in T; [|lra]. replace (k * (x / (2 * h * k) - 1)) with (x / (2 * h) - k) in T by (field; lra). replace (x / h) with (x / (2 * h) + x / (2 * h)) by (field; lra). lra.
Qed.
Lemma gedge_small h k : 0 < h -> 0 < k -> btw (fun u v => gedge h k v - gedge h k u) 0 0.
Proof.
  intros Hh Hk eps He. destruct (power_small k eps Hk He) as [d1 [P1 H1]]. set (w := 2 * h * (k * (ln (2 * h * k) - 1) - ln eps)). set (w' := Rmax w 1). assert (W1 := Rmax_l w 1). assert (W2 := Rmax_r w 1). fold w' in W1, W2.
  exists (Rmin (1 / 2) (Rmin d1 (/ w'))). assert (M1 := Rmin_l (1 / 2) (Rmin d1 (/ w'))). assert (M2 := Rmin_r (1 / 2) (Rmin d1 (/ w'))). assert (M3 := Rmin_l d1 (/ w')). assert (M4 := Rmin_r d1 (/ w')). assert (W3 : 0 < / w') by (apply Rinv_0_lt_compat; lra). assert (D : 0 < Rmin (1 / 2) (Rmin d1 (/ w'))) by (apply Rmin_pos; [lra|now apply Rmin_pos]). split; [lra|]. intros u v Hu Hv.
  assert (V : w < v). { assert (/ / w' <= / Rmin (1 / 2) (Rmin d1 (/ w'))) by (apply Rinv_le_contravar; lra). rewrite Rinv_inv in H. lra. }
  destruct (ends _ u v ltac:(split; [exact D|exact M1]) Hu Hv) as [_ V2]. destruct (gedge_range h k u Hh Hk ltac:(lra)) as [A _]. destruct (gedge_range h k v Hh Hk ltac:(lra)) as [_ B]. specialize (H1 u ltac:(lra)).
  assert (B2 : exp (k * (ln (2 * h * k) - 1) - v / (2 * h)) < eps). { rewrite <- (exp_ln eps) by exact He. apply exp_increasing. apply (Rmult_lt_reg_l (2 * h)); [lra|]. replace (2 * h * (k * (ln (2 * h * k) - 1) - v / (2 * h))) with (2 * h * (k * (ln (2 * h * k) - 1)) - v) by (field; lra). unfold w in V. lra. }
  assert (U0 := exp_pos (k * ln u - u / h)). assert (V0 := exp_pos (k * ln v - v / h)). unfold gedge in *. lra.
Qed.
Lemma GT_pos h k : 0 < GT h k.
Proof. apply exp_pos. Qed.
Lemma GT_next h k : 0 < h -> 0 < k -> GT h (k + 1) = k * h * GT h k.
Proof. intros Hh Hk. unfold GT. rewrite lgam_next by exact Hk. replace ((k + 1) * ln h + (lgam true_special k + ln k)) with (ln k + (ln h + (k * ln h + lgam true_special k))) by ring. rewrite !exp_plus, !exp_ln by lra. ring. Qed.
Lemma GT_one h : 0 < h -> GT h 1 = h.
Proof. intro Hh. unfold GT. rewrite lgam_1. replace (1 * ln h + 0) with (ln h) by ring. now apply exp_ln. Qed.
Lemma btw_up h k lo hi : 0 < h -> 0 < k -> btw (J h k) lo hi -> btw (J h (k + 1)) (k * h * lo) (k * h * hi).
Proof.
  intros Hh Hk N. assert (C : 0 < k * h) by (apply Rmult_lt_0_compat; lra). assert (E := btw_scal0 _ (- h) (gedge_small h k Hh Hk)). assert (T := btw_lin _ _ (k * h) lo hi C N E). revert T. apply btw_ext. intros u v Hu Hv. rewrite J_next by lra. ring.
Qed.
Lemma btw_back h k lo hi : 0 < h -> 0 < k -> btw (J h (k + 1)) lo hi -> btw (J h k) (/ (k * h) * lo) (/ (k * h) * hi).
Proof.
  intros Hh Hk N. assert (C : 0 < k * h) by (apply Rmult_lt_0_compat; lra). assert (E := btw_scal0 _ (/ k) (gedge_small h k Hh Hk)). assert (T := btw_lin _ _ (/ (k * h)) lo hi (Rinv_0_lt_compat _ C) N E). revert T. apply btw_ext. intros u v Hu Hv. rewrite J_next by lra. field. lra.
Qed.
Lemma J_one h u v : 0 < h -> 0 < u -> 0 < v -> J h 1 u v = h * (exp (- (u / h)) - exp (- (v / h))).
Proof.
  intros Hh Hu Hv. unfold J. replace (h * (exp (- (u / h)) - exp (- (v / h)))) with (- h * exp (- (v / h)) - - h * exp (- (u / h))) by ring. apply is_RInt_unique. apply (is_RInt_derive (fun x => - h * exp (- (x / h)))).
  - intros x Hx. unfold gk. auto_derive; [trivial|]. replace ((1 - 1) * ln x - x / h) with (- (x / h)) by ring. unfold Rdiv. match goal with |- @eq _ ?p ?q => change (@eq R p q) end. field. lra.
  - intros x Hx. apply gk_cont; [exact Hh|]. unfold Rmin, Rmax in Hx. destruct (Rle_dec u v); lra.
Qed.
Lemma btw_one h : 0 < h -> btw (J h 1) h h.
Proof.
  intros Hh eps He. set (e := Rmin (eps / h) (1 / 2)). assert (E0 : 0 < e) by (apply Rmin_pos; [apply Rdiv_lt_0_compat; lra|lra]). assert (E1 : h * e <= eps). { assert (T := Rmin_l (eps / h) (1 / 2)). fold e in T. apply (Rmult_le_compat_l h) in T; [|lra]. replace (h * (eps / h)) with eps in T by (field; lra). exact T. }
  assert (E2 := Rmin_r (eps / h) (1 / 2)). fold e in E2. set (w := h * - ln (e / 2)). set (w' := Rmax w 1). assert (W1 := Rmax_l w 1). assert (W2 := Rmax_r w 1). fold w' in W1, W2. set (d1 := h * (e / 2)). assert (D1 : 0 < d1) by (apply Rmult_lt_0_compat; lra).
  exists (Rmin (1 / 2) (Rmin d1 (/ w'))). assert (M1 := Rmin_l (1 / 2) (Rmin d1 (/ w'))). assert (M2 := Rmin_r (1 / 2) (Rmin d1 (/ w'))). assert (M3 := Rmin_l d1 (/ w')). assert (M4 := Rmin_r d1 (/ w')). assert (W3 : 0 < / w') by (apply Rinv_0_lt_compat; lra). assert (D : 0 < Rmin (1 / 2) (Rmin d1 (/ w'))) by (apply Rmin_pos; [lra|now apply Rmin_pos]). split; [lra|]. intros u v Hu Hv.
  assert (V : w < v). { assert (/ / w' <= / Rmin (1 / 2) (Rmin d1 (/ w'))) by (apply Rinv_le_contravar; lra). rewrite Rinv_inv in H. lra. }
  destruct (ends _ u v ltac:(split; [exact D|exact M1]) Hu Hv) as [_ V2]. rewrite J_one by lra.
  assert (A1 : exp (- (u / h)) < 1). { rewrite <- exp_0. apply exp_increasing. assert (0 < u / h) by (apply Rdiv_lt_0_compat; lra). lra. }
  assert (A2 : 1 - e / 2 < exp (- (u / h))). { apply Rlt_le_trans with (1 + - (u / h)); [|apply exp_ineq1_le]. assert (u / h < e / 2); [|lra]. apply (Rmult_lt_reg_l h); [exact Hh|]. replace (h * (u / h)) with u by (field; lra). unfold d1 in *. lra. }
  assert (B1 : exp (- (v / h)) < e / 2). { rewrite <- (exp_ln (e / 2)) by lra. apply exp_increasing. apply (Rmult_lt_reg_l h); [exact Hh|]. replace (h * - (v / h)) with (- v) by (field; lra). unfold w in V. lra. }
  assert (B0 := exp_pos (- (v / h))). split.
  - assert (T : 1 - e < exp (- (u / h)) - exp (- (v / h))) by lra. apply (Rmult_lt_compat_l h) in T; [|exact Hh]. lra.
  - assert (T : exp (- (u / h)) - exp (- (v / h)) < 1) by lra. apply (Rmult_lt_compat_l h) in T; [|exact Hh]. lra.
Qed.
Lemma btw_nat h n : 0 < h -> btw (J h (INR (S n))) (GT h (INR (S n))) (GT h (INR (S n))).
Proof.
  intro Hh. induction n as [|n IH]; [change (INR 1) with 1; rewrite GT_one by exact Hh; now apply btw_one|]. assert (P := S_pos n). rewrite (S_INR (S n)), GT_next by auto. now apply btw_up.
Qed.
Lemma btw_shift h k n r s : 0 < h -> 0 < k -> btw (J h (k + INR n)) (GT h (k + INR n) * r) (GT h (k + INR n) * s) -> btw (J h k) (GT h k * r) (GT h k * s).
Proof.
  intros Hh Hk. induction n as [|n IH]; intro N; [cbn [INR] in N; now rewrite Rplus_0_r in N|]. apply IH. rewrite S_INR, <- Rplus_assoc in N. assert (Q := shift_pos k n Hk). rewrite GT_next in N by auto. apply btw_back in N; [|exact Hh|exact Q].
  replace (GT h (k + INR n) * r) with (/ ((k + INR n) * h) * ((k + INR n) * h * GT h (k + INR n) * r)) by (field; lra). replace (GT h (k + INR n) * s) with (/ ((k + INR n) * h) * ((k + INR n) * h * GT h (k + INR n) * s)) by (field; lra). exact N.
Qed.
Lemma young t s : 0 <= t <= 1 -> exp (t * s) <= (1 - t) + t * exp s.
Proof.
  intro Ht. assert (A := exp_ineq1_le ((1 - t) * s)). assert (B := exp_ineq1_le (- (t * s))). assert (P := exp_pos (t * s)). assert (E1 : exp s = exp (t * s) * exp ((1 - t) * s)) by (rewrite <- exp_plus; f_equal; ring). assert (E2 : 1 = exp (t * s) * exp (- (t * s))) by (rewrite <- exp_plus; replace (t * s + - (t * s)) with 0 by ring; now rewrite exp_0).
  assert (A' : exp (t * s) * (1 + (1 - t) * s) <= exp s) by (rewrite E1; apply Rmult_le_compat_l; lra). assert (B' : exp (t * s) * (1 + - (t * s)) <= 1) by (rewrite E2 at 2; apply Rmult_le_compat_l; lra). apply (Rmult_le_compat_l t) in A'; [|lra]. apply (Rmult_le_compat_l (1 - t)) in B'; [|lra]. lra.
Qed.
Lemma J_young h p t c u v : 0 < h -> 0 < c -> 0 <= t <= 1 -> 0 < u -> u <= v -> J h (p + t) u v <= exp (t * ln c) * ((1 - t) * J h p u v + t / c * J h (p + 1) u v).
Proof.
  intros Hh Hc Ht Hu Hv. assert (L := int_lin (gk h p) (gk h (p + 1)) (exp (t * ln c) * (1 - t)) (exp (t * ln c) * (t / c)) u v (gk_int h p u v Hh Hu ltac:(lra)) (gk_int h (p + 1) u v Hh Hu ltac:(lra))).
  unfold J. replace (exp (t * ln c) * ((1 - t) * RInt (gk h p) u v + t / c * RInt (gk h (p + 1)) u v)) with (exp (t * ln c) * (1 - t) * RInt (gk h p) u v + exp (t * ln c) * (t / c) * RInt (gk h (p + 1)) u v) by ring. apply (is_RInt_le (gk h (p + t)) (fun x => exp (t * ln c) * (1 - t) * gk h p x + exp (t * ln c) * (t / c) * gk h (p + 1) x) u v); [exact Hv|apply (RInt_correct (V := R_CompleteNormedModule)); apply gk_int; lra|exact L|].
  intros x Hx. rewrite gk_next by lra. assert (Y := young t (ln x - ln c) Ht). assert (E : exp (ln x - ln c) = x / c) by (unfold Rminus; rewrite exp_plus, exp_Ropp, !exp_ln by lra; reflexivity). rewrite E in Y.
  assert (G : gk h (p + t) x = exp (t * ln c) * gk h p x * exp (t * (ln x - ln c))) by (unfold gk; rewrite <- !exp_plus; f_equal; ring). rewrite G. assert (P := exp_pos (t * ln c)). assert (P2 : 0 < gk h p x) by apply exp_pos. apply (Rmult_le_compat_l (exp (t * ln c) * gk h p x)) in Y; [|apply Rlt_le, Rmult_lt_0_compat; assumption]. apply Rle_trans with (1 := Y). apply Req_le. field. lra.
Qed.
Lemma J_upper h p t u v : 0 < h -> 0 < p -> 0 <= t <= 1 -> 0 < u -> u <= v -> J h (p + t) u v <= exp (t * ln (p * h)) * J h p u v + exp (t * ln (p * h)) * - (t / p) * (gedge h p v - gedge h p u).
Proof.
  intros Hh Hp Ht Hu Hv. assert (C : 0 < p * h) by (apply Rmult_lt_0_compat; lra). apply Rle_trans with (1 := J_young h p t (p * h) u v Hh C Ht Hu Hv). rewrite J_next by lra. apply Req_le. field. lra.
Qed.
Lemma btw_between h p t lo hi lo' hi' : 0 < h -> 0 < p -> 0 <= t <= 1 -> btw (J h p) lo hi -> btw (J h (p + 1)) lo' hi' ->
  btw (J h (p + t)) (exp (- ((1 - t) * ln ((p + t) * h))) * lo') (exp (t * ln (p * h)) * hi).
Proof.
  intros Hh Hp Ht N1 N2. set (z := p + t). assert (Hz : 0 < z) by (unfold z; lra). set (q := exp ((1 - t) * ln (z * h))). assert (Pq : 0 < q) by apply exp_pos.
  apply (btw_squeeze _ (fun u v => exp (- ((1 - t) * ln (z * h))) * J h (p + 1) u v + ((1 - t) / z) * (gedge h z v - gedge h z u)) (fun u v => exp (t * ln (p * h)) * J h p u v + exp (t * ln (p * h)) * - (t / p) * (gedge h p v - gedge h p u)) _ (exp (- ((1 - t) * ln (z * h))) * hi') (exp (t * ln (p * h)) * lo)).
  - intros u v Hu Hv. split; [|apply J_upper; lra]. assert (U := J_upper h z (1 - t) u v Hh Hz ltac:(lra) ltac:(lra) ltac:(lra)). replace (z + (1 - t)) with (p + 1) in U by (unfold z; ring). fold q in U. rewrite exp_Ropp. fold q. apply (Rmult_le_compat_l (/ q)) in U; [|apply Rlt_le, Rinv_0_lt_compat, Pq]. replace (/ q * (q * J h z u v + q * - ((1 - t) / z) * (gedge h z v - gedge h z u))) with (J h z u v - (1 - t) / z * (gedge h z v - gedge h z u)) in U by (field; lra). lra.
  - apply btw_lin; [apply exp_pos|exact N2|]. now apply btw_scal0, gedge_small.
  - apply btw_lin; [apply exp_pos|exact N1|]. now apply btw_scal0, gedge_small.
Qed.
Lemma GT_ratio h p t : 0 < h -> 0 < p -> 0 <= t <= 1 -> exp (t * ln (p * h)) * GT h p <= GT h (p + t) * exp (/ p) /\ GT h (p + t) * exp (- / p) <= exp (- ((1 - t) * ln ((p + t) * h))) * GT h (p + 1).
Proof.
  intros Hh Hp Ht. unfold GT. rewrite <- !exp_plus. rewrite lgam_next by exact Hp. rewrite !ln_mult by lra.
  assert (C1 := lgam_convex p (p + 1) (1 - t) Hp ltac:(lra) ltac:(lra)). replace ((1 - t) * p + (1 - (1 - t)) * (p + 1)) with (p + t) in C1 by ring. rewrite lgam_next in C1 by exact Hp.
  assert (C2 := lgam_convex (p + t) (p + t + 1) t ltac:(lra) ltac:(lra) Ht). replace (t * (p + t) + (1 - t) * (p + t + 1)) with (p + 1) in C2 by ring. rewrite !lgam_next in C2 by lra.
  assert (D : (1 - t) * (ln (p + t) - ln p) <= / p). { rewrite <- ln_div by lra. replace ((p + t) / p) with (1 + t / p) by (field; lra). assert (I := Rinv_0_lt_compat p Hp). assert (0 <= t / p) by (unfold Rdiv; apply Rmult_le_pos; lra). assert (L := ln_above (t / p) ltac:(lra)). assert (t / p <= / p) by (unfold Rdiv; rewrite <- (Rmult_1_l (/ p)) at 2; apply Rmult_le_compat_r; lra). apply Rle_trans with ((1 - t) * / p); [apply Rmult_le_compat_l; lra|]. nra. }
  split; apply exp_le; lra.
Qed.
Lemma btw_weaken G lo hi lo' hi' : lo' <= lo -> hi <= hi' -> btw G lo hi -> btw G lo' hi'.
Proof. intros A B N eps He. destruct (N eps He) as [d [P H]]. exists d. split; [exact P|]. intros u v Hu Hv. specialize (H u v Hu Hv). lra. Qed.
Lemma btw_close G l : (forall e, 0 < e -> btw G (l - e) (l + e)) -> btw G l l.
Proof. intros H eps He. destruct (H (eps / 2) ltac:(lra) (eps / 2) ltac:(lra)) as [d [P N]]. exists d. split; [exact P|]. intros u v Hu Hv. specialize (N u v Hu Hv). lra. Qed.
Lemma btw_gamma h k : 0 < h -> 0 < k -> btw (J h k) (GT h k) (GT h k).
Proof.
  intros Hh Hk. apply btw_close. intros e He. assert (PB := GT_pos h k). destruct (exp_near1 (e / GT h k) ltac:(apply Rdiv_lt_0_compat; lra)) as [t [Ht HE]].
  destruct (nfloor_ex (/ t) ltac:(apply Rlt_le, Rinv_0_lt_compat; lra)) as [m Hm]. set (n := S m). assert (Pn : / t < INR n) by (unfold n; rewrite S_INR; lra). destruct (nfloor_ex (k + INR n) ltac:(assert (T := pos_INR n); lra)) as [l Hl].
  assert (Kn : (n <= l)%nat). { apply INR_le. apply Rnot_lt_le. intro C. apply INR_lt in C. assert (INR l + 1 <= INR n) by (rewrite <- S_INR; apply le_INR; lia). lra. } destruct l as [|l]; [unfold n in Kn; lia|]. set (p := INR (S l)) in *. assert (Pp : INR n <= p) by (apply le_INR; exact Kn). assert (P0 : 0 < p) by apply S_pos.
  assert (S1 : 0 <= / p <= t). { split; [apply Rlt_le, Rinv_0_lt_compat; lra|]. rewrite <- (Rinv_inv t). apply Rinv_le_contravar; [now apply Rinv_0_lt_compat|lra]. }
  destruct (HE _ S1) as [E1 E2]. set (s := k + INR n - p). assert (Hs : 0 <= s <= 1) by (unfold s; lra). destruct (GT_ratio h p s Hh P0 Hs) as [R1 R2].
  assert (N1 := btw_nat h l Hh). fold p in N1. assert (N2 := btw_nat h (S l) Hh). rewrite (S_INR (S l)) in N2. fold p in N2. assert (N := btw_between h p s _ _ _ _ Hh P0 Hs N1 N2). apply (btw_weaken _ _ _ _ _ R2 R1) in N. replace (p + s) with (k + INR n) in N by (unfold s; ring). apply btw_shift in N; auto.
  revert N. apply btw_weaken.
  - apply (Rmult_le_compat_l (GT h k)) in E2; [|lra]. replace (GT h k * (1 - e / GT h k)) with (GT h k - e) in E2 by (field; lra). exact E2.
  - apply (Rmult_le_compat_l (GT h k)) in E1; [|lra]. replace (GT h k * (1 + e / GT h k)) with (GT h k + e) in E1 by (field; lra). exact E1.
Qed.
Lemma btw_total (f : R -> R) l : (forall u v, 0 < u -> 0 < v -> ex_RInt f u v) -> btw (fun u v => RInt f u v) l l -> total_pos f l.
Proof.
  intros I N. unfold total_pos, is_RInt_gen. intros P [e He]. destruct (N e (cond_pos e)) as [d [Pd H]]. apply (Filter_prod _ _ _ (fun u => 0 < u < d) (fun v => / d < v)).
  - exists (mkposreal d (proj1 Pd)). intros u Hu Pu. change (Rabs (u - 0) < d) in Hu. apply Rabs_lt_between in Hu. lra.
  - exists (/ d). intros v Hv. exact Hv.
  - intros u v Hu Hv. destruct (ends d u v Pd Hu Hv) as [_ V]. exists (RInt f u v). split; [apply (RInt_correct f u v), I; cbn; lra|]. apply He. change (Rabs (RInt f u v - l) < e). specialize (H u v Hu Hv). apply Rabs_def1; lra.
Qed.
Lemma gamma_total h k c : 0 < h -> 0 < k -> total_pos (fun x => c * gk h k x) (c * GT h k).
Proof.
  intros Hh Hk. unfold total_pos. apply (is_RInt_gen_scal (V := R_NormedModule) (gk h k) c). apply btw_total; [intros; apply gk_int; lra|]. exact (btw_gamma h k Hh Hk).
Qed.
Lemma total_pos_ext (f g : R -> R) l : (forall x, 0 < x -> f x = g x) -> total_pos f l -> total_pos g l.
Proof.
  intros E T. unfold total_pos in *. apply (is_RInt_gen_ext f); [|exact T]. apply (Filter_prod _ _ _ (fun u => 0 < u) (fun v => 0 < v)).
  - exists (mkposreal 1 Rlt_0_1). intros u _ Pu. exact Pu.
  - exists 0. intros v Hv. exact Hv.
  - intros u v Hu Hv x Hx. cbn [fst snd] in Hx. apply E. unfold Rmin in Hx. destruct (Rle_dec u v); lra.
Qed.
Lemma total_pos_plus (f g : R -> R) l m : total_pos f l -> total_pos g m -> total_pos (fun x => f x + g x) (l + m).
Proof. intros F G. exact (is_RInt_gen_plus (V := R_NormedModule) f g l m F G). Qed.
Lemma pdf_gk x k h : 0 < x -> 0 < h -> 0 < k -> pdf_gamma true_gamma x k h = / GT h k * gk h k x.
Proof.
  intros Hx Hh Hk. unfold pdf_gamma, true_gamma, GT, gk, Rpower. rewrite <- exp_plus. unfold Rdiv at 1. rewrite Rmult_1_l. rewrite (Rplus_comm (lgam true_special k)). rewrite Rmult_assoc. f_equal. rewrite <- exp_plus. f_equal. field. lra.
Qed.
Lemma prior_total k h : 0 < k -> 0 < h -> total_pos (fun x => pdf_gamma true_gamma x k h) 1.
Proof.
  intros Hk Hh. assert (P := GT_pos h k). assert (T := gamma_total h k (/ GT h k) Hh Hk). rewrite Rinv_l in T by lra. revert T. apply total_pos_ext. intros x Hx. symmetry. now apply pdf_gk.
Qed.
Lemma prior_mean k h : 0 < k -> 0 < h -> total_pos (fun x => x * pdf_gamma true_gamma x k h) (k * h).
Proof.
  intros Hk Hh. assert (P := GT_pos h k). assert (T := gamma_total h (k + 1) (/ GT h k) Hh ltac:(lra)). rewrite GT_next in T by auto. replace (/ GT h k * (k * h * GT h k)) with (k * h) in T by (field; lra). revert T. apply total_pos_ext. intros x Hx. rewrite pdf_gk, gk_next by auto. ring.
Qed.
Lemma prior_second k h : 0 < k -> 0 < h -> total_pos (fun x => x ^ 2 * pdf_gamma true_gamma x k h) ((k + 1) * h * (k * h)).
Proof.
  intros Hk Hh. assert (P := GT_pos h k). assert (T := gamma_total h (k + 1 + 1) (/ GT h k) Hh ltac:(lra)). rewrite !GT_next in T by lra. replace (/ GT h k * ((k + 1) * h * (k * h * GT h k))) with ((k + 1) * h * (k * h)) in T by (field; lra). revert T. apply total_pos_ext. intros x Hx. rewrite pdf_gk, !gk_next by auto. ring.
Qed.
Lemma total_pos_scal (f : R -> R) c l : total_pos f l -> total_pos (fun x => c * f x) (c * l).
Proof. intro F. exact (is_RInt_gen_scal (V := R_NormedModule) f c l F). Qed.
Lemma prior_variance k h : 0 < k -> 0 < h -> total_pos (fun x => (x - k * h) ^ 2 * pdf_gamma true_gamma x k h) (k * h ^ 2).
Proof.
  intros Hk Hh. assert (T := total_pos_plus _ _ _ _ (prior_second k h Hk Hh) (total_pos_plus _ _ _ _ (total_pos_scal _ (- (2 * (k * h))) _ (prior_mean k h Hk Hh)) (total_pos_scal _ ((k * h) ^ 2) _ (prior_total k h Hk Hh)))).
  replace ((k + 1) * h * (k * h) + (- (2 * (k * h)) * (k * h) + (k * h) ^ 2 * 1)) with (k * h ^ 2) in T by ring. revert T. apply total_pos_ext. intros x Hx. ring.
Qed.
Lemma prior_mode k h x : 1 < k -> 0 < h -> 0 < x -> x <> (k - 1) * h -> pdf_gamma true_gamma x k h < pdf_gamma true_gamma ((k - 1) * h) k h.
Proof.
  intros Hk Hh Hx N. assert (Hm : 0 < (k - 1) * h) by (apply Rmult_lt_0_compat; lra). rewrite !pdf_gk by lra. apply Rmult_lt_compat_l; [apply Rinv_0_lt_compat, GT_pos|]. unfold gk. apply exp_increasing.
  set (y := x / ((k - 1) * h)). assert (Y : 0 < y) by (apply Rdiv_lt_0_compat; lra). assert (Y1 : y <> 1). { intro C. apply N. unfold y in C. apply (f_equal (fun z => z * ((k - 1) * h))) in C. replace (x / ((k - 1) * h) * ((k - 1) * h)) with x in C by (field; lra). lra. }
  assert (L : ln y < y - 1). { assert (T := exp_ineq1 (ln y)). rewrite exp_ln in T by exact Y. assert (ln y <> 0) by (intro C; apply Y1; rewrite <- (exp_ln y) by exact Y; rewrite C; apply exp_0). specialize (T H). lra. }
  assert (E : x = y * ((k - 1) * h)) by (unfold y; field; lra). assert (L2 : ln x = ln y + ln ((k - 1) * h)) by (rewrite E; apply ln_mult; assumption). rewrite L2. rewrite E. replace (y * ((k - 1) * h) / h) with (y * (k - 1)) by (field; lra). replace ((k - 1) * h / h) with (k - 1) by (field; lra). apply (Rmult_lt_compat_l (k - 1)) in L; [|lra]. lra.
Qed.
