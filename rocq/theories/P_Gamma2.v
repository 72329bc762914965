(** Lemmas for the beta distribution: its total over the open unit interval. *)
From Coquelicot Require Import Coquelicot.
From Coq Require Import Reals Lra Lia.
From Verif Require Import M_RBase M_AbsProbit S_AbsProbit S_Gamma P_Gamma.
Local Open Scope R_scope.

Lemma exp_le x y : x <= y -> exp x <= exp y.
Proof. intros [H| ->]; [left; now apply exp_increasing|lra]. Qed.
Definition kern (a b x : R) : R := exp ((a - 1) * ln x + (b - 1) * ln (1 - x)).
Definition edge (a b x : R) : R := exp (a * ln x + b * ln (1 - x)).
Definition Bt (a b : R) : R := exp (lgam true_special a + lgam true_special b - lgam true_special (a + b)).
Lemma kern_pos a b x : 0 < kern a b x.
Proof. apply exp_pos. Qed.
Lemma kern_cont a b x : 0 < x < 1 -> continuous (kern a b) x.
Proof. intro H. apply (ex_derive_continuous (kern a b) x). unfold kern. auto_derive. lra. Qed.
Lemma cont_int (f : R -> R) u v : (forall x, 0 < x < 1 -> continuous f x) -> 0 < u < 1 -> 0 < v < 1 -> ex_RInt f u v.
Proof. intros C Hu Hv. apply (ex_RInt_continuous f). intros z Hz. apply C. unfold Rmin, Rmax in Hz. destruct (Rle_dec u v); lra. Qed.
Lemma kern_int a b u v : 0 < u < 1 -> 0 < v < 1 -> ex_RInt (kern a b) u v.
Proof. intros. apply cont_int; auto. intros. now apply kern_cont. Qed.
Lemma kern_left a b x : 0 < x < 1 -> kern (a + 1) b x = x * kern a b x.
Proof. intro H. unfold kern. replace ((a + 1 - 1) * ln x + (b - 1) * ln (1 - x)) with (ln x + ((a - 1) * ln x + (b - 1) * ln (1 - x))) by ring. rewrite exp_plus, exp_ln by lra. reflexivity. Qed.
Lemma kern_right a b x : 0 < x < 1 -> kern a (b + 1) x = (1 - x) * kern a b x.
Proof. intro H. unfold kern. replace ((a - 1) * ln x + (b + 1 - 1) * ln (1 - x)) with (ln (1 - x) + ((a - 1) * ln x + (b - 1) * ln (1 - x))) by ring. rewrite exp_plus, exp_ln by lra. reflexivity. Qed.
Lemma edge_derive a b x : 0 < x < 1 -> is_derive (edge a b) x (a * kern a b x - (a + b) * kern (a + 1) b x).
Proof.
  intro H. rewrite kern_left by exact H. assert (E : edge a b x = x * (1 - x) * kern a b x).
  { unfold edge, kern. replace (a * ln x + b * ln (1 - x)) with (ln x + ln (1 - x) + ((a - 1) * ln x + (b - 1) * ln (1 - x))) by ring. now rewrite !exp_plus, !exp_ln by lra. }
  replace (a * kern a b x - (a + b) * (x * kern a b x)) with ((a / x - b / (1 - x)) * edge a b x) by (rewrite E; field; lra). unfold edge. auto_derive; [lra|]. unfold Rminus. field. lra.
Qed.
Lemma int_lin (f g : R -> R) c d u v : ex_RInt f u v -> ex_RInt g u v -> is_RInt (fun x => c * f x + d * g x) u v (c * RInt f u v + d * RInt g u v).
Proof.
  intros F G. apply (is_RInt_plus (V := R_NormedModule) (fun x => c * f x) (fun x => d * g x)); [apply (is_RInt_scal (V := R_NormedModule) f)|apply (is_RInt_scal (V := R_NormedModule) g)]; apply (RInt_correct (V := R_CompleteNormedModule)); assumption.
Qed.
Lemma int_edge a b u v : 0 < u < 1 -> 0 < v < 1 -> a * RInt (kern a b) u v - (a + b) * RInt (kern (a + 1) b) u v = edge a b v - edge a b u.
Proof.
  intros Hu Hv. assert (L := int_lin (kern a b) (kern (a + 1) b) a (- (a + b)) u v (kern_int a b u v Hu Hv) (kern_int (a + 1) b u v Hu Hv)). apply (is_RInt_unique (V := R_CompleteNormedModule)) in L. transitivity (RInt (fun x => a * kern a b x + - (a + b) * kern (a + 1) b x) u v); [rewrite L; ring|].
  apply is_RInt_unique. apply (is_RInt_derive (edge a b)).
  - intros x Hx. replace (a * kern a b x + - (a + b) * kern (a + 1) b x) with (a * kern a b x - (a + b) * kern (a + 1) b x) by ring. apply edge_derive. unfold Rmin, Rmax in Hx. destruct (Rle_dec u v); lra.
  - intros x Hx. assert (Hx' : 0 < x < 1) by (unfold Rmin, Rmax in Hx; destruct (Rle_dec u v); lra). apply (ex_derive_continuous (fun x => a * kern a b x + - (a + b) * kern (a + 1) b x)). unfold kern. auto_derive. lra.
Qed.
Lemma int_split a b u v : 0 < u < 1 -> 0 < v < 1 -> RInt (kern a b) u v = RInt (kern (a + 1) b) u v + RInt (kern a (b + 1)) u v.
Proof.
  intros Hu Hv. assert (L := int_lin (kern (a + 1) b) (kern a (b + 1)) 1 1 u v (kern_int (a + 1) b u v Hu Hv) (kern_int a (b + 1) u v Hu Hv)). apply (is_RInt_unique (V := R_CompleteNormedModule)) in L. rewrite !Rmult_1_l in L. rewrite <- L. apply RInt_ext. intros x Hx. assert (Hx' : 0 < x < 1) by (unfold Rmin, Rmax in Hx; destruct (Rle_dec u v); lra). rewrite kern_left, kern_right by exact Hx'. match goal with |- @eq _ ?p ?q => change (@eq R p q) end. ring.
Qed.
Lemma edge_range a b x : 0 < a -> 0 < b -> 0 < x < 1 -> 0 < edge a b x /\ edge a b x <= exp (a * ln x) /\ edge a b x <= exp (b * ln (1 - x)).
Proof.
  intros Ha Hb H. split; [apply exp_pos|]. assert (L1 : ln x < 0) by (rewrite <- ln_1; apply ln_increasing; lra). assert (L2 : ln (1 - x) < 0) by (rewrite <- ln_1; apply ln_increasing; lra). unfold edge. split; apply exp_le; nra.
Qed.
Lemma power_small a eps : 0 < a -> 0 < eps -> exists d, 0 < d /\ forall x, 0 < x < d -> exp (a * ln x) < eps.
Proof.
  intros Ha He. exists (exp (ln eps / a)). split; [apply exp_pos|]. intros x H. rewrite <- (exp_ln eps) by exact He. apply exp_increasing. assert (L : ln x < ln eps / a) by (rewrite <- (ln_exp (ln eps / a)); apply ln_increasing; lra). apply (Rmult_lt_compat_l a) in L; [|exact Ha]. replace (a * (ln eps / a)) with (ln eps) in L by (field; lra). exact L.
Qed.
(** eventually between two bounds *)
Definition near (f : R -> R) (lo hi : R) : Prop := forall eps, 0 < eps -> exists d, 0 < d <= 1 / 2 /\ forall u v, 0 < u < d -> 1 - d < v < 1 -> lo - eps < RInt f u v < hi + eps.
Lemma edge_small a b eps : 0 < a -> 0 < b -> 0 < eps -> exists d, 0 < d <= 1 / 2 /\ forall u v, 0 < u < d -> 1 - d < v < 1 -> Rabs (edge a b v - edge a b u) < eps.
Proof.
  intros Ha Hb He. destruct (power_small a eps Ha He) as [d1 [P1 H1]]. destruct (power_small b eps Hb He) as [d2 [P2 H2]]. exists (Rmin (1 / 2) (Rmin d1 d2)). split; [split; [apply Rmin_pos; [lra|now apply Rmin_pos]|apply Rmin_l]|]. intros u v Hu Hv.
  assert (M1 := Rmin_l (1 / 2) (Rmin d1 d2)). assert (M2 := Rmin_r (1 / 2) (Rmin d1 d2)). assert (M3 := Rmin_l d1 d2). assert (M4 := Rmin_r d1 d2). destruct (edge_range a b u Ha Hb ltac:(lra)) as [A1 [A2 _]]. destruct (edge_range a b v Ha Hb ltac:(lra)) as [B1 [_ B2]]. specialize (H1 u ltac:(lra)). specialize (H2 (1 - v) ltac:(lra)). apply Rabs_def1; lra.
Qed.
Lemma near_lin f g c lo hi : 0 < c -> (forall eps, 0 < eps -> exists d, 0 < d <= 1 / 2 /\ forall u v, 0 < u < d -> 1 - d < v < 1 -> Rabs (RInt g u v - c * RInt f u v) < eps) -> near f lo hi -> near g (c * lo) (c * hi).
Proof.
  intros Hc H N eps He. destruct (H (eps / 2) ltac:(lra)) as [d1 [P1 H1]]. assert (Hq : 0 < eps / 2 / c) by (apply Rdiv_lt_0_compat; lra). destruct (N (eps / 2 / c) Hq) as [d2 [P2 H2]]. exists (Rmin d1 d2). assert (M3 := Rmin_l d1 d2). assert (M4 := Rmin_r d1 d2). split; [split; [apply Rmin_pos; lra|lra]|]. intros u v Hu Hv.
  specialize (H1 u v ltac:(lra) ltac:(lra)). specialize (H2 u v ltac:(lra) ltac:(lra)). apply Rabs_lt_between in H1. destruct H2 as [L U]. apply (Rmult_lt_compat_l c) in L, U; auto. replace (c * (lo - eps / 2 / c)) with (c * lo - eps / 2) in L by (field; lra). replace (c * (hi + eps / 2 / c)) with (c * hi + eps / 2) in U by (field; lra). lra.
Qed.
Lemma near_a a b lo hi : 0 < a -> 0 < b -> near (kern a b) lo hi -> near (kern (a + 1) b) (a / (a + b) * lo) (a / (a + b) * hi).
Proof.
  intros Ha Hb. apply near_lin; [apply Rdiv_lt_0_compat; lra|]. intros eps He. destruct (edge_small a b (eps * (a + b)) Ha Hb ltac:(apply Rmult_lt_0_compat; lra)) as [d [P H]]. exists d. split; [exact P|]. intros u v Hu Hv. specialize (H u v Hu Hv). assert (E := int_edge a b u v ltac:(lra) ltac:(lra)).
  replace (RInt (kern (a + 1) b) u v - a / (a + b) * RInt (kern a b) u v) with (- (edge a b v - edge a b u) / (a + b)) by (rewrite <- E; field; lra). unfold Rdiv. rewrite Rabs_mult, Rabs_Ropp, (Rabs_right (/ (a + b))) by (apply Rle_ge, Rlt_le, Rinv_0_lt_compat; lra). apply (Rmult_lt_reg_r (a + b)); [lra|]. rewrite Rmult_assoc, Rinv_l, Rmult_1_r by lra. exact H.
Qed.
Lemma near_b a b lo hi : 0 < a -> 0 < b -> near (kern a b) lo hi -> near (kern a (b + 1)) (b / (a + b) * lo) (b / (a + b) * hi).
Proof.
  intros Ha Hb. apply near_lin; [apply Rdiv_lt_0_compat; lra|]. intros eps He. destruct (edge_small a b (eps * (a + b)) Ha Hb ltac:(apply Rmult_lt_0_compat; lra)) as [d [P H]]. exists d. split; [exact P|]. intros u v Hu Hv. specialize (H u v Hu Hv). assert (E := int_edge a b u v ltac:(lra) ltac:(lra)). assert (E2 := int_split a b u v ltac:(lra) ltac:(lra)).
  replace (RInt (kern a (b + 1)) u v - b / (a + b) * RInt (kern a b) u v) with ((edge a b v - edge a b u) / (a + b)) by (rewrite <- E; rewrite E2; field; lra). unfold Rdiv. rewrite Rabs_mult, (Rabs_right (/ (a + b))) by (apply Rle_ge, Rlt_le, Rinv_0_lt_compat; lra). apply (Rmult_lt_reg_r (a + b)); [lra|]. rewrite Rmult_assoc, Rinv_l, Rmult_1_r by lra. exact H.
Qed.
Lemma near_b_back a b lo hi : 0 < a -> 0 < b -> near (kern a (b + 1)) lo hi -> near (kern a b) ((a + b) / b * lo) ((a + b) / b * hi).
Proof.
  intros Ha Hb. apply near_lin; [apply Rdiv_lt_0_compat; lra|]. intros eps He. destruct (edge_small a b (eps * b) Ha Hb ltac:(apply Rmult_lt_0_compat; lra)) as [d [P H]]. exists d. split; [exact P|]. intros u v Hu Hv. specialize (H u v Hu Hv). assert (E := int_edge a b u v ltac:(lra) ltac:(lra)). assert (E2 := int_split a b u v ltac:(lra) ltac:(lra)).
  assert (E3 : RInt (kern a b) u v - (a + b) / b * RInt (kern a (b + 1)) u v = - (edge a b v - edge a b u) / b). { rewrite <- E. rewrite E2. field. lra. } rewrite E3. unfold Rdiv. rewrite Rabs_mult, Rabs_Ropp, (Rabs_right (/ b)) by (apply Rle_ge, Rlt_le, Rinv_0_lt_compat; lra). apply (Rmult_lt_reg_r b); [lra|]. rewrite Rmult_assoc, Rinv_l, Rmult_1_r by lra. exact H.
Qed.
Lemma near_one a : 0 < a -> near (kern a 1) (/ a) (/ a).
Proof.
  intros Ha eps He. assert (HE : 0 < eps * a) by (apply Rmult_lt_0_compat; lra). destruct (power_small a (eps * a / 2) Ha ltac:(lra)) as [d1 [P1 H1]]. set (e := Rmin (eps * a / 2) (1 / 2)). assert (E0 : 0 < e) by (apply Rmin_pos; lra). assert (E1 : e <= 1 / 2) by apply Rmin_r. assert (E2 : e <= eps * a / 2) by apply Rmin_l.
  set (q := exp (ln (1 - e) / a)). assert (Q : q < 1). { unfold q. apply Rlt_le_trans with (exp 0); [|rewrite exp_0; lra]. apply exp_increasing. assert (ln (1 - e) < 0) by (rewrite <- ln_1; apply ln_increasing; lra). apply (Rmult_lt_reg_r a); [exact Ha|]. unfold Rdiv. rewrite Rmult_assoc, Rinv_l by lra. lra. }
  exists (Rmin (1 / 2) (Rmin d1 (1 - q))). assert (M1 := Rmin_l (1 / 2) (Rmin d1 (1 - q))). assert (M2 := Rmin_r (1 / 2) (Rmin d1 (1 - q))). assert (M3 := Rmin_l d1 (1 - q)). assert (M4 := Rmin_r d1 (1 - q)). split; [split; [apply Rmin_pos; [lra|apply Rmin_pos; lra]|exact M1]|]. intros u v Hu Hv.
  assert (I : RInt (kern a 1) u v = exp (a * ln v) / a - exp (a * ln u) / a).
  { apply is_RInt_unique. apply (is_RInt_derive (fun x => exp (a * ln x) / a)).
    - intros x Hx. rewrite Rmin_left, Rmax_right in Hx by lra. unfold kern. auto_derive; [lra|]. replace (a * ln x) with (ln x + ((a - 1) * ln x + (1 - 1) * ln (1 - x))) by ring. rewrite exp_plus, exp_ln by lra. field. lra.
    - intros x Hx. rewrite Rmin_left, Rmax_right in Hx by lra. apply kern_cont. lra. }
  rewrite I. specialize (H1 u ltac:(lra)). assert (U0 := exp_pos (a * ln u)). assert (V1 : exp (a * ln v) < 1). { rewrite <- exp_0. apply exp_increasing. assert (ln v < 0) by (rewrite <- ln_1; apply ln_increasing; lra). nra. }
  assert (V2 : 1 - e < exp (a * ln v)). { rewrite <- (exp_ln (1 - e)) by lra. apply exp_increasing. assert (L : ln q < ln v) by (apply ln_increasing; [apply exp_pos|lra]). unfold q in L. rewrite ln_exp in L. apply (Rmult_lt_compat_l a) in L; [|exact Ha]. replace (a * (ln (1 - e) / a)) with (ln (1 - e)) in L by (field; lra). exact L. }
  split; apply (Rmult_lt_reg_r a); auto.
  - replace ((/ a - eps) * a) with (1 - eps * a) by (field; lra). replace ((exp (a * ln v) / a - exp (a * ln u) / a) * a) with (exp (a * ln v) - exp (a * ln u)) by (field; lra). lra.
  - replace ((/ a + eps) * a) with (1 + eps * a) by (field; lra). replace ((exp (a * ln v) / a - exp (a * ln u) / a) * a) with (exp (a * ln v) - exp (a * ln u)) by (field; lra). lra.
Qed.
Lemma Bt_pos a b : 0 < Bt a b.
Proof. apply exp_pos. Qed.
Lemma Bt_one a : 0 < a -> Bt a 1 = / a.
Proof. intro H. unfold Bt. rewrite lgam_1, lgam_next by exact H. replace (lgam true_special a + 0 - (lgam true_special a + ln a)) with (- ln a) by ring. now rewrite exp_Ropp, exp_ln. Qed.
Lemma Bt_b a b : 0 < a -> 0 < b -> Bt a (b + 1) = b / (a + b) * Bt a b.
Proof.
  intros Ha Hb. unfold Bt. replace (a + (b + 1)) with (a + b + 1) by ring. rewrite !lgam_next by lra. replace (lgam true_special a + (lgam true_special b + ln b) - (lgam true_special (a + b) + ln (a + b))) with (ln b + - ln (a + b) + (lgam true_special a + lgam true_special b - lgam true_special (a + b))) by ring. rewrite !exp_plus, exp_Ropp, !exp_ln by lra. reflexivity.
Qed.
Lemma Bt_comm a b : Bt a b = Bt b a.
Proof. unfold Bt. f_equal. rewrite (Rplus_comm a b). ring. Qed.
Lemma Bt_a a b : 0 < a -> 0 < b -> Bt (a + 1) b = a / (a + b) * Bt a b.
Proof. intros Ha Hb. rewrite Bt_comm, Bt_b, (Bt_comm b a) by lra. now rewrite (Rplus_comm b a). Qed.
Lemma near_nat a n : 0 < a -> near (kern a (INR (S n))) (Bt a (INR (S n))) (Bt a (INR (S n))).
Proof.
  intro Ha. induction n as [|n IH]; [change (INR 1) with 1; rewrite Bt_one by exact Ha; now apply near_one|]. assert (P := S_pos n). rewrite (S_INR (S n)). rewrite Bt_b by auto. now apply near_b.
Qed.
Lemma near_shift a b n lo hi : 0 < a -> 0 < b -> near (kern a (b + INR n)) lo hi -> near (kern a b) (lo * (Bt a b / Bt a (b + INR n))) (hi * (Bt a b / Bt a (b + INR n))).
Proof.
  intros Ha Hb. revert lo hi. induction n as [|n IH]; intros lo hi N.
  - cbn [INR] in *. rewrite Rplus_0_r in *. assert (P := Bt_pos a b). replace (Bt a b / Bt a b) with 1 by (field; lra). now rewrite !Rmult_1_r.
  - rewrite S_INR in *. rewrite <- Rplus_assoc in *. assert (Q := shift_pos b n Hb). apply near_b_back in N; [|exact Ha|exact Q]. apply IH in N. rewrite Bt_b by auto. assert (P := Bt_pos a (b + INR n)).
    replace (lo * (Bt a b / ((b + INR n) / (a + (b + INR n)) * Bt a (b + INR n)))) with ((a + (b + INR n)) / (b + INR n) * lo * (Bt a b / Bt a (b + INR n))) by (field; lra).
    replace (hi * (Bt a b / ((b + INR n) / (a + (b + INR n)) * Bt a (b + INR n)))) with ((a + (b + INR n)) / (b + INR n) * hi * (Bt a b / Bt a (b + INR n))) by (field; lra). exact N.
Qed.
Lemma kern_mono a b b' x : 0 < x < 1 -> b <= b' -> kern a b' x <= kern a b x.
Proof. intros H L. unfold kern. apply exp_le. assert (ln (1 - x) < 0) by (rewrite <- ln_1; apply ln_increasing; lra). nra. Qed.
Lemma near_between a b p q lo hi lo' hi' : p <= b <= q -> near (kern a p) lo hi -> near (kern a q) lo' hi' -> near (kern a b) lo' hi.
Proof.
  intros Hb N1 N2 eps He. destruct (N1 eps He) as [d1 [P1 H1]]. destruct (N2 eps He) as [d2 [P2 H2]]. exists (Rmin d1 d2). assert (M3 := Rmin_l d1 d2). assert (M4 := Rmin_r d1 d2). split; [split; [apply Rmin_pos; lra|lra]|]. intros u v Hu Hv. specialize (H1 u v ltac:(lra) ltac:(lra)). specialize (H2 u v ltac:(lra) ltac:(lra)). split.
  - apply Rlt_le_trans with (RInt (kern a q) u v); [lra|]. apply RInt_le; [lra|apply kern_int; lra|apply kern_int; lra|]. intros x Hx. apply kern_mono; lra.
  - apply Rle_lt_trans with (RInt (kern a p) u v); [|lra]. apply RInt_le; [lra|apply kern_int; lra|apply kern_int; lra|]. intros x Hx. apply kern_mono; lra.
Qed.
Definition gap (a z : R) : R := lgam true_special (a + z) - lgam true_special z.
Lemma gap_mono a y z : 0 < a -> 0 < y -> y <= z -> gap a y <= gap a z.
Proof.
  intros Ha Hy [L| ->]; [|lra]. unfold gap. destruct (MVT_cor2 (gap a) (fun t => psi true_special (a + t) - psi true_special t) y z L) as [c [E Hc]].
  - intros t Ht. apply is_derive_Reals. unfold gap. apply (is_derive_minus (fun t => lgam true_special (a + t)) (lgam true_special)); [|apply lgam_derive; lra]. rewrite <- (Rmult_1_l (psi true_special (a + t))). apply (is_derive_comp (lgam true_special) (fun t => a + t) t (psi true_special (a + t)) 1); [apply lgam_derive; lra|auto_derive; [trivial|ring]].
  - unfold gap in E. assert (M := psi_mono c (a + c) ltac:(lra) ltac:(lra)). nra.
Qed.
Lemma gap_next a z : 0 < a -> 0 < z -> gap a (z + 1) <= gap a z + a / z.
Proof.
  intros Ha Hz. unfold gap. replace (a + (z + 1)) with (a + z + 1) by ring. rewrite !lgam_next by lra. assert (ln (a + z) - ln z <= a / z); [|lra]. rewrite <- ln_div by lra. replace ((a + z) / z) with (1 + a / z) by (field; lra). apply ln_above. assert (0 < a / z) by (apply Rdiv_lt_0_compat; lra). lra.
Qed.
Lemma Bt_gap a z : Bt a z = exp (lgam true_special a - gap a z).
Proof. unfold Bt, gap. f_equal. ring. Qed.
Lemma Bt_ratio a b p : 0 < a -> 0 < p -> p <= b <= p + 1 -> Bt a p / Bt a b <= exp (a / p) /\ exp (- (a / p)) <= Bt a (p + 1) / Bt a b.
Proof.
  intros Ha Hp Hb. rewrite !Bt_gap. unfold Rdiv at 1 4. rewrite <- !exp_Ropp, <- !exp_plus. assert (G1 := gap_mono a p b Ha Hp (proj1 Hb)). assert (G2 := gap_mono a b (p + 1) Ha ltac:(lra) (proj2 Hb)). assert (G3 := gap_next a p Ha Hp). split; apply exp_le; lra.
Qed.
Lemma near_weaken f lo hi lo' hi' : lo' <= lo -> hi <= hi' -> near f lo hi -> near f lo' hi'.
Proof. intros A B N eps He. destruct (N eps He) as [d [P H]]. exists d. split; [exact P|]. intros u v Hu Hv. specialize (H u v Hu Hv). lra. Qed.
Lemma near_close f l : (forall e, 0 < e -> near f (l - e) (l + e)) -> near f l l.
Proof. intros H eps He. destruct (H (eps / 2) ltac:(lra) (eps / 2) ltac:(lra)) as [d [P N]]. exists d. split; [exact P|]. intros u v Hu Hv. specialize (N u v Hu Hv). lra. Qed.
Lemma exp_near1 e : 0 < e -> exists t, 0 < t /\ forall s, 0 <= s <= t -> exp s <= 1 + e /\ 1 - e <= exp (- s).
Proof.
  intro He. exists (ln (1 + e)). assert (L : 0 < ln (1 + e)) by (rewrite <- ln_1; apply ln_increasing; lra). split; [exact L|]. intros s Hs. split; [rewrite <- (exp_ln (1 + e)) by lra; apply exp_le; lra|]. assert (T := exp_ineq1_le (- s)). assert (U := ln_above e ltac:(lra)). lra.
Qed.
Lemma near_beta a b : 0 < a -> 0 < b -> near (kern a b) (Bt a b) (Bt a b).
Proof.
  intros Ha Hb. apply near_close. intros e He. assert (PB := Bt_pos a b). destruct (exp_near1 (e / Bt a b) ltac:(apply Rdiv_lt_0_compat; lra)) as [t [Ht HE]].
  (* the shift: n large; p the integer part of b + n *)
  destruct (nfloor_ex (a / t) ltac:(apply Rlt_le, Rdiv_lt_0_compat; lra)) as [m Hm]. set (n := S m). assert (Pn : a / t < INR n) by (unfold n; rewrite S_INR; lra). destruct (nfloor_ex (b + INR n) ltac:(assert (T := pos_INR n); lra)) as [k Hk].
  assert (Kn : (n <= k)%nat). { apply INR_le. apply Rnot_lt_le. intro C. apply INR_lt in C. assert (INR k + 1 <= INR n) by (rewrite <- S_INR; apply le_INR; lia). lra. } destruct k as [|k]; [unfold n in Kn; lia|]. set (p := INR (S k)) in *. assert (Pp : INR n <= p) by (apply le_INR; exact Kn). assert (P0 : 0 < p) by apply S_pos.
  assert (S1 : 0 <= a / p <= t). { split; [apply Rlt_le, Rdiv_lt_0_compat; lra|]. apply (Rmult_le_reg_r p); [exact P0|]. replace (a / p * p) with a by (field; lra). apply Rlt_le. apply (Rmult_lt_compat_l t) in Pn; [|exact Ht]. replace (t * (a / t)) with a in Pn by (field; lra). assert (t * INR n <= t * p) by (apply Rmult_le_compat_l; lra). lra. }
  destruct (HE _ S1) as [E1 E2]. destruct (Bt_ratio a (b + INR n) p Ha P0 ltac:(lra)) as [R1 R2].
  assert (N1 := near_nat a k Ha). fold p in N1. assert (N2 := near_nat a (S k) Ha). rewrite (S_INR (S k)) in N2. fold p in N2. assert (N := near_between a (b + INR n) p (p + 1) _ _ _ _ ltac:(lra) N1 N2). apply near_shift in N; auto. assert (PN := Bt_pos a (b + INR n)).
  apply (near_weaken _ _ _ (Bt a b - e) (Bt a b + e)) in N; [exact N| |].
  - replace (Bt a (p + 1) * (Bt a b / Bt a (b + INR n))) with (Bt a b * (Bt a (p + 1) / Bt a (b + INR n))) by (field; lra). assert (T : 1 - e / Bt a b <= Bt a (p + 1) / Bt a (b + INR n)) by lra. apply (Rmult_le_compat_l (Bt a b)) in T; [|lra]. replace (Bt a b * (1 - e / Bt a b)) with (Bt a b - e) in T by (field; lra). exact T.
  - replace (Bt a p * (Bt a b / Bt a (b + INR n))) with (Bt a b * (Bt a p / Bt a (b + INR n))) by (field; lra). assert (T : Bt a p / Bt a (b + INR n) <= 1 + e / Bt a b) by lra. apply (Rmult_le_compat_l (Bt a b)) in T; [|lra]. replace (Bt a b * (1 + e / Bt a b)) with (Bt a b + e) in T by (field; lra). exact T.
Qed.
Lemma near_total f l : (forall u v, 0 < u < 1 -> 0 < v < 1 -> ex_RInt f u v) -> near f l l -> total f l.
Proof.
  intros I N. unfold total, is_RInt_gen. intros P [e He]. destruct (N e (cond_pos e)) as [d [Pd H]]. apply (Filter_prod _ _ _ (fun u => 0 < u < d) (fun v => 1 - d < v < 1)).
  - exists (mkposreal d (proj1 Pd)). intros u Hu Pu. change (Rabs (u - 0) < d) in Hu. apply Rabs_lt_between in Hu. lra.
  - exists (mkposreal d (proj1 Pd)). intros v Hv Pv. change (Rabs (v - 1) < d) in Hv. apply Rabs_lt_between in Hv. lra.
  - intros u v Hu Hv. exists (RInt f u v). split; [apply (RInt_correct f u v), I; cbn; lra|]. apply He. change (Rabs (RInt f u v - l) < e). specialize (H u v Hu Hv). apply Rabs_def1; lra.
Qed.
