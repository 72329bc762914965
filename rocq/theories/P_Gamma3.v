(** Lemmas for the beta distribution: moments and the distribution function. *)
From Coquelicot Require Import Coquelicot.
From Coq Require Import Reals Lra Lia.
From Verif Require Import M_RBase M_Hyper M_AbsProbit M_Beta S_AbsProbit S_Gamma P_Gamma P_Gamma2 P_AbsProbit.
Local Open Scope R_scope.

Lemma near_add f g c d l k : (forall x, 0 < x < 1 -> continuous f x) -> (forall x, 0 < x < 1 -> continuous g x) -> near f l l -> near g k k -> near (fun x => c * f x + d * g x) (c * l + d * k) (c * l + d * k).
Proof.
  intros Cf Cg Nf Ng eps He. set (K := Rabs c + Rabs d + 1). assert (C0 := Rabs_pos c). assert (D0 := Rabs_pos d). assert (E0 : 0 < eps / K) by (apply Rdiv_lt_0_compat; unfold K; lra). destruct (Nf _ E0) as [d1 [P1 H1]]. destruct (Ng _ E0) as [d2 [P2 H2]]. exists (Rmin d1 d2). assert (M3 := Rmin_l d1 d2). assert (M4 := Rmin_r d1 d2). split; [split; [apply Rmin_pos; lra|lra]|]. intros u v Hu Hv.
  specialize (H1 u v ltac:(lra) ltac:(lra)). specialize (H2 u v ltac:(lra) ltac:(lra)). assert (L := int_lin f g c d u v (cont_int f u v Cf ltac:(lra) ltac:(lra)) (cont_int g u v Cg ltac:(lra) ltac:(lra))). apply (is_RInt_unique (V := R_CompleteNormedModule)) in L. rewrite L.
  assert (A1 : Rabs (c * (RInt f u v - l)) <= Rabs c * (eps / K)) by (rewrite Rabs_mult; apply Rmult_le_compat_l; [lra|]; apply Rlt_le, Rabs_def1; lra). assert (A2 : Rabs (d * (RInt g u v - k)) <= Rabs d * (eps / K)) by (rewrite Rabs_mult; apply Rmult_le_compat_l; [lra|]; apply Rlt_le, Rabs_def1; lra).
  assert (E : eps = (Rabs c + Rabs d) * (eps / K) + eps / K) by (unfold K; field; fold K; unfold K; lra). apply Rabs_le_between in A1, A2. lra.
Qed.
Lemma near_ext f g l k : (forall x, 0 < x < 1 -> f x = g x) -> near f l k -> near g l k.
Proof.
  intros E N eps He. destruct (N eps He) as [d [P H]]. exists d. split; [exact P|]. intros u v Hu Hv. specialize (H u v Hu Hv). rewrite (RInt_ext f g u v) in H; [exact H|]. intros x Hx. apply E. unfold Rmin, Rmax in Hx. destruct (Rle_dec u v); lra.
Qed.
Lemma kern_scal_cont c a b x : 0 < x < 1 -> continuous (fun t => c * kern a b t) x.
Proof. intro H. apply (ex_derive_continuous (fun t => c * kern a b t) x). unfold kern. auto_derive. lra. Qed.
(** ---- the density ---- *)
Definition dens (a b x : R) : R := exp (beta_logpdf true_special x a b).
Lemma dens_kern a b x : dens a b x = / Bt a b * kern a b x.
Proof. unfold dens, beta_logpdf, Bt, kern. rewrite <- exp_Ropp, <- exp_plus. f_equal. ring. Qed.
Lemma dens_pos a b x : 0 < dens a b x.
Proof. apply exp_pos. Qed.
Lemma dens_cont a b x : 0 < x < 1 -> continuous (dens a b) x.
Proof. intro H. apply (continuous_ext (fun t => / Bt a b * kern a b t)); [intro t; symmetry; apply dens_kern|]. now apply kern_scal_cont. Qed.
Lemma near_scal f c l : (forall x, 0 < x < 1 -> continuous f x) -> near f l l -> near (fun x => c * f x) (c * l) (c * l).
Proof. intros C N. assert (T := near_add f f c 0 l l C C N N). replace (c * l + 0 * l) with (c * l) in T by ring. apply (near_ext (fun x => c * f x + 0 * f x)); [intros; ring|exact T]. Qed.
Lemma near_dens a b : 0 < a -> 0 < b -> near (dens a b) 1 1.
Proof.
  intros Ha Hb. assert (P := Bt_pos a b). apply (near_ext (fun x => / Bt a b * kern a b x)); [intros; symmetry; apply dens_kern|]. replace 1 with (/ Bt a b * Bt a b) by (field; lra). apply near_scal; [intros; now apply kern_cont|now apply near_beta].
Qed.
Lemma near_first a b : 0 < a -> 0 < b -> near (fun x => x * dens a b x) (a / (a + b)) (a / (a + b)).
Proof.
  intros Ha Hb. assert (P := Bt_pos a b). apply (near_ext (fun x => / Bt a b * kern (a + 1) b x)); [intros x Hx; rewrite dens_kern, kern_left by exact Hx; ring|]. replace (a / (a + b)) with (/ Bt a b * Bt (a + 1) b) by (rewrite Bt_a by auto; field; lra). apply near_scal; [intros; now apply kern_cont|apply near_beta; lra].
Qed.
Lemma near_second a b : 0 < a -> 0 < b -> near (fun x => x ^ 2 * dens a b x) (a * (a + 1) / ((a + b) * (a + b + 1))) (a * (a + 1) / ((a + b) * (a + b + 1))).
Proof.
  intros Ha Hb. assert (P := Bt_pos a b). apply (near_ext (fun x => / Bt a b * kern (a + 1 + 1) b x)); [intros x Hx; rewrite dens_kern, !kern_left by exact Hx; ring|]. replace (a * (a + 1) / ((a + b) * (a + b + 1))) with (/ Bt a b * Bt (a + 1 + 1) b) by (rewrite !Bt_a by lra; field; lra). apply near_scal; [intros; now apply kern_cont|apply near_beta; lra].
Qed.
Lemma poly_dens_cont (p : R -> R) a b x : (forall y, continuous p y) -> 0 < x < 1 -> continuous (fun t => p t * dens a b t) x.
Proof. intros C H. apply (continuous_mult (K := R_AbsRing) p (dens a b)); [apply C|now apply dens_cont]. Qed.
Lemma near_variance a b : 0 < a -> 0 < b -> let m := a / (a + b) in near (fun x => (x - m) ^ 2 * dens a b x) (m * (1 - m) / (a + b + 1)) (m * (1 - m) / (a + b + 1)).
Proof.
  intros Ha Hb m. assert (C1 : forall x, 0 < x < 1 -> continuous (fun t => t * dens a b t) x) by (intros; apply (poly_dens_cont (fun t => t)); auto; intro; apply continuous_id). assert (C2 : forall x, 0 < x < 1 -> continuous (fun t => t ^ 2 * dens a b t) x) by (intros; apply (poly_dens_cont (fun t => t ^ 2)); auto; intro y; apply (ex_derive_continuous (fun t => t ^ 2)); auto_derive; trivial).
  assert (N1 := near_add _ _ 1 (- 2 * m) _ _ C2 C1 (near_second a b Ha Hb) (near_first a b Ha Hb)). assert (C3 : forall x, 0 < x < 1 -> continuous (fun t => 1 * (t ^ 2 * dens a b t) + - 2 * m * (t * dens a b t)) x).
  { intros x Hx. apply (continuous_plus (fun t => 1 * (t ^ 2 * dens a b t)) (fun t => - 2 * m * (t * dens a b t))); [apply (continuous_scal_r 1 (fun t => t ^ 2 * dens a b t)); now apply C2|apply (continuous_scal_r (- 2 * m) (fun t => t * dens a b t)); now apply C1]. }
  assert (N2 := near_add _ _ 1 (m ^ 2) _ _ C3 (dens_cont a b) N1 (near_dens a b Ha Hb)). cbn beta in N2. set (w := m * (1 - m) / (a + b + 1)). replace (1 * (1 * (a * (a + 1) / ((a + b) * (a + b + 1))) + - 2 * m * (a / (a + b))) + m ^ 2 * 1) with w in N2 by (unfold w, m; field; lra).
  apply (near_ext _ (fun x => (x - m) ^ 2 * dens a b x)) in N2; [exact N2|]. intros x Hx. ring.
Qed.
Lemma total_dens a b : 0 < a -> 0 < b -> total (dens a b) 1.
Proof. intros Ha Hb. apply near_total; [intros; apply cont_int; auto; intros; now apply dens_cont|now apply near_dens]. Qed.
Lemma total_first a b : 0 < a -> 0 < b -> total (fun x => x * dens a b x) (a / (a + b)).
Proof. intros Ha Hb. apply near_total; [|now apply near_first]. intros. apply cont_int; auto. intros. apply (poly_dens_cont (fun t => t)); auto. intro. apply continuous_id. Qed.
Lemma total_variance a b : 0 < a -> 0 < b -> let m := a / (a + b) in total (fun x => (x - m) ^ 2 * dens a b x) (m * (1 - m) / (a + b + 1)).
Proof.
  intros Ha Hb m. apply near_total; [|now apply near_variance]. intros. apply cont_int; auto. intros. apply (poly_dens_cont (fun t => (t - m) ^ 2)); auto. intro y. apply (ex_derive_continuous (fun t => (t - m) ^ 2)). auto_derive. trivial.
Qed.
(** ---- distribution functions of positive continuous densities ---- *)
Section Cdf.
Variable f : R -> R.
Hypotheses (Cf : forall x, 0 < x < 1 -> continuous f x) (Pf : forall x, 0 < x < 1 -> 0 < f x) (Nf : near f 1 1).
Lemma If u v : 0 < u < 1 -> 0 < v < 1 -> ex_RInt f u v.
Proof. now apply cont_int. Qed.
Lemma int_pos u v : 0 < u -> u < v -> v < 1 -> 0 < RInt f u v.
Proof. intros Hu Huv Hv. apply RInt_gt_0; [exact Huv| |]; intros; [apply Pf|apply Cf]; lra. Qed.
Lemma chasles u v w : 0 < u < 1 -> 0 < v < 1 -> 0 < w < 1 -> RInt f u w = RInt f u v + RInt f v w.
Proof. intros Hu Hv Hw. symmetry. apply (RInt_Chasles (V := R_CompleteNormedModule) f u v w); now apply If. Qed.
Lemma int_below1 u v : 0 < u -> u < v -> v < 1 -> RInt f u v < 1.
Proof.
  intros Hu Huv Hv. set (u' := u / 2). assert (X := int_pos u' u ltac:(unfold u'; lra) ltac:(unfold u'; lra) ltac:(lra)). destruct (Nf _ X) as [d [P H]]. set (p := Rmin u' (d / 2)). set (q := Rmax v (1 - d / 2)). assert (M1 : p <= u') by apply Rmin_l. assert (M2 : p <= d / 2) by apply Rmin_r. assert (M3 : v <= q) by apply Rmax_l. assert (M4 : 1 - d / 2 <= q) by apply Rmax_r. assert (Q1 : q < 1) by (apply Rmax_lub_lt; lra). assert (P0 : 0 < p) by (apply Rmin_pos; unfold u'; lra). specialize (H p q ltac:(lra) ltac:(lra)).
  assert (U' : u' < u) by (unfold u'; lra). rewrite (chasles p u' q) in H by lra. rewrite (chasles u' u q) in H by lra. rewrite (chasles u v q) in H by lra.
  assert (0 <= RInt f p u') by (destruct M1 as [M1| ->]; [left; apply int_pos; lra|rewrite RInt_point; right; reflexivity]). assert (0 <= RInt f v q) by (destruct M3 as [M3| <-]; [left; apply int_pos; lra|rewrite RInt_point; right; reflexivity]). lra.
Qed.
(** the mass below 1/2 *)
Lemma left_limit : exists c, forall eps, 0 < eps -> exists d, 0 < d <= 1 / 2 /\ forall u, 0 < u < d -> c - eps < RInt f u (1 / 2) <= c.
Proof.
  destruct (completeness (fun m => exists u, 0 < u < 1 / 2 /\ m = RInt f u (1 / 2))) as [c [U L]].
  - exists 1. intros m [u [Hu ->]]. left. apply int_below1; lra.
  - exists (RInt f (1 / 4) (1 / 2)), (1 / 4). split; [lra|reflexivity].
  - exists c. intros eps He. assert (X : exists u, 0 < u < 1 / 2 /\ c - eps < RInt f u (1 / 2)).
    { destruct (Classical_Prop.classic (exists u, 0 < u < 1 / 2 /\ c - eps < RInt f u (1 / 2))) as [E|E]; [exact E|]. exfalso. assert (T := L (c - eps)). assert (c <= c - eps); [|lra]. apply T. intros m [u [Hu ->]]. apply Rnot_lt_le. intro C. apply E. now exists u. }
    destruct X as [w [Hw Ew]]. exists w. split; [lra|]. intros u Hu. split; [|apply U; exists u; split; [lra|reflexivity]]. rewrite (chasles u w (1 / 2)) by lra. assert (T := int_pos u w ltac:(lra) ltac:(lra) ltac:(lra)). lra.
Qed.
Lemma cdf_spec : exists c, (forall y, 0 < y < 1 -> is_RInt_gen f (at_right 0) (at_point y) (c y)) /\ (forall y z, 0 < y < 1 -> 0 < z < 1 -> c z - c y = RInt f y z) /\ (forall y, 0 < y < 1 -> 0 < c y < 1) /\
  (forall eps, 0 < eps -> exists d, 0 < d <= 1 / 2 /\ (forall y, 0 < y < d -> c y < eps) /\ forall y, 1 - d < y < 1 -> 1 - eps < c y) /\ (forall y eps, 0 < y < 1 -> 0 < eps -> exists d, 0 < d < y /\ forall u, 0 < u < d -> c y - eps < RInt f u y < c y + eps).
Proof.
  destruct left_limit as [c0 L]. exists (fun y => c0 + RInt f (1 / 2) y).
  assert (D : forall y z, 0 < y < 1 -> 0 < z < 1 -> c0 + RInt f (1 / 2) z - (c0 + RInt f (1 / 2) y) = RInt f y z) by (intros y z Hy Hz; rewrite (chasles (1 / 2) y z) by lra; ring).
  assert (B : forall y u, 0 < y < 1 -> 0 < u < 1 -> RInt f u y = RInt f u (1 / 2) + RInt f (1 / 2) y) by (intros; apply chasles; lra).
  assert (Ap : forall y eps, 0 < y < 1 -> 0 < eps -> exists d, 0 < d < y /\ forall u, 0 < u < d -> c0 + RInt f (1 / 2) y - eps < RInt f u y < c0 + RInt f (1 / 2) y + eps).
  { intros y eps Hy He. destruct (L eps He) as [d [P H]]. exists (Rmin d (y / 2)). assert (M1 := Rmin_l d (y / 2)). assert (M2 := Rmin_r d (y / 2)). split; [split; [apply Rmin_pos; lra|lra]|]. intros u Hu. rewrite (B y u) by lra. specialize (H u ltac:(lra)). lra. }
  assert (Po : forall y, 0 < y < 1 -> 0 < c0 + RInt f (1 / 2) y).
  { intros y Hy. assert (T := int_pos (y / 2) y ltac:(lra) ltac:(lra) ltac:(lra)). destruct (Ap y (RInt f (y / 2) y / 2) Hy ltac:(lra)) as [d [P H]]. set (u := Rmin (d / 2) (y / 4)). assert (M1 : u <= d / 2) by apply Rmin_l. assert (M2 : u <= y / 4) by apply Rmin_r. assert (U0 : 0 < u) by (apply Rmin_pos; lra). specialize (H u ltac:(lra)). rewrite (chasles u (y / 2) y) in H by lra. assert (X := int_pos u (y / 2) U0 ltac:(lra) ltac:(lra)). lra. }
  assert (Tail : forall y eps, 0 < y < 1 -> 0 < eps -> exists d, 0 < d <= 1 / 2 /\ d < 1 - y /\ forall v, 1 - d < v < 1 -> 1 - (c0 + RInt f (1 / 2) y) - eps < RInt f y v < 1 - (c0 + RInt f (1 / 2) y) + eps).
  { intros y eps Hy He. destruct (Nf (eps / 2) ltac:(lra)) as [d1 [P1 H1]]. destruct (Ap y (eps / 2) Hy ltac:(lra)) as [d2 [P2 H2]]. exists (Rmin d1 ((1 - y) / 2)). assert (M1 := Rmin_l d1 ((1 - y) / 2)). assert (M2 := Rmin_r d1 ((1 - y) / 2)). split; [split; [apply Rmin_pos; lra|lra]|]. split; [lra|]. intros v Hv. set (u := Rmin d1 d2 / 2). assert (M3 := Rmin_l d1 d2). assert (M4 := Rmin_r d1 d2). assert (U0 : 0 < Rmin d1 d2) by (apply Rmin_pos; lra).
    specialize (H1 u v ltac:(unfold u; lra) ltac:(lra)). specialize (H2 u ltac:(unfold u; lra)). rewrite (chasles u y v) in H1 by (unfold u; lra). lra. }
  assert (Lo : forall y, 0 < y < 1 -> c0 + RInt f (1 / 2) y < 1).
  { intros y Hy. set (z := (y + 1) / 2). assert (T := int_pos y z ltac:(lra) ltac:(unfold z; lra) ltac:(unfold z; lra)). destruct (Tail y (RInt f y z / 2) Hy ltac:(lra)) as [d [P [P' H]]]. set (v := Rmax (1 - d / 2) ((z + 1) / 2)). assert (M1 : 1 - d / 2 <= v) by apply Rmax_l. assert (M2 : (z + 1) / 2 <= v) by apply Rmax_r. assert (V1 : v < 1) by (apply Rmax_lub_lt; unfold z; lra). specialize (H v ltac:(lra)). rewrite (chasles y z v) in H by (unfold z in *; lra). assert (X := int_pos z v ltac:(unfold z; lra) ltac:(unfold z in *; lra) V1). lra. }
  split; [|split; [exact D|split; [split; auto|split; [|exact Ap]]]].
  - intros y Hy P [e He]. destruct (Ap y e Hy (cond_pos e)) as [d [Pd H]]. apply (Filter_prod _ _ _ (fun u => 0 < u < d) (fun v => v = y)).
    + exists (mkposreal d (proj1 Pd)). intros u Hu Pu. change (Rabs (u - 0) < d) in Hu. apply Rabs_lt_between in Hu. lra.
    + reflexivity.
    + intros u v Hu ->. exists (RInt f u y). split; [apply (RInt_correct (V := R_CompleteNormedModule) f u y), If; cbn; lra|]. apply He. change (Rabs (RInt f u y - (c0 + RInt f (1 / 2) y)) < e). specialize (H u Hu). apply Rabs_def1; lra.
  - intros eps He. destruct (Nf (eps / 2) ltac:(lra)) as [d [P H]]. exists d. split; [exact P|]. split.
    + intros y Hy. destruct (Tail y (eps / 2) ltac:(lra) ltac:(lra)) as [d' [P' [P'' T]]]. set (v := 1 - Rmin d d' / 2). assert (M1 := Rmin_l d d'). assert (M2 := Rmin_r d d'). assert (M0 : 0 < Rmin d d') by (apply Rmin_pos; lra). specialize (H y v ltac:(lra) ltac:(unfold v; lra)). specialize (T v ltac:(unfold v; lra)). lra.
    + intros y Hy. destruct (Ap y (eps / 2) ltac:(lra) ltac:(lra)) as [d' [P' T]]. set (u := Rmin d d' / 2). assert (M1 := Rmin_l d d'). assert (M2 := Rmin_r d d'). assert (M0 : 0 < Rmin d d') by (apply Rmin_pos; lra). specialize (H u y ltac:(unfold u; lra) ltac:(lra)). specialize (T u ltac:(unfold u; lra)). lra.
Qed.
End Cdf.
(** ---- the distribution function of the model ---- *)
Lemma cdf_inside a b : 0 < a -> 0 < b -> (forall y z, 0 < y < 1 -> 0 < z < 1 -> beta_cdf true_special z a b - beta_cdf true_special y a b = RInt (dens a b) y z) /\ (forall y, 0 < y < 1 -> 0 < beta_cdf true_special y a b < 1) /\
  (forall y, 0 < y < 1 -> is_RInt_gen (dens a b) (at_right 0) (at_point y) (beta_cdf true_special y a b)) /\
  (forall eps, 0 < eps -> exists d, 0 < d <= 1 / 2 /\ (forall y, 0 < y < d -> beta_cdf true_special y a b < eps) /\ forall y, 1 - d < y < 1 -> 1 - eps < beta_cdf true_special y a b).
Proof.
  intros Ha Hb. destruct (cdf_spec (dens a b) (dens_cont a b) (fun x _ => dens_pos a b x) (near_dens a b Ha Hb)) as [c [C1 [C2 [C3 [C4 _]]]]].
  assert (E : forall y, 0 < y < 1 -> beta_cdf true_special y a b = c y). { intros y Hy. unfold beta_cdf. destruct (Rle_dec y 0); [lra|]. destruct (Rle_dec 1 y); [lra|]. apply (is_RInt_gen_unique (V := R_CompleteNormedModule) (Fa := at_right 0) (Fb := at_point y)). exact (C1 y Hy). }
  split; [|split; [|split]].
  - intros y z Hy Hz. rewrite !E by auto. now apply C2.
  - intros y Hy. rewrite E by auto. now apply C3.
  - intros y Hy. rewrite E by auto. now apply C1.
  - intros eps He. destruct (C4 eps He) as [d [P [H1 H2]]]. exists d. split; [exact P|]. split; intros y Hy; rewrite E by lra; auto.
Qed.
Lemma cdf_out a b y : (y <= 0 -> beta_cdf true_special y a b = 0) /\ (1 <= y -> beta_cdf true_special y a b = 1).
Proof. unfold beta_cdf. split; intro H; destruct (Rle_dec y 0); try lra; destruct (Rle_dec 1 y); lra. Qed.
Lemma cdf_range a b y : 0 < a -> 0 < b -> 0 <= beta_cdf true_special y a b <= 1.
Proof.
  intros Ha Hb. destruct (Rle_dec y 0) as [H|H]; [rewrite (proj1 (cdf_out a b y) H); lra|]. destruct (Rle_dec 1 y) as [H'|H']; [rewrite (proj2 (cdf_out a b y) H'); lra|]. destruct (cdf_inside a b Ha Hb) as [_ [T _]]. specialize (T y ltac:(lra)). lra.
Qed.
Lemma cdf_strict a b y z : 0 < a -> 0 < b -> 0 <= y -> y < z -> z <= 1 -> beta_cdf true_special y a b < beta_cdf true_special z a b.
Proof.
  intros Ha Hb Hy Hyz Hz. destruct (cdf_inside a b Ha Hb) as [D [T _]]. destruct Hy as [Hy| <-].
  - destruct Hz as [Hz| ->].
    + assert (E := D y z ltac:(lra) ltac:(lra)). assert (P := int_pos (dens a b) (dens_cont a b) (fun x _ => dens_pos a b x) y z Hy Hyz Hz). lra.
    + rewrite (proj2 (cdf_out a b 1)) by lra. apply T. lra.
  - rewrite (proj1 (cdf_out a b 0)) by lra. destruct Hz as [Hz| ->]; [apply T; lra|]. rewrite (proj2 (cdf_out a b 1)) by lra. lra.
Qed.
Lemma cdf_mono a b y z : 0 < a -> 0 < b -> y <= z -> beta_cdf true_special y a b <= beta_cdf true_special z a b.
Proof.
  intros Ha Hb H. destruct (Rle_dec y 0) as [A|A]; [rewrite (proj1 (cdf_out a b y) A); apply cdf_range; auto|]. destruct (Rle_dec 1 z) as [B|B]; [rewrite (proj2 (cdf_out a b z) B); apply cdf_range; auto|]. destruct H as [H| ->]; [left; apply cdf_strict; lra|lra].
Qed.
Lemma cdf_derive a b y : 0 < a -> 0 < b -> 0 < y < 1 -> is_derive (fun t => beta_cdf true_special t a b) y (dens a b y).
Proof.
  intros Ha Hb Hy. destruct (cdf_inside a b Ha Hb) as [D _]. set (e := Rmin y (1 - y)). assert (E0 : 0 < e) by (apply Rmin_pos; lra). assert (M1 : e <= y) by apply Rmin_l. assert (M2 : e <= 1 - y) by apply Rmin_r.
  assert (Loc : forall t, Rabs (t - y) < e -> 0 < t < 1) by (intros t Ht; apply Rabs_lt_between in Ht; lra).
  apply (is_derive_ext_loc (fun t => beta_cdf true_special y a b + RInt (dens a b) y t)); [exists (mkposreal e E0); intros t Ht; rewrite <- (D y t Hy (Loc t Ht)); match goal with |- @eq _ ?p ?q => change (@eq R p q) end; ring|].
  rewrite <- (Rplus_0_l (dens a b y)). apply (is_derive_plus (fun _ => beta_cdf true_special y a b) (fun t => RInt (dens a b) y t)); [apply (is_derive_const (beta_cdf true_special y a b) y)|].
  apply (is_derive_RInt (dens a b) (fun t => RInt (dens a b) y t) y y); [|now apply dens_cont]. exists (mkposreal e E0). intros t Ht. apply (RInt_correct (V := R_CompleteNormedModule)). apply cont_int; auto. intros; now apply dens_cont.
Qed.
Lemma cdf_edges a b eps : 0 < a -> 0 < b -> 0 < eps -> exists d, 0 < d /\ (forall y, y < d -> beta_cdf true_special y a b < eps) /\ forall y, 1 - d < y -> 1 - eps < beta_cdf true_special y a b.
Proof.
  intros Ha Hb He. destruct (cdf_inside a b Ha Hb) as [_ [_ [_ T]]]. destruct (T eps He) as [d [P [H1 H2]]]. exists d. split; [lra|]. split; intros y Hy.
  - destruct (Rle_dec y 0) as [A|A]; [rewrite (proj1 (cdf_out a b y) A); lra|]. apply H1. lra.
  - destruct (Rle_dec 1 y) as [A|A]; [rewrite (proj2 (cdf_out a b y) A); lra|]. apply H2. lra.
Qed.
(** larger parameters with the same sum move the mass to the right *)
Lemma dens_ratio a1 a2 v : exists D, forall x, 0 < x < 1 -> dens a2 (v - a2) x = dens a1 (v - a1) x * exp (D + (a2 - a1) * (ln x - ln (1 - x))).
Proof.
  exists (ln (Bt a1 (v - a1)) - ln (Bt a2 (v - a2))). intros x Hx. rewrite !dens_kern. assert (P1 := Bt_pos a1 (v - a1)). assert (P2 := Bt_pos a2 (v - a2)).
  replace (ln (Bt a1 (v - a1)) - ln (Bt a2 (v - a2)) + (a2 - a1) * (ln x - ln (1 - x))) with (ln (Bt a1 (v - a1)) + - ln (Bt a2 (v - a2)) + (a2 - a1) * (ln x - ln (1 - x))) by ring. rewrite !exp_plus, exp_Ropp, !exp_ln by auto.
  replace (/ Bt a1 (v - a1) * kern a1 (v - a1) x * (Bt a1 (v - a1) * / Bt a2 (v - a2) * exp ((a2 - a1) * (ln x - ln (1 - x))))) with (/ Bt a2 (v - a2) * (kern a1 (v - a1) x * exp ((a2 - a1) * (ln x - ln (1 - x))))) by (field; lra). f_equal. unfold kern. rewrite <- exp_plus. f_equal. ring.
Qed.
Lemma logit_mono x y : 0 < x -> x < y -> y < 1 -> ln x - ln (1 - x) < ln y - ln (1 - y).
Proof. intros. assert (ln x < ln y) by (apply ln_increasing; lra). assert (ln (1 - y) < ln (1 - x)) by (apply ln_increasing; lra). lra. Qed.
Lemma cdf_dominance a1 a2 v y : 0 < a1 -> a1 < a2 -> a2 < v -> 0 < y < 1 -> beta_cdf true_special y a2 (v - a2) < beta_cdf true_special y a1 (v - a1).
Proof.
  intros H1 H12 H2 Hy. destruct (cdf_inside a1 (v - a1) H1 ltac:(lra)) as [D1 [T1 [_ L1]]]. destruct (cdf_inside a2 (v - a2) ltac:(lra) ltac:(lra)) as [D2 [T2 [_ L2]]]. destruct (dens_ratio a1 a2 v) as [D R].
  set (f1 := dens a1 (v - a1)) in *. set (f2 := dens a2 (v - a2)) in *. assert (P1 : forall x, 0 < f1 x) by (intro; apply dens_pos). set (g := fun x => D + (a2 - a1) * (ln x - ln (1 - x))).
  assert (G : forall s t, 0 < s -> s < t -> t < 1 -> g s < g t) by (intros s t A B C; unfold g; assert (T := logit_mono s t A B C); nra).
  assert (I1 : forall s t, 0 < s < 1 -> 0 < t < 1 -> ex_RInt f1 s t) by (intros; apply cont_int; auto; intros; now apply dens_cont). assert (I2 : forall s t, 0 < s < 1 -> 0 < t < 1 -> ex_RInt f2 s t) by (intros; apply cont_int; auto; intros; now apply dens_cont).
  assert (Ch1 := chasles f1 (dens_cont a1 (v - a1))). assert (Ch2 := chasles f2 (dens_cont a2 (v - a2))).
  destruct (Rle_dec (g y) 0) as [Gy|Gy].
  - assert (Lt : forall x, 0 < x < y -> f2 x < f1 x). { intros x Hx. rewrite R by lra. assert (T := G x y ltac:(lra) ltac:(lra) ltac:(lra)). assert (E : exp (g x) < 1) by (rewrite <- exp_0; apply exp_increasing; lra). unfold g in E. assert (X := P1 x). nra. }
    assert (S0 : RInt f2 (y / 4) (y / 2) < RInt f1 (y / 4) (y / 2)) by (apply RInt_lt; [lra|intros; apply dens_cont; lra|intros; apply dens_cont; lra|intros; apply Lt; lra]). set (m := RInt f1 (y / 4) (y / 2) - RInt f2 (y / 4) (y / 2)).
    destruct (L2 m ltac:(unfold m; lra)) as [d [P [Hd _]]]. set (u := Rmin d (y / 4) / 2). assert (M1 := Rmin_l d (y / 4)). assert (M2 := Rmin_r d (y / 4)). assert (M0 : 0 < Rmin d (y / 4)) by (apply Rmin_pos; lra). specialize (Hd u ltac:(unfold u; lra)).
    assert (E1 := D1 u y ltac:(unfold u; lra) Hy). assert (E2 := D2 u y ltac:(unfold u; lra) Hy). rewrite (Ch1 u (y / 4) y), (Ch1 (y / 4) (y / 2) y) in E1 by (unfold u; lra). rewrite (Ch2 u (y / 4) y), (Ch2 (y / 4) (y / 2) y) in E2 by (unfold u; lra).
    assert (A1 : RInt f2 u (y / 4) <= RInt f1 u (y / 4)) by (apply RInt_le; [unfold u; lra|apply I2; unfold u; lra|apply I1; unfold u; lra|intros x Hx; left; apply Lt; unfold u in *; lra]). assert (A2 : RInt f2 (y / 2) y <= RInt f1 (y / 2) y) by (apply RInt_le; [lra|apply I2; lra|apply I1; lra|intros x Hx; left; apply Lt; lra]).
    assert (T := T1 u ltac:(unfold u; lra)). unfold m in Hd. lra.
  - assert (Lt : forall x, y < x < 1 -> f1 x < f2 x). { intros x Hx. rewrite R by lra. assert (T := G y x ltac:(lra) ltac:(lra) ltac:(lra)). assert (E : 1 < exp (g x)) by (rewrite <- exp_0; apply exp_increasing; lra). unfold g in E. assert (X := P1 x). nra. }
    set (p := y + (1 - y) / 4). set (q := y + (1 - y) / 2). assert (Hp : y < p /\ p < q /\ q < 1) by (unfold p, q; lra). assert (S0 : RInt f1 p q < RInt f2 p q) by (apply RInt_lt; [lra|intros; apply dens_cont; lra|intros; apply dens_cont; lra|intros; apply Lt; lra]). set (m := RInt f2 p q - RInt f1 p q).
    destruct (L1 m ltac:(unfold m; lra)) as [d [P [_ Hd]]]. set (w := 1 - Rmin d (1 - q) / 2). assert (M1 := Rmin_l d (1 - q)). assert (M2 := Rmin_r d (1 - q)). assert (M0 : 0 < Rmin d (1 - q)) by (apply Rmin_pos; lra). assert (W : q < w < 1 /\ 1 - d < w) by (unfold w; lra). specialize (Hd w ltac:(lra)).
    assert (E1 := D1 y w Hy ltac:(lra)). assert (E2 := D2 y w Hy ltac:(lra)). rewrite (Ch1 y p w), (Ch1 p q w) in E1 by lra. rewrite (Ch2 y p w), (Ch2 p q w) in E2 by lra.
    assert (A1 : RInt f1 y p <= RInt f2 y p) by (apply RInt_le; [lra|apply I1; lra|apply I2; lra|intros x Hx; left; apply Lt; lra]). assert (A2 : RInt f1 q w <= RInt f2 q w) by (apply RInt_le; [lra|apply I1; lra|apply I2; lra|intros x Hx; left; apply Lt; lra]).
    assert (T := T2 w ltac:(lra)). unfold m in Hd. lra.
Qed.
(** ---- the rating probit ---- *)
Lemma rating_total a eps F i : 0 < a_v a -> 0 < eps < 1 / 2 -> total (fun x => exp (abs_py true_special a eps F (x, i))) 1.
Proof. intros Hv He. destruct (beta_params a eps (F i) Hv He) as [A [B _]]. exact (total_dens _ _ A B). Qed.
Lemma rating_mean a eps F i : 0 < a_v a -> 0 < eps < 1 / 2 -> total (fun x => x * exp (abs_py true_special a eps F (x, i))) (mean_link a eps (F i)).
Proof. intros Hv He. destruct (beta_params a eps (F i) Hv He) as [A [B [_ E]]]. rewrite <- E. exact (total_first _ _ A B). Qed.
Lemma rating_variance a eps F i : 0 < a_v a -> 0 < eps < 1 / 2 -> let m := mean_link a eps (F i) in total (fun x => (x - m) ^ 2 * exp (abs_py true_special a eps F (x, i))) (m * (1 - m) / (a_v a + 1)).
Proof. intros Hv He m. destruct (beta_params a eps (F i) Hv He) as [A [B [S E]]]. unfold m. rewrite <- E, <- S. rewrite S at 1. rewrite <- S at 1. exact (total_variance _ _ A B). Qed.
Lemma rating_cdf a eps f : 0 < a_v a -> 0 < eps < 1 / 2 -> (forall y, y <= 0 -> abs_cdf true_special a eps y f = 0) /\ (forall y, 1 <= y -> abs_cdf true_special a eps y f = 1) /\
  (forall y z, 0 <= y -> y < z -> z <= 1 -> abs_cdf true_special a eps y f < abs_cdf true_special a eps z f) /\ (forall y z, y <= z -> abs_cdf true_special a eps y f <= abs_cdf true_special a eps z f) /\
  forall e, 0 < e -> exists d, 0 < d /\ (forall y, y < d -> abs_cdf true_special a eps y f < e) /\ forall y, 1 - d < y -> 1 - e < abs_cdf true_special a eps y f.
Proof.
  intros Hv He. destruct (beta_params a eps f Hv He) as [A [B _]]. unfold abs_cdf. split; [intros; now apply cdf_out|]. split; [intros; now apply cdf_out|]. split; [intros; now apply cdf_strict|]. split; [intros; now apply cdf_mono|]. intros e H. now apply cdf_edges.
Qed.
Lemma rating_cdf_density a eps F i y : 0 < a_v a -> 0 < eps < 1 / 2 -> 0 < y < 1 -> is_derive (fun t => abs_cdf true_special a eps t (F i)) y (exp (abs_py true_special a eps F (y, i))).
Proof. intros Hv He Hy. destruct (beta_params a eps (F i) Hv He) as [A [B _]]. exact (cdf_derive _ _ y A B Hy). Qed.
Lemma rating_dominance a eps f g y : 0 < a_v a -> 0 < a_sigma a -> 0 < eps < 1 / 2 -> f <= g -> abs_cdf true_special a eps y g <= abs_cdf true_special a eps y f.
Proof.
  intros Hv Hs He H. destruct (beta_params a eps f Hv He) as [A1 [B1 [S1 _]]]. destruct (beta_params a eps g Hv He) as [A2 [B2 [S2 _]]]. unfold abs_cdf.
  destruct (Rle_dec y 0) as [Y|Y]; [rewrite !(proj1 (cdf_out _ _ y) Y); lra|]. destruct (Rle_dec 1 y) as [Z|Z]; [rewrite !(proj2 (cdf_out _ _ y) Z); lra|].
  destruct (mean_link_le a eps f g Hs H) as [M|M]; [|right; unfold beta, alpha; now rewrite M]. left. unfold beta in *. apply cdf_dominance; auto; [|lra|lra]. unfold alpha. now apply Rmult_lt_compat_l.
Qed.
Lemma rating_dominance_strict a eps f g y : 0 < a_v a -> 0 < a_sigma a -> 0 < eps < 1 / 2 -> f < g -> free eps (a_sigma a) f -> free eps (a_sigma a) g -> 0 < y < 1 -> abs_cdf true_special a eps y g < abs_cdf true_special a eps y f.
Proof.
  intros Hv Hs He H Ff Fg Hy. destruct (beta_params a eps f Hv He) as [A1 [B1 [S1 _]]]. destruct (beta_params a eps g Hv He) as [A2 [B2 [S2 _]]]. unfold abs_cdf, beta in *. apply cdf_dominance; auto; [|lra]. unfold alpha. apply Rmult_lt_compat_l; [exact Hv|]. now apply mean_link_lt.
Qed.
