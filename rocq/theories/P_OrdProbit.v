(** Lemmas on the ordinal probit. *)
From Verif Require Export P_Put S_OrdProbit P_Base P_Hyper.
From Coquelicot Require Import Coquelicot.
From Coq Require Import Reals Lra Lia.
From Verif Require Import M_OrdProbit S_PrefProbit S_OrdProbit P_Base P_Hyper P_RBase P_Normal P_PrefProbit P_Put.
Local Open Scope R_scope.

(** cumulative probability with the clipped distribution function *)
Definition cumc (o : ord_probit) (k : nat) (f : R) : R :=
  if Nat.eqb k 0 then 0 else if Nat.ltb k (o_n o) then std_norm_cdf ((nth (k - 1) (o_b o) 0 - f) / o_sigma o) else 1.
Definition lik (o : ord_probit) (k : nat) (f : R) : R := cumc o k f - cumc o (k - 1) f.

Lemma oz_div o k f : oz o k f = (nth (k - 1) (o_b o) 0 - f) / o_sigma o.
Proof. unfold oz, isigma, breakpoint. unfold Rdiv. ring. Qed.
Lemma norm_cdf_ok o k f : (1 <= o_n o)%nat -> (k <= o_n o)%nat -> norm_cdf o k f = Ok (cumc o k f).
Proof.
  intros H0 H. unfold norm_cdf, cumc. rewrite oz_div. destruct (Nat.eqb_spec k (o_n o)).
  - subst. destruct (Nat.eqb_spec (o_n o) 0); [lia|]. now rewrite Nat.ltb_irrefl.
  - destruct (Nat.eqb_spec k 0); auto. destruct (Nat.ltb_spec (o_n o) k); [lia|]. destruct (Nat.ltb_spec k (o_n o)); [auto|lia].
Qed.
Lemma mapM_map {A B} (f : A -> result B) (g : A -> B) l : (forall x, In x l -> f x = Ok (g x)) -> mapM f l = Ok (map g l).
Proof. induction l as [|x l IH]; intro H; auto. cbn [mapM map]. rewrite H by now left. cbn [bind]. rewrite IH by (intros; apply H; now right). reflexivity. Qed.
Lemma each_ok o y F : valid o y -> likelihood_each o y F = Ok (map (fun p => lik o (fst p) (F (snd p))) y).
Proof.
  intro V. unfold likelihood_each. destruct (existsb _ y) eqn:E.
  - apply existsb_exists in E. destruct E as [p [Hp E]]. apply Nat.eqb_eq in E. generalize (V p Hp). lia.
  - apply mapM_map. intros p Hp. assert (K := V p Hp). unfold likelihood_one. rewrite !norm_cdf_ok by lia. reflexivity.
Qed.
Lemma each_zero o y F : (exists p, In p y /\ fst p = 0%nat) -> likelihood_each o y F = Raise GenericException.
Proof. intros [p [Hp E]]. unfold likelihood_each. replace (existsb _ y) with true; auto. symmetry. apply existsb_exists. exists p. split; auto. now rewrite E. Qed.

(** ---- distribution ---- *)
Lemma cumc_mono o k f : ordered o -> 0 < o_sigma o -> cumc o k f <= cumc o (S k) f.
Proof.
  intros [L O] Sg. unfold cumc. replace (Nat.eqb (S k) 0) with false by reflexivity. destruct (Nat.ltb_spec (S k) (o_n o)).
  - destruct (Nat.eqb_spec k 0); [apply Rlt_le, std_norm_cdf_range|]. destruct (Nat.ltb_spec k (o_n o)); [|lia]. apply std_norm_cdf_le. apply Rmult_le_compat_r; [apply Rlt_le; now apply Rinv_0_lt_compat|]. apply Rplus_le_compat_r. apply O; lia.
  - destruct (Nat.eqb_spec k 0); [lra|]. destruct (Nat.ltb k (o_n o)); [apply Rlt_le, std_norm_cdf_range|lra].
Qed.
Lemma lik_nonneg o k f : ordered o -> 0 < o_sigma o -> (1 <= k)%nat -> 0 <= lik o k f.
Proof. intros O Sg H. unfold lik. destruct k; [lia|]. replace (S k - 1)%nat with k by lia. generalize (cumc_mono o k f O Sg). lra. Qed.
Lemma cumc_sum o f k : rsum (map (fun j => lik o j f) (seq 1 k)) = cumc o k f.
Proof.
  induction k; [reflexivity|]. replace (S k) with (k + 1)%nat at 1 by lia. rewrite seq_app, map_app, rsum_app, IHk. cbn [seq map rsum]. unfold lik. replace (1 + k - 1)%nat with k by lia. change (1 + k)%nat with (S k). ring.
Qed.
Lemma cumc_top o f : (1 <= o_n o)%nat -> cumc o (o_n o) f = 1.
Proof. intro H. unfold cumc. destruct (Nat.eqb_spec (o_n o) 0); [lia|]. now rewrite Nat.ltb_irrefl. Qed.
Lemma cumc_shift o k f g : 0 < o_sigma o -> f <= g -> cumc o k g <= cumc o k f.
Proof.
  intros Sg H. unfold cumc. destruct (Nat.eqb k 0); [lra|]. destruct (Nat.ltb k (o_n o)); [|lra]. apply std_norm_cdf_le. apply Rmult_le_compat_r; [apply Rlt_le; now apply Rinv_0_lt_compat|lra].
Qed.
Lemma linspace0_length b n : length (linspace0 b n) = n.
Proof. unfold linspace0. destruct n as [|[|n]]; auto. now rewrite map_length, seq_length. Qed.
Lemma linspace0_nth b n i : (i < n)%nat -> nth i (linspace0 b n) 0 = INR i * b / INR (n - 1).
Proof.
  unfold linspace0. intro H. destruct n as [|[|n]]; [lia| |].
  - replace i with 0%nat by lia. cbn [nth]. replace (INR 0) with 0 by reflexivity. unfold Rdiv. ring.
  - rewrite (nth_indep _ 0 (INR 0 * b / INR (S (S n) - 1))) by now rewrite map_length, seq_length. rewrite (map_nth (fun i => INR i * b / INR (S (S n) - 1))). now rewrite seq_nth by lia.
Qed.
Lemma INRpred_nonneg n : 0 <= / INR n.
Proof. destruct n. { cbn [INR]. rewrite Rinv_0. lra. } apply Rlt_le, Rinv_0_lt_compat. rewrite S_INR. generalize (pos_INR n). lra. Qed.
Lemma linspace0_mono b n i j : 0 <= b -> (i <= j)%nat -> (j < n)%nat -> nth i (linspace0 b n) 0 <= nth j (linspace0 b n) 0.
Proof.
  intros B H1 H2. rewrite !linspace0_nth by lia. unfold Rdiv. apply Rmult_le_compat_r; [apply INRpred_nonneg|]. apply Rmult_le_compat_r; auto. now apply le_INR.
Qed.
Lemma from_scalar_ordered o : from_scalar o -> ordered o.
Proof.
  intros [N [Sg [b E]]]. split; [rewrite E; apply linspace0_length|]. rewrite E, linspace0_length. intros i j H1 H2. apply linspace0_mono; auto. apply Rabs_pos.
Qed.
Lemma set_from_scalar o sg b : (2 <= o_n o)%nat -> 0 < sg -> exists o', ord_set o (sg :: b :: nil) = Ok o' /\ from_scalar o' /\ o_n o' = o_n o.
Proof. intros N Sg. eexists. split; [reflexivity|]. split; [|reflexivity]. split; auto. split; [exact Sg|]. exists b. reflexivity. Qed.

Lemma unclipped_lik o k f : (1 <= k <= o_n o)%nat -> label_unclipped (o_n o) (o_sigma o) (o_b o) k f -> lik o k f = label_prob (o_n o) (o_sigma o) (o_b o) k f.
Proof.
  intros K [U1 U2]. unfold lik, label_prob, cumc, cumulative. f_equal.
  - destruct (Nat.eqb k 0); auto. destruct (Nat.ltb_spec k (o_n o)); auto. apply std_norm_cdf_id. specialize (U1 ltac:(lia)). lra.
  - f_equal. destruct (Nat.eqb_spec (k - 1) 0); auto. destruct (Nat.ltb_spec (k - 1) (o_n o)); auto. replace (k - 1 - 1)%nat with (k - 2)%nat by lia. specialize (U2 ltac:(lia)). apply std_norm_cdf_id. lra.
Qed.

(** ---- derivatives ---- *)
Definition dcum (o : ord_probit) (k : nat) (f : R) : R := - isigma o * norm_pdf o k f.
Lemma cumulative_derive o k (f : R) : (k <= o_n o)%nat -> is_derive (cumulative (o_n o) (o_sigma o) (o_b o) k) f (dcum o k f).
Proof.
  intro K. unfold dcum, norm_pdf, cumulative. destruct (Nat.eqb_spec k 0); cbn [orb].
  { rewrite Rmult_0_r. exact (is_derive_const (K := R_AbsRing) (V := R_NormedModule) 0 f). }
  destruct (Nat.eqb_spec k (o_n o)).
  { subst. rewrite Nat.ltb_irrefl, Rmult_0_r. exact (is_derive_const (K := R_AbsRing) (V := R_NormedModule) 1 f). }
  destruct (Nat.ltb_spec k (o_n o)); [|lia].
  replace (- isigma o * npdf (oz o k f)) with (npdf (oz o k f) * - isigma o) by ring. rewrite oz_div.
  apply (comp_derive ndtr (fun f => (nth (k - 1) (o_b o) 0 - f) / o_sigma o)); [apply ndtr_derive|]. unfold isigma. auto_derive; auto. unfold Rdiv. ring.
Qed.
Definition dlab (o : ord_probit) (k : nat) (f : R) : R := - isigma o * (norm_pdf o k f - norm_pdf o (k - 1) f) / label_prob (o_n o) (o_sigma o) (o_b o) k f.
Lemma label_prob_derive o k (f : R) : (k <= o_n o)%nat -> is_derive (label_prob (o_n o) (o_sigma o) (o_b o) k) f (- isigma o * (norm_pdf o k f - norm_pdf o (k - 1) f)).
Proof.
  intro K. unfold label_prob. replace (- isigma o * (norm_pdf o k f - norm_pdf o (k - 1) f)) with (dcum o k f - dcum o (k - 1) f) by (unfold dcum; ring).
  apply (is_derive_minus (K := R_AbsRing) (V := R_NormedModule)); apply cumulative_derive; lia.
Qed.
Lemma log_label_derive o k (f : R) : (k <= o_n o)%nat -> 0 < label_prob (o_n o) (o_sigma o) (o_b o) k f ->
  is_derive (fun f => ln (label_prob (o_n o) (o_sigma o) (o_b o) k f)) f (dlab o k f).
Proof.
  intros K P. unfold dlab. set (q := label_prob (o_n o) (o_sigma o) (o_b o) k) in *. replace (- isigma o * (norm_pdf o k f - norm_pdf o (k - 1) f) / q f) with (/ q f * (- isigma o * (norm_pdf o k f - norm_pdf o (k - 1) f))) by (unfold Rdiv; ring).
  apply (comp_derive ln q); [|now apply label_prob_derive]. apply is_derive_ln. exact P.
Qed.
(** every label is likely enough and unclipped *)
Lemma combine_map_self {A B} (f : A -> B) (y : list A) : combine y (map f y) = map (fun p => (p, f p)) y.
Proof. induction y; cbn; congruence. Qed.
Lemma osum_some {A} (f : A -> R) y : (forall p, In p y -> 0 < f p) -> osum (map np_log (map f y)) = Some (rsum (map (fun p => ln (f p)) y)).
Proof.
  induction y as [|p y IH]; intro H; auto. cbn [map osum]. unfold np_log at 1. replace (Rleb (f p) 0) with false by (symmetry; apply Rleb_false; apply H; now left). rewrite IH by (intros; apply H; now right). reflexivity.
Qed.
Lemma ord_gradient o eps y F : o_sigma o <> 0 -> 0 < eps -> NoDup (map snd y) -> valid o y ->
  (forall p, In p y -> label_unclipped (o_n o) (o_sigma o) (o_b o) (fst p) (F (snd p)) /\ eps <= label_prob (o_n o) (o_sigma o) (o_b o) (fst p) (F (snd p))) ->
  exists W g, ord_derivatives o eps y F = Ok (W, g, Some (rsum (map (fun p => ln (label_prob (o_n o) (o_sigma o) (o_b o) (fst p) (F (snd p)))) y))) /\
  forall a, has_partial (fun G => rsum (map (fun p => ln (label_prob (o_n o) (o_sigma o) (o_b o) (fst p) (G (snd p)))) y)) a F (g a).
Proof.
  intros Sg E N V U. unfold ord_derivatives. rewrite each_ok by auto. cbn [bind]. rewrite combine_map_self, !map_map. cbn [fst snd]. eexists. eexists. split.
  - f_equal. f_equal. rewrite <- (map_map (fun p => lik o (fst p) (F (snd p))) np_log). rewrite (osum_some (fun p => lik o (fst p) (F (snd p)))).
    + f_equal. apply rsum_ext. intros p Hp. rewrite unclipped_lik; [auto|apply V; auto|apply U; auto].
    + intros p Hp. rewrite unclipped_lik; [|apply V; auto|apply U; auto]. destruct (U p Hp). lra.
  - intro a. replace (map (fun x => fst (ord_derv o eps (fst x) (F (snd x)) (lik o (fst x) (F (snd x))))) y) with (map (fun p => dlab o (fst p) (F (snd p))) y).
    + apply (LLsum_partial (fun k f => ln (label_prob (o_n o) (o_sigma o) (o_b o) k f)) (dlab o)); auto. intros p Hp. destruct (U p Hp). apply log_label_derive; [apply V; auto|lra].
    + apply map_ext_in. intros p Hp. destruct (U p Hp) as [U1 U2]. unfold ord_derv. rewrite unclipped_lik by (auto; apply V; auto). replace (Rltb _ eps) with false by (symmetry; now apply Rltb_false). reflexivity.
Qed.
(** the true second derivative *)
Definition zpdf (o : ord_probit) (k : nat) (f : R) : R := if Nat.eqb k 0 || Nat.eqb k (o_n o) then 0 else oz o k f * npdf (oz o k f).
Lemma norm_pdf_derive o k (f : R) : is_derive (norm_pdf o k) f (isigma o * zpdf o k f).
Proof.
  unfold norm_pdf, zpdf. destruct (Nat.eqb k 0 || Nat.eqb k (o_n o)).
  - rewrite Rmult_0_r. exact (is_derive_const (K := R_AbsRing) (V := R_NormedModule) 0 f).
  - replace (isigma o * (oz o k f * npdf (oz o k f))) with ((- oz o k f * npdf (oz o k f)) * - isigma o) by ring. apply (comp_derive npdf (oz o k)); [apply npdf_derive|]. unfold oz. auto_derive; auto. ring.
Qed.
Definition ddlab (o : ord_probit) (k : nat) (f : R) : R := - (dlab o k f ^ 2 + ivar o * (zpdf o k f - zpdf o (k - 1) f) / label_prob (o_n o) (o_sigma o) (o_b o) k f).
Lemma dlab_derive o k (f : R) : (k <= o_n o)%nat -> 0 < label_prob (o_n o) (o_sigma o) (o_b o) k f -> is_derive (dlab o k) f (ddlab o k f).
Proof.
  intros K P. unfold ddlab, dlab. set (q := label_prob (o_n o) (o_sigma o) (o_b o) k) in *. assert (Dq := label_prob_derive o k f K : is_derive q f _).
  assert (D1 := norm_pdf_derive o k f). assert (D2 := norm_pdf_derive o (k - 1) f).
  evar_last. { apply (is_derive_div (fun f => - isigma o * (norm_pdf o k f - norm_pdf o (k - 1) f)) q f (- isigma o * (isigma o * zpdf o k f - isigma o * zpdf o (k - 1) f))); [|exact Dq|apply Rgt_not_eq; lra].
    apply (is_derive_scal (fun f => norm_pdf o k f - norm_pdf o (k - 1) f) f (- isigma o)). apply (is_derive_minus (K := R_AbsRing) (V := R_NormedModule)); assumption. }
  unfold ivar. field. apply Rgt_not_eq; lra.
Qed.

(** ---- wrong curvature ---- *)
Lemma npdf_0_bounds : 0 < npdf 0 < 1 / 2.
Proof.
  split; [apply npdf_pos|]. unfold npdf. replace (- 0 ^ 2 / 2) with 0 by field. rewrite exp_0. assert (2 < sqrt (2 * PI)). { replace 2 with (sqrt (2 * 2)) at 1 by (rewrite sqrt_square; lra). apply sqrt_lt_1; [lra| |]; generalize PI2_3_2; unfold PI2; lra. }
  unfold Rdiv. rewrite !Rmult_1_l. apply Rinv_lt_contravar; lra.
Qed.
Definition bo (s : R) : ord_probit := mkOrd 2 s (0 :: nil).
Lemma bo_prob2 s f : label_prob 2 s (0 :: nil) 2 f = ndtr (f / s).
Proof. unfold label_prob, cumulative. cbn. rewrite <- ndtr_sym. f_equal. unfold Rdiv. ring. Qed.
Lemma bo_prob1 s f : label_prob 2 s (0 :: nil) 1 f = ndtr (- (f / s)).
Proof. unfold label_prob, cumulative. cbn. rewrite Rminus_0_r. f_equal. unfold Rdiv. ring. Qed.
Lemma oz_bo s : oz (bo s) 1 0 = 0.
Proof. unfold oz, breakpoint, bo. cbn. ring. Qed.
Lemma bo_unclipped s k u : 0 < s -> (1 <= k <= 2)%nat -> label_unclipped 2 s (0 :: nil) k ((fun _ : nat => 0) u).
Proof.
  intros Hs K. replace (label_unclipped 2 s (0 :: nil) k 0) with (label_unclipped 2 s (0 :: nil) k 0) by auto. unfold label_unclipped. assert (E : forall i, (nth i (0 :: nil) 0 - 0) / s = 0) by (intros [|[|i]]; cbn; field; lra). rewrite !E. split; intros; lra.
Qed.
Lemma bo_lik s k : 0 < s -> (1 <= k <= 2)%nat -> lik (bo s) k 0 = 1 / 2.
Proof.
  intros Hs K. rewrite unclipped_lik; [|exact K|apply (bo_unclipped s k 0%nat Hs K)]. cbn [bo o_n o_sigma o_b]. assert (k = 1 \/ k = 2)%nat as [-> | ->] by lia.
  - rewrite bo_prob1. replace (- (0 / s)) with 0 by (field; lra). apply ndtr_0.
  - rewrite bo_prob2. replace (0 / s) with 0 by (field; lra). apply ndtr_0.
Qed.
Lemma W_wrong s eps : 0 < s -> 0 < eps <= 1 / 2 -> exists W g p, ord_derivatives (bo s) eps ((2%nat, 0%nat) :: nil) (fun _ => 0) = Ok (W, g, p) /\ W 0%nat 0%nat < 0 /\
  ~ has_partial (partial 0 (LLo (bo s) ((2%nat, 0%nat) :: nil))) 0 (fun _ => 0) (- W 0%nat 0%nat).
Proof.
  intros Hs He. unfold ord_derivatives. rewrite each_ok by (intros p [<- |[]]; cbn; lia). cbn [bind map fst snd combine]. rewrite bo_lik by (auto; lia). eexists. eexists. eexists. split; [reflexivity|].
  set (V := put_diag _ _ _ _). assert (EV : V = ivar (bo s) * (4 * npdf 0 ^ 2 - 2 * npdf 0)).
  { subst V. unfold put_diag, put_vec, put. cbn [Nat.eqb combine fold_left fst snd]. unfold ord_derv. replace (Rltb (1 / 2) eps) with false by (symmetry; apply Rltb_false; lra). cbn [snd]. unfold norm_pdf at 1 3. cbn [bo o_n Nat.eqb orb]. fold (bo s). unfold norm_pdf. cbn [Nat.sub Nat.eqb orb bo o_n]. fold (bo s).
    replace (norm_pdf (bo s) 1 0) with (npdf 0) by (unfold norm_pdf; cbn; now rewrite oz_bo). rewrite ?oz_bo. unfold ivar. field. }
  assert (I : 0 < ivar (bo s)). { unfold ivar, isigma, bo. cbn [o_sigma]. assert (0 < 1 / s) by (apply Rdiv_lt_0_compat; lra). nra. }
  assert (B := npdf_0_bounds). assert (Nq : 4 * npdf 0 ^ 2 - 2 * npdf 0 < 0) by nra. rewrite EV. split; [apply Ropp_lt_cancel; rewrite Ropp_0, Ropp_mult_distr_r; apply Rmult_lt_0_compat; lra|]. intro H.
  assert (T : has_partial (partial 0 (LLo (bo s) ((2%nat, 0%nat) :: nil))) 0 (fun _ => 0) (ddlab (bo s) 2 0)).
  { assert (Q := LLsum_hessian (fun k f => ln (label_prob 2 s (0 :: nil) k f)) (dlab (bo s)) (ddlab (bo s)) ((2%nat, 0%nat) :: nil) (fun _ => 0) 0 0).
    assert (P : forall f, 0 < label_prob 2 s (0 :: nil) 2 f) by (intro f; rewrite bo_prob2; apply ndtr_range).
    apply Q; cbn [map snd]; [constructor; [intros []|constructor]| |].
    - intros p [<- |[]]. apply filter_forall. intro t. apply (log_label_derive (bo s) 2 t); [cbn; lia|apply P].
    - intros p [<- |[]]. apply (dlab_derive (bo s) 2); [cbn; lia|apply P]. }
  unfold has_partial in H, T. apply is_derive_unique in H, T. rewrite T in H. unfold ddlab, dlab in H. cbn [bo o_n o_sigma o_b] in H. rewrite bo_prob2 in H. fold (bo s) in H. replace (0 / s) with 0 in H by (field; lra). rewrite ndtr_0 in H.
  unfold zpdf, norm_pdf in H. cbn in H. rewrite oz_bo in H. unfold ivar in *. set (q := isigma (bo s)) in *. clearbody q.
  replace (- ((- q * (0 - npdf 0) / (1 / 2)) * ((- q * (0 - npdf 0) / (1 / 2)) * 1) + q * (q * 1) * (0 - 0 * npdf 0) / (1 / 2))) with (- (q ^ 2 * (4 * npdf 0 ^ 2))) in H by field. assert (0 < q ^ 2 * npdf 0) by (apply Rmult_lt_0_compat; lra). nra.
Qed.

(** ---- unlikely labels ---- *)
Lemma mills_upper_derive (z : R) : is_derive (fun z => (1 + z ^ 2) * ndtr z + z * npdf z) z (2 * (npdf z + z * ndtr z)).
Proof.
  assert (D1 := ndtr_derive z). assert (D2 := npdf_derive z).
  evar_last. { apply @is_derive_plus; [apply (is_derive_mult (fun z => 1 + z ^ 2) ndtr z (2 * z)); [auto_derive; auto; ring|exact D1|intros; apply Rmult_comm]|].
    apply (is_derive_mult (fun z => z) npdf z 1); [apply @is_derive_id|exact D2|intros; apply Rmult_comm]. }
  unfold plus, one, mult; simpl; unfold mult; simpl. ring.
Qed.
Lemma s2pi_gt1 : 1 < sqrt (2 * PI).
Proof. replace 1 with (sqrt 1) by apply sqrt_1. apply sqrt_lt_1; generalize PI2_3_2; unfold PI2; lra. Qed.
Lemma mills_upper z : 0 < (1 + z ^ 2) * ndtr z + z * npdf z.
Proof.
  set (G := fun z => (1 + z ^ 2) * ndtr z + z * npdf z). change (0 < G z). destruct (Rlt_dec 0 (G z)) as [|N]; auto. exfalso.
  assert (I : forall x y, x < y -> G x < G y).
  { intros x y H. destruct (MVT_gen G x y (fun z => 2 * (npdf z + z * ndtr z))) as [c [_ Hc]].
    - intros; apply mills_upper_derive.
    - intros t _. apply derivable_continuous_pt. eexists. apply is_derive_Reals. apply mills_upper_derive.
    - assert (K := mills c). assert (0 < 2 * (npdf c + c * ndtr c) * (y - x)); [apply Rmult_lt_0_compat; lra|lra]. }
  assert (L : forall x, x < 0 -> 2 / x < G x).
  { intros x H. unfold G. assert (P := ndtr_range x). assert (Sx := exp_sq_small x ltac:(lra)). assert (Q : npdf x < 2 / x ^ 2).
    { apply Rle_lt_trans with (exp (- x ^ 2 / 2)); auto. unfold npdf. assert (K := s2pi_gt1). assert (E := exp_pos (- x ^ 2 / 2)). apply Rmult_le_reg_r with (sqrt (2 * PI)); [lra|]. unfold Rdiv at 1. rewrite Rmult_assoc, Rinv_l by lra. nra. }
    apply (Rmult_lt_gt_compat_neg_l x) in Q; auto. replace (x * (2 / x ^ 2)) with (2 / x) in Q by (field; lra). assert (0 < (1 + x ^ 2) * ndtr x) by (apply Rmult_lt_0_compat; [generalize (pow2_ge_0 x); lra|lra]). lra. }
  set (z1 := Rmin z 0 - 1). assert (H1 : z1 < z) by (unfold z1; assert (K := Rmin_l z 0); lra). assert (H2 : z1 < 0) by (unfold z1; assert (K := Rmin_r z 0); lra).
  assert (C := I _ _ H1). set (c := G z1) in *. assert (c < 0) by lra.
  set (w := Rmin (z1 - 1) (2 / c)). assert (Hw : w < z1) by (unfold w; assert (K := Rmin_l (z1 - 1) (2 / c)); lra). assert (Hw2 : w <= 2 / c) by apply Rmin_r.
  assert (I1 := I _ _ Hw). assert (L1 := L w ltac:(lra)). fold c in I1.
  assert (c <= 2 / w). { apply Rmult_le_reg_l with (w * (2 / c)). { assert (2 / c < 0) by (unfold Rdiv; assert (/ c < 0) by (apply Rinv_lt_0_compat; lra); lra). assert (w < 0) by lra. nra. } replace (w * (2 / c) * c) with (2 * w) by (field; lra). replace (w * (2 / c) * (2 / w)) with (2 * (2 / c)) by (field; lra). lra. }
  lra.
Qed.
Lemma hazard_upper z : z < 0 -> z + hazard z < / (- z).
Proof.
  intro H. assert (K := mills_upper z). assert (Rg := ndtr_range z). unfold hazard. apply Rmult_lt_reg_r with (- z * ndtr z); [nra|]. replace ((z + npdf z / ndtr z) * (- z * ndtr z)) with (- (z ^ 2 * ndtr z + z * npdf z)) by (field; lra). replace (/ - z * (- z * ndtr z)) with (ndtr z) by (field; lra). lra.
Qed.
Lemma first_prob o f : (2 <= o_n o)%nat -> label_prob (o_n o) (o_sigma o) (o_b o) 1 f = ndtr ((nth 0 (o_b o) 0 - f) / o_sigma o).
Proof. intro N. unfold label_prob, cumulative. cbn [Nat.sub Nat.eqb]. destruct (Nat.ltb_spec 1 (o_n o)); [ring|lia]. Qed.
Lemma last_prob o f : (2 <= o_n o)%nat -> label_prob (o_n o) (o_sigma o) (o_b o) (o_n o) f = ndtr (- ((nth (o_n o - 2) (o_b o) 0 - f) / o_sigma o)).
Proof.
  intro N. unfold label_prob, cumulative. rewrite Nat.ltb_irrefl. destruct (Nat.eqb_spec (o_n o) 0); [lia|]. destruct (Nat.eqb_spec (o_n o - 1) 0); [lia|]. destruct (Nat.ltb_spec (o_n o - 1) (o_n o)); [|lia].
  rewrite ndtr_sym. replace (o_n o - 1 - 1)%nat with (o_n o - 2)%nat by lia. ring.
Qed.
Lemma ndtr_half_neg z eps : eps <= 1 / 2 -> ndtr z < eps -> z < 0.
Proof. intros H1 H2. destruct (Rlt_dec z 0); auto. assert (K := ndtr_le 0 z ltac:(lra)). rewrite ndtr_0 in K. lra. Qed.
Lemma single_gradient o eps k u F l d : (1 <= k <= o_n o)%nat -> lik o k (F u) = l -> fst (ord_derv o eps k (F u) l) = d ->
  exists W p, ord_derivatives o eps ((k, u) :: nil) F = Ok (W, put_vec (u :: nil) (d :: nil) (fun _ => 0), p).
Proof. intros K E D. unfold ord_derivatives. rewrite each_ok by (intros p [<- |[]]; cbn; lia). cbn [bind map fst snd combine]. rewrite E, D. eexists. eexists. reflexivity. Qed.
Lemma put_single u d M : put_vec (u :: nil) (d :: nil) M u = d.
Proof. unfold put_vec, put. cbn [combine fold_left fst snd]. now rewrite Nat.eqb_refl. Qed.
Lemma hazard_diff s z : 0 < s -> z < 0 -> 0 < 1 / s * (z + hazard z) < / Rabs (s * z).
Proof.
  intros Hs Hz. assert (A := hazard_mills z). assert (B := hazard_upper z Hz). assert (0 < / s) by now apply Rinv_0_lt_compat. rewrite Rabs_left by nra. replace (/ - (s * z)) with (1 / s * / (- z)) by (field; lra). split; [nra|]. apply Rmult_lt_compat_l; lra.
Qed.
Lemma tail_gradient o eps k u F b : (2 <= o_n o)%nat -> 0 < o_sigma o -> 0 < eps <= 1 / 2 ->
  (k = 1%nat /\ b = nth 0 (o_b o) 0) \/ (k = o_n o /\ b = nth (o_n o - 2) (o_b o) 0) -> label_unclipped (o_n o) (o_sigma o) (o_b o) k (F u) ->
  label_prob (o_n o) (o_sigma o) (o_b o) k (F u) < eps ->
  exists W g p D, ord_derivatives o eps ((k, u) :: nil) F = Ok (W, g, p) /\ has_partial (LLo o ((k, u) :: nil)) u F D /\ 0 < Rabs (g u - D) < / Rabs (b - F u).
Proof.
  intros N Hs He C U L. assert (K : (1 <= k <= o_n o)%nat) by (destruct C as [[-> _]|[-> _]]; lia).
  assert (P : 0 < label_prob (o_n o) (o_sigma o) (o_b o) k (F u)) by (destruct C as [[-> _]|[-> _]]; [rewrite first_prob by auto|rewrite last_prob by auto]; apply ndtr_range).
  assert (El := unclipped_lik o k (F u) K U). destruct (single_gradient o eps k u F _ _ K El eq_refl) as [W [p E]].
  exists W. eexists. exists p. exists (dlab o k (F u)). split; [exact E|]. split.
  { unfold has_partial, LLo. apply (is_derive_ext (fun t : R => ln (label_prob (o_n o) (o_sigma o) (o_b o) k t))).
    - intro t. cbn [map rsum fst snd]. rewrite upd_at. symmetry. apply Rplus_0_r.
    - apply log_label_derive; [lia|exact P]. }
  rewrite put_single. unfold ord_derv. replace (Rltb _ eps) with true by (symmetry; now apply Rltb_true). cbn [fst snd]. unfold ord_eps_branch, dlab, norm_pdf.
  destruct C as [[-> ->]|[-> ->]].
  - rewrite Nat.eqb_refl. cbn [fst]. destruct (Nat.eqb_spec 1 (o_n o)); [lia|]. cbn [Nat.sub Nat.eqb orb]. rewrite first_prob in L |- * by auto. rewrite oz_div. cbn [Nat.sub]. set (z := (nth 0 (o_b o) 0 - F u) / o_sigma o) in *.
    assert (Hz : z < 0) by (apply (ndtr_half_neg z eps); [apply He|exact L]). assert (Q := hazard_diff (o_sigma o) z Hs Hz). replace (nth 0 (o_b o) 0 - F u) with (o_sigma o * z) by (unfold z; field; lra).
    replace (isigma o * z - - isigma o * (npdf z - 0) / ndtr z) with (1 / o_sigma o * (z + hazard z)) by (unfold isigma, hazard; assert (0 < ndtr z) by apply ndtr_range; clearbody z; field; repeat split; apply Rgt_not_eq; lra). rewrite Rabs_right by (apply Rle_ge, Rlt_le, Q). exact Q.
  - destruct (Nat.eqb_spec (o_n o) 1); [lia|]. rewrite Nat.eqb_refl. cbn [fst orb]. rewrite orb_true_r. destruct (Nat.eqb_spec (o_n o - 1) 0); [lia|]. destruct (Nat.eqb_spec (o_n o - 1) (o_n o)); [lia|]. cbn [orb]. rewrite last_prob in L |- * by auto. rewrite oz_div. replace (o_n o - 1 - 1)%nat with (o_n o - 2)%nat by lia.
    set (z := (nth (o_n o - 2) (o_b o) 0 - F u) / o_sigma o) in *. assert (Hz : - z < 0) by (apply (ndtr_half_neg (- z) eps); [apply He|exact L]). assert (Q := hazard_diff (o_sigma o) (- z) Hs Hz). replace (nth (o_n o - 2) (o_b o) 0 - F u) with (o_sigma o * z) by (unfold z; field; lra).
    replace (isigma o * z - - isigma o * (0 - npdf z) / ndtr (- z)) with (- (1 / o_sigma o * (- z + hazard (- z)))) by (unfold isigma, hazard; rewrite npdf_even; assert (0 < ndtr (- z)) by apply ndtr_range; clearbody z; field; repeat split; apply Rgt_not_eq; lra).
    rewrite Rabs_Ropp. rewrite Rabs_right by (apply Rle_ge, Rlt_le, Q). replace (Rabs (o_sigma o * z)) with (Rabs (o_sigma o * - z)) by (rewrite <- Rabs_Ropp; f_equal; ring). exact Q.
Qed.

(** ---- repeated labels ---- *)
Lemma ord_last_wins o eps y k u F : valid o (y ++ (k, u) :: nil) -> exists W g p W' g' p', ord_derivatives o eps (y ++ (k, u) :: nil) F = Ok (W, g, p) /\ ord_derivatives o eps ((k, u) :: nil) F = Ok (W', g', p') /\ g u = g' u /\ W u u = W' u u.
Proof.
  intro V. unfold ord_derivatives. rewrite !each_ok; [|intros p [<- |[]]; apply V; apply in_or_app; right; now left|auto]. cbn [bind]. rewrite !combine_map_self. do 6 eexists. split; [reflexivity|]. split; [reflexivity|].
  rewrite !map_app. cbn [map fst snd]. unfold put_diag. rewrite Nat.eqb_refl. rewrite !put_vec_last by now rewrite !map_length. now rewrite !put_single.
Qed.
Lemma ord_repeat_wrong s eps : 0 < s -> 0 < eps <= 1 / 2 -> exists W g p, ord_derivatives (bo s) eps ((1%nat, 0%nat) :: (2%nat, 0%nat) :: nil) (fun _ => 0) = Ok (W, g, p) /\
  has_partial (LLo (bo s) ((1%nat, 0%nat) :: (2%nat, 0%nat) :: nil)) 0 (fun _ => 0) 0 /\ 0 < g 0%nat.
Proof.
  intros Hs He. destruct (ord_last_wins (bo s) eps ((1%nat, 0%nat) :: nil) 2%nat 0%nat (fun _ => 0)) as [W [g [p [W' [g' [p' [E1 [E2 [E3 _]]]]]]]]].
  { intros q [<- |[<- |[]]]; cbn; lia. }
  cbn [app] in E1. exists W, g, p. split; [exact E1|]. split.
  - unfold has_partial, LLo. cbn [map rsum fst snd bo o_n o_sigma o_b]. apply (is_derive_ext (fun t : R => ln (label_prob 2 s (0 :: nil) 1 t) + ln (label_prob 2 s (0 :: nil) 2 t))); [intro t; rewrite upd_at; now rewrite Rplus_0_r|].
    assert (D1 := log_label_derive (bo s) 1 0 ltac:(cbn; lia) ltac:(cbn [bo o_n o_sigma o_b]; rewrite bo_prob1; apply ndtr_range)). assert (D2 := log_label_derive (bo s) 2 0 ltac:(cbn; lia) ltac:(cbn [bo o_n o_sigma o_b]; rewrite bo_prob2; apply ndtr_range)).
    replace 0 with (dlab (bo s) 1 0 + dlab (bo s) 2 0) at 2. { apply (is_derive_plus (K := R_AbsRing) (V := R_NormedModule)); assumption. }
    unfold dlab. cbn [bo o_n o_sigma o_b]. rewrite bo_prob1, bo_prob2. replace (- (0 / s)) with 0 by (field; lra). replace (0 / s) with 0 by (field; lra). rewrite ndtr_0. unfold norm_pdf. cbn. rewrite oz_bo. field.
  - rewrite E3. destruct (single_gradient (bo s) eps 2 0 (fun _ => 0) _ _ ltac:(cbn; lia) (bo_lik s 2 Hs ltac:(lia)) eq_refl) as [W2 [p2 E]]. rewrite E in E2. injection E2 as _ <- _. rewrite put_single. unfold ord_derv. replace (Rltb (1 / 2) eps) with false by (symmetry; apply Rltb_false; lra). cbn [fst]. unfold norm_pdf. cbn. rewrite oz_bo.
    unfold isigma. cbn. assert (B := npdf_0_bounds). replace (- (1 / s) * (0 - npdf 0) / (1 / 2)) with (2 * npdf 0 * / s) by (field; lra). apply Rmult_lt_0_compat; [lra|now apply Rinv_0_lt_compat].
Qed.

(** ---- hyper-parameters ---- *)
Lemma linspace0_1 b b' : linspace0 b 1 = linspace0 b' 1.
Proof. reflexivity. Qed.
Lemma ord_round_trip o : from_scalar o -> ord_set o (ord_get o) = Ok o.
Proof.
  intros [N [Hs [b E]]]. destruct o as [n sg bs]. cbn [o_n o_sigma o_b] in *. unfold ord_set, ord_get. cbn. unfold ord_set_b. cbn [o_n o_sigma o_b]. do 2 f_equal. subst bs. destruct (Nat.eq_dec n 2) as [-> |].
  - reflexivity.
  - rewrite last_linspace by lia. now rewrite Rabs_Rabsolu.
Qed.
Lemma ord_vector_lost : exists o o' l l', ord_set_bs (mkOrd 4 1 nil) (0 :: 1 :: 5 :: nil) = Ok o /\ ord_set o (ord_get o) = Ok o' /\
  (forall u, label_unclipped 4 1 (0 :: 1 :: 5 :: nil) 2 ((fun _ : nat => 0) u)) /\
  likelihood_each o ((2%nat, 0%nat) :: nil) (fun _ => 0) = Ok l /\ likelihood_each o' ((2%nat, 0%nat) :: nil) (fun _ => 0) = Ok l' /\ nth 0 l 0 < nth 0 l' 0.
Proof.
  do 4 eexists. split; [reflexivity|]. split; [reflexivity|]. split. { intro u. unfold label_unclipped. cbn. split; intros; lra. }
  unfold ord_set_b, ord_get. cbn [o_n o_sigma o_b last]. split; [apply each_ok; intros p [<- |[]]; cbn; lia|]. split; [apply each_ok; intros p [<- |[]]; cbn; lia|]. unfold lik, cumc, linspace0. cbn. rewrite Rabs_right by lra.
  rewrite !std_norm_cdf_id by lra. assert (K := ndtr_increasing ((1 - 0) / 1) ((1 * 5 / (1 + 1) - 0) / 1) ltac:(lra)). replace ((0 * 5 / (1 + 1) - 0) / 1) with ((0 - 0) / 1) by field. lra.
Qed.
Lemma unordered_negative : exists o l, ord_set_bs (mkOrd 3 1 nil) (1 :: 0 :: nil) = Ok o /\ likelihood_each o ((2%nat, 0%nat) :: nil) (fun _ => 0) = Ok l /\ nth 0 l 0 < 0.
Proof.
  eexists. eexists. split; [reflexivity|]. split; [apply each_ok; intros p [<- |[]]; cbn; lia|]. unfold lik, cumc. cbn. rewrite !std_norm_cdf_id by lra. assert (K := ndtr_increasing ((0 - 0) / 1) ((1 - 0) / 1) ltac:(lra)). lra.
Qed.
(** ---- statements over all labels ---- *)
Lemma all_labels_each o u F : (1 <= o_n o)%nat -> likelihood_each o (map (fun k => (k, u)) (seq 1 (o_n o))) F = Ok (map (fun k => lik o k (F u)) (seq 1 (o_n o))).
Proof. intro N. rewrite each_ok; [now rewrite map_map|]. intros p Hp. apply in_map_iff in Hp. destruct Hp as [k [<- Hk]]. apply in_seq in Hk. cbn. lia. Qed.
Lemma ord_distribution o u F : ordered o -> 0 < o_sigma o -> (1 <= o_n o)%nat ->
  exists l, likelihood_each o (map (fun k => (k, u)) (seq 1 (o_n o))) F = Ok l /\ length l = o_n o /\ (forall x, In x l -> 0 <= x <= 1) /\ rsum l = 1.
Proof.
  intros O Hs N. eexists. split; [now apply all_labels_each|]. split; [now rewrite map_length, seq_length|]. assert (T : rsum (map (fun k => lik o k (F u)) (seq 1 (o_n o))) = 1) by now rewrite cumc_sum, cumc_top.
  assert (P : forall x, In x (map (fun k => lik o k (F u)) (seq 1 (o_n o))) -> 0 <= x). { intros x Hx. apply in_map_iff in Hx. destruct Hx as [k [<- Hk]]. apply in_seq in Hk. apply lik_nonneg; auto; lia. }
  split; [|exact T]. intros x Hx. split; [now apply P|]. rewrite <- T. destruct (in_split _ _ Hx) as [l1 [l2 E]]. rewrite E in *. rewrite rsum_app. change (rsum (x :: l2)) with (x + rsum l2).
  assert (0 <= rsum l1) by (apply rsum_nonneg; intros; apply P; apply in_or_app; auto). assert (0 <= rsum l2) by (apply rsum_nonneg; intros; apply P; apply in_or_app; right; now right). lra.
Qed.
Lemma firstn_map_seq {A} (f : nat -> A) k n : (k <= n)%nat -> firstn k (map f (seq 1 n)) = map f (seq 1 k).
Proof. intro H. rewrite firstn_map. f_equal. replace n with (k + (n - k))%nat by lia. rewrite seq_app. rewrite firstn_app, seq_length, Nat.sub_diag. cbn [firstn]. rewrite app_nil_r. apply firstn_all2. rewrite seq_length. lia. Qed.
Lemma ord_shift o u F G k : 0 < o_sigma o -> (1 <= o_n o)%nat -> F u <= G u -> forall lF lG,
  likelihood_each o (map (fun k => (k, u)) (seq 1 (o_n o))) F = Ok lF -> likelihood_each o (map (fun k => (k, u)) (seq 1 (o_n o))) G = Ok lG -> rsum (firstn k lG) <= rsum (firstn k lF).
Proof.
  intros Hs N H lF lG. rewrite !all_labels_each by auto. intros E1 E2. injection E1 as <-. injection E2 as <-.
  destruct (le_lt_dec k (o_n o)).
  - rewrite !firstn_map_seq by auto. rewrite !cumc_sum. now apply cumc_shift.
  - rewrite !firstn_all2 by (rewrite map_length, seq_length; lia). rewrite !cumc_sum, !cumc_top by auto. lra.
Qed.
Lemma ord_prob o y F : valid o y -> (forall p, In p y -> label_unclipped (o_n o) (o_sigma o) (o_b o) (fst p) (F (snd p))) ->
  likelihood_each o y F = Ok (map (fun p => label_prob (o_n o) (o_sigma o) (o_b o) (fst p) (F (snd p))) y).
Proof. intros V U. rewrite each_ok by auto. f_equal. apply map_ext_in. intros p Hp. apply unclipped_lik; [apply V|apply U]; auto. Qed.
Lemma ord_log_lik o y F : valid o y -> (forall p, In p y -> label_unclipped (o_n o) (o_sigma o) (o_b o) (fst p) (F (snd p)) /\ 0 < label_prob (o_n o) (o_sigma o) (o_b o) (fst p) (F (snd p))) ->
  ord_log_likelihood o y F = Ok (Some (LLo o y F)).
Proof.
  intros V U. unfold ord_log_likelihood, ord_likelihood. rewrite ord_prob by (auto; intros; now apply U). cbn [bind]. f_equal. unfold np_log, LLo. clear V.
  assert (Q : 0 < rprod (map (fun p => label_prob (o_n o) (o_sigma o) (o_b o) (fst p) (F (snd p))) y) /\ ln (rprod (map (fun p => label_prob (o_n o) (o_sigma o) (o_b o) (fst p) (F (snd p))) y)) = rsum (map (fun p => ln (label_prob (o_n o) (o_sigma o) (o_b o) (fst p) (F (snd p)))) y)).
  { induction y as [|p y IH]; cbn [map rprod fold_right rsum]; [split; [lra|apply ln_1]|]. destruct IH as [I1 I2]; [intros; apply U; now right|]. destruct (U p ltac:(now left)) as [_ P]. split; [now apply Rmult_lt_0_compat|]. unfold rprod in I1, I2. rewrite ln_mult by auto. now rewrite I2. }
  destruct Q as [Q1 Q2]. replace (Rleb _ 0) with false by (symmetry; now apply Rleb_false). now rewrite Q2.
Qed.
Lemma ord_zero_label o eps y F : (exists p, In p y /\ fst p = 0%nat) -> likelihood_each o y F = Raise GenericException /\ ord_derivatives o eps y F = Raise GenericException.
Proof. intro H. unfold ord_derivatives. now rewrite each_zero. Qed.
