(** Lemmas on the preference probit. *)
From Verif Require Export M_PrefProbit S_PrefProbit P_Normal.
From Coquelicot Require Import Coquelicot.
From Coq Require Import Reals Lra Lia.
From Verif Require Import M_PrefProbit S_PrefProbit P_RBase P_Normal P_Psd S_Psd.
Local Open Scope R_scope.

(** ---- accumulation is summation ---- *)
Lemma add_up_vec_sum {A} (y : list A) (f : A -> R) (g : A -> nat) a : forall M,
  add_up_vec (map g y) (map f y) M a = M a + rsum (map (fun p => if Nat.eqb a (g p) then f p else 0) y).
Proof.
  unfold add_up_vec. induction y as [|p y IH]; intro M; cbn [map combine fold_left rsum]; [ring|]. rewrite IH. unfold add_vec at 1. cbn [fst snd].
  change (rsum (?h :: ?t)) with (h + rsum t). destruct (Nat.eqb a (g p)); ring.
Qed.
Lemma add_up_mat_sum {A} (y : list A) (f : A -> R) (g h : A -> nat) a b : forall M,
  add_up_mat (map (fun p => (g p, h p)) y) (map f y) M a b = M a b + rsum (map (fun p => if Nat.eqb a (g p) && Nat.eqb b (h p) then f p else 0) y).
Proof.
  unfold add_up_mat. induction y as [|p y IH]; intro M; cbn [map combine fold_left rsum]; [ring|]. rewrite IH. unfold add_mat at 1. cbn [fst snd].
  change (rsum (?h :: ?t)) with (h + rsum t). destruct (Nat.eqb a (g p) && Nat.eqb b (h p)); ring.
Qed.
Lemma coef_isq s p a : coef s p a = isqrt2sig s * dk_of p * delta p a.
Proof. reflexivity. Qed.
Lemma derv_sum s y F a : derv_log_likelyhood s y F a = rsum (map (fun p => pdf_cdf_ratio (z_of s F p) * coef s p a) y).
Proof.
  unfold derv_log_likelyhood. rewrite (add_up_vec_sum y _ v_of). rewrite map_map. rewrite (add_up_vec_sum y _ u_of). rewrite Rplus_0_l. rewrite <- rsum_plus. apply rsum_ext. intros p _.
  rewrite coef_isq. unfold delta, hot. destruct (Nat.eqb a (v_of p)), (Nat.eqb a (u_of p)); ring.
Qed.
Lemma add_four_sum y f a b : add_four y (map f y) a b = rsum (map (fun p => - f p * (delta p a * delta p b)) y).
Proof.
  unfold add_four. rewrite map_map. rewrite !(add_up_mat_sum y). rewrite Rplus_0_l, <- !rsum_plus. apply rsum_ext. intros p _. unfold delta, hot.
  destruct (Nat.eqb a (v_of p)), (Nat.eqb a (u_of p)), (Nat.eqb b (v_of p)), (Nat.eqb b (u_of p)); cbn [andb]; ring.
Qed.
Lemma W_sum s y F a b : calc_W s y F a b = rsum (map (fun p => paren (z_of s F p) * (coef s p a * coef s p b)) y).
Proof. unfold calc_W. rewrite add_four_sum. apply rsum_ext. intros p _. rewrite !coef_isq. unfold i2var. ring. Qed.
Lemma add_partial_sum y f a b c : forall M, add_up_W_partial y (map f y) M a b c = M a b c + rsum (map (fun p => - f p * (delta p a * delta p b * delta p c)) y).
Proof.
  unfold add_up_W_partial. induction y as [|p y IH]; intro M; [cbn; ring|]. cbn [map combine]. cbn [fold_left]. rewrite IH. change (rsum (?h :: ?t)) with (h + rsum t). cbn [fst snd].
  cbn [fold_left]. unfold add_3. cbn [fst snd]. unfold delta, hot.
  destruct (Nat.eqb a (v_of p)), (Nat.eqb a (u_of p)), (Nat.eqb b (v_of p)), (Nat.eqb b (u_of p)), (Nat.eqb c (v_of p)), (Nat.eqb c (u_of p)); cbn [andb]; ring.
Qed.
Lemma dF_sum s y F a b c : s <> 0 -> calc_W_dF s y F a b c = rsum (map (fun p => let z := z_of s F p in let r := pdf_cdf_ratio z in
   (r - z * z * r - 3 * z * r ^ 2 - 2 * r ^ 2 * npdf z) * (coef s p a * coef s p b * coef s p c)) y).
Proof.
  intro Hs. unfold calc_W_dF. rewrite add_partial_sum, Rplus_0_l. apply rsum_ext. intros p _. cbv zeta. unfold coef. unfold isqrt2sig.
  assert (H2 : sqrt 2 * sqrt 2 = 2) by (apply sqrt_sqrt; lra). assert (0 < sqrt 2) by (apply sqrt_lt_R0; lra).
  generalize (pdf_cdf_ratio (z_of s F p)) (npdf (z_of s F p)) (z_of s F p) (delta p a) (delta p b) (delta p c) (dk_of p). intros r q z da db dc k.
  replace (- 1 / (2 * sqrt 2 * s * s * s)) with (- 1 / ((sqrt 2 * sqrt 2) * sqrt 2 * s * s * s)) by (rewrite H2; reflexivity). field. split; lra.
Qed.

(** ---- derivative of a sum over the pairs ---- *)
Lemma is_derive_rsum {A} (f : A -> R -> R) (df : A -> R) (y : list A) (x : R) : (forall p, In p y -> is_derive (f p) x (df p)) ->
  is_derive (fun t : R => rsum (map (fun p => f p t) y)) x (rsum (map df y)).
Proof.
  induction y as [|p y IH]; intro H; [exact (is_derive_const (K := R_AbsRing) (V := R_NormedModule) 0 x)|]. cbn [map]. change (rsum (df p :: map df y)) with (plus (df p) (rsum (map df y))).
  apply (@is_derive_plus _ _ (fun t => f p t) (fun t => rsum (map (fun p => f p t) y))); [apply H; now left|apply IH; intros; apply H; now right].
Qed.
Lemma z_clip s y F : s <> 0 -> unclipped s y F -> forall p, In p y -> -30 < z_of s F p < 100.
Proof. intros Hs H p Hp. specialize (H p Hp). unfold z_of, isqrt2sig. assert (0 < sqrt 2) by (apply sqrt_lt_R0; lra). replace (1 / (s * sqrt 2) * dk_of p * (F (v_of p) - F (u_of p))) with (dk_of p * (F (v_of p) - F (u_of p)) / (s * sqrt 2)) by (field; split; lra). auto. Qed.
Lemma upd_same F i : forall a, upd F i (F i) a = F a.
Proof. intro a. unfold upd. destruct (Nat.eqb a i) eqn:E; auto. apply Nat.eqb_eq in E. now subst. Qed.
Lemma z_of_ext s F G p : (forall a, F a = G a) -> z_of s F p = z_of s G p.
Proof. intro H. unfold z_of. now rewrite !H. Qed.
Lemma z_upd s F i p t : z_of s (upd F i t) p = z_of s F p + coef s p i * (t - F i).
Proof.
  rewrite coef_isq. unfold z_of, delta, hot, upd. rewrite (Nat.eqb_sym i (v_of p)), (Nat.eqb_sym i (u_of p)).
  destruct (Nat.eqb (v_of p) i) eqn:E1, (Nat.eqb (u_of p) i) eqn:E2; try (apply Nat.eqb_eq in E1; rewrite E1); try (apply Nat.eqb_eq in E2; rewrite E2); ring.
Qed.
Lemma z_derive s F i p (x : R) : is_derive (fun t : R => z_of s (upd F i t) p) x (coef s p i).
Proof.
  apply (is_derive_ext (fun t : R => z_of s F p + coef s p i * (t - F i))); [intro t; symmetry; apply z_upd|]. auto_derive; auto. ring.
Qed.
(** a function agreeing with [g] on the open interval has the same derivative there *)
Lemma interval_locally (z : R) : -30 < z < 100 -> locally z (fun t : R => -30 < t < 100).
Proof.
  intro H. assert (P : 0 < Rmin (z + 30) (100 - z)) by (apply Rmin_glb_lt; lra). exists (mkposreal _ P). intros t Ht. unfold ball in Ht; simpl in Ht. unfold AbsRing_ball, abs, minus, plus, opp in Ht; simpl in Ht.
  assert (Rmin (z + 30) (100 - z) <= z + 30) by apply Rmin_l. assert (Rmin (z + 30) (100 - z) <= 100 - z) by apply Rmin_r. unfold Rabs in Ht. destruct (Rcase_abs _) in Ht; lra.
Qed.
Lemma is_derive_clip (f g : R -> R) (z l : R) : (forall t, -30 < t < 100 -> f t = g t) -> -30 < z < 100 -> is_derive f z l -> is_derive g z l.
Proof. intros E H D. apply (is_derive_ext_loc f); auto. apply (filter_imp (fun t : R => -30 < t < 100)); [exact E|]. now apply interval_locally. Qed.
Lemma clipped_log_derive (z : R) : -30 < z < 100 -> is_derive (fun z => log_ndtr (rclip (-30) 100 z)) z (pdf_cdf_ratio z).
Proof. intro H. rewrite ratio_id by lra. apply (is_derive_clip log_ndtr); auto. { intros t Ht. rewrite rclip_id; auto. lra. } apply log_ndtr_derive. Qed.
Lemma ratio_derive (z : R) : -30 < z < 100 -> is_derive pdf_cdf_ratio z (- paren z).
Proof.
  intro H. apply (is_derive_clip hazard); auto. { intros t Ht. rewrite ratio_id; auto. lra. }
  unfold paren. rewrite ratio_id by lra. evar_last. apply hazard_derive. ring.
Qed.
(** derivative of the curvature of the log likelihood *)
Definition paren' (z : R) : R := let r := pdf_cdf_ratio z in r - z * z * r - 3 * z * r ^ 2 - 2 * r ^ 3.
Lemma paren_derive (z : R) : -30 < z < 100 -> is_derive paren z (paren' z).
Proof.
  intro H. assert (D := ratio_derive z H). unfold paren. evar_last.
  - apply @is_derive_plus.
    + apply (is_derive_mult (fun z => z) pdf_cdf_ratio); [apply @is_derive_id|exact D|]. intros; apply Rmult_comm.
    + apply (is_derive_pow pdf_cdf_ratio 2). exact D.
  - unfold paren', paren, plus, one, mult; simpl; unfold mult; simpl. ring.
Qed.

(** ---- C40 ---- *)
Lemma comp_derive (f g : R -> R) (x lf lg : R) : is_derive f (g x) lf -> is_derive g x lg -> is_derive (fun t => f (g t)) x (lf * lg).
Proof. intros Hf Hg. evar_last. apply (is_derive_comp f g); eauto. change (lg * lf = lf * lg). ring. Qed.
Lemma ll_sum s y F : log_likelihood s y F = rsum (map (fun p => log_ndtr (rclip (-30) 100 (z_of s F p))) y).
Proof. unfold log_likelihood, z_k. now rewrite map_map. Qed.
Lemma pref_gradient s y F i : s <> 0 -> unclipped s y F -> has_partial (log_likelihood s y) i F (derv_log_likelyhood s y F i).
Proof.
  intros Hs H. unfold has_partial. rewrite derv_sum. apply (is_derive_ext (fun t : R => rsum (map (fun p => log_ndtr (rclip (-30) 100 (z_of s (upd F i t) p))) y))); [intro t; symmetry; apply ll_sum|].
  apply (is_derive_rsum (fun p t => log_ndtr (rclip (-30) 100 (z_of s (upd F i t) p)))). intros p Hp. apply (comp_derive (fun z => log_ndtr (rclip (-30) 100 z))); [|apply z_derive].
  rewrite (z_of_ext s (upd F i (F i)) F) by apply upd_same. apply clipped_log_derive. eapply z_clip; eauto.
Qed.
Lemma pref_gradient_derive s y F i j : s <> 0 -> unclipped s y F -> has_partial (fun G => derv_log_likelyhood s y G i) j F (- calc_W s y F i j).
Proof.
  intros Hs H. unfold has_partial. apply (is_derive_ext (fun t : R => rsum (map (fun p => pdf_cdf_ratio (z_of s (upd F j t) p) * coef s p i) y))); [intro t; symmetry; apply derv_sum|].
  rewrite W_sum. replace (- rsum (map (fun p => paren (z_of s F p) * (coef s p i * coef s p j)) y)) with (rsum (map (fun p => - paren (z_of s F p) * coef s p j * coef s p i) y)).
  2: { rewrite <- (Rmult_1_l (rsum (map (fun p => paren _ * _) y))). rewrite Ropp_mult_distr_l, <- rsum_map_scale. apply rsum_ext. intros; ring. }
  apply (is_derive_rsum (fun p t => pdf_cdf_ratio (z_of s (upd F j t) p) * coef s p i)). intros p Hp.
  apply (is_derive_ext (fun t : R => coef s p i * pdf_cdf_ratio (z_of s (upd F j t) p))); [intro; apply Rmult_comm|].
  rewrite (Rmult_comm _ (coef s p i)). apply is_derive_scal. apply (comp_derive pdf_cdf_ratio); [|apply z_derive].
  rewrite (z_of_ext s (upd F j (F j)) F) by apply upd_same. apply ratio_derive. eapply z_clip; eauto.
Qed.
(** the set of unclipped latent vectors is open *)
Lemma unclipped_locally s y F i : unclipped s y F -> locally (F i : R) (fun t : R => unclipped s y (upd F i t)).
Proof.
  induction y as [|p y IH]; intro H.
  - apply filter_forall. intros t p [].
  - assert (H1 := IH ltac:(intros q Hq; apply H; now right)). specialize (H p ltac:(now left)).
    assert (K : locally (F i : R) (fun t : R => -30 < dk_of p * (upd F i t (v_of p) - upd F i t (u_of p)) / (s * sqrt 2) < 100)).
    { set (g := fun t : R => dk_of p * (upd F i t (v_of p) - upd F i t (u_of p)) / (s * sqrt 2)).
      assert (C : continuous g (F i)).
      { apply (ex_derive_continuous g). unfold g, upd. destruct (Nat.eqb (v_of p) i), (Nat.eqb (u_of p) i); unfold Rdiv; auto_derive; auto. }
      apply (C (fun t : R => -30 < t < 100)). apply interval_locally. unfold g. now rewrite !upd_same. }
    generalize (filter_and _ _ H1 K). apply filter_imp. intros t [A B] q [<- |Hq]; auto.
Qed.
Lemma upd_upd_same F j t : forall a, upd (upd F j t) j t a = upd F j t a.
Proof. intro a. unfold upd. destruct (Nat.eqb a j); auto. Qed.
Lemma pref_hessian s y F i j : s <> 0 -> unclipped s y F -> has_partial (partial i (log_likelihood s y)) j F (- calc_W s y F i j).
Proof.
  intros Hs H. unfold has_partial. apply (is_derive_ext_loc (fun t : R => derv_log_likelyhood s y (upd F j t) i)).
  - generalize (unclipped_locally s y F j H). apply filter_imp. intros t Ht. unfold partial. symmetry. apply is_derive_unique. exact (pref_gradient s y (upd F j t) i Hs Ht).
  - now apply pref_gradient_derive.
Qed.

(** ---- C41 ---- *)
Lemma W_symmetric s y F i j : calc_W s y F i j = calc_W s y F j i.
Proof. rewrite !W_sum. apply rsum_ext. intros; ring. Qed.
Lemma sumn_hot n a : (a < n)%nat -> sumn n (fun j => hot j a) = 1.
Proof. intro H. rewrite (sumn_single n _ a H); [unfold hot; now rewrite Nat.eqb_refl|]. intros j _ N. unfold hot. apply Nat.eqb_neq in N. now rewrite N. Qed.
Lemma sumn_rsum {A} n (f : nat -> A -> R) y : sumn n (fun j => rsum (map (f j) y)) = rsum (map (fun p => sumn n (fun j => f j p)) y).
Proof.
  induction y as [|p y IH]; cbn [map]; [apply sumn_0|]. change (rsum (sumn n (fun j => f j p) :: ?t)) with (sumn n (fun j => f j p) + rsum t). rewrite <- IH, <- sumn_plus. apply sumn_ext. reflexivity.
Qed.
Lemma W_row_sum s y F n i : well_formed n y -> sumn n (fun j => calc_W s y F i j) = 0.
Proof.
  intro H. rewrite (sumn_ext n _ (fun j => rsum (map (fun p => paren (z_of s F p) * (coef s p i * coef s p j)) y))) by (intros; apply W_sum). rewrite sumn_rsum.
  rewrite (rsum_ext _ (fun p => 0)); [rewrite rsum_const; ring|]. intros p Hp. destruct (H p Hp) as [H1 [H2 _]].
  rewrite (sumn_ext n _ (fun j => paren (z_of s F p) * coef s p i * isqrt2sig s * dk_of p * (hot j (v_of p) - hot j (u_of p)))) by (intros; rewrite !coef_isq; unfold delta; ring).
  rewrite sumn_scale, sumn_minus, !sumn_hot by auto. ring.
Qed.
Lemma paren_pos z : -30 <= z -> 0 < paren z.
Proof.
  intro H. unfold paren. assert (R := ratio_pos z). replace (z * pdf_cdf_ratio z + pdf_cdf_ratio z ^ 2) with (pdf_cdf_ratio z * (z + pdf_cdf_ratio z)) by ring. apply Rmult_lt_0_compat; auto.
  destruct (Rle_dec z 100); [rewrite ratio_id by lra; apply hazard_mills|lra].
Qed.
Lemma psd_rsum {A} n (f : A -> nat -> nat -> R) y : (forall p, In p y -> psd n (f p)) -> psd n (fun i j => rsum (map (fun p => f p i j) y)).
Proof.
  induction y as [|p y IH]; intro H.
  - intro c. unfold qform. apply sumn_nonneg. intros i _. apply sumn_nonneg. intros j _. cbn. lra.
  - change (psd n (fun i j => f p i j + rsum (map (fun p => f p i j) y))). apply psd_plus; [apply H; now left|apply IH; intros; apply H; now right].
Qed.
Lemma z_not_low s y F : s <> 0 -> not_low s y F -> forall p, In p y -> -30 <= z_of s F p.
Proof. intros Hs H p Hp. specialize (H p Hp). unfold z_of, isqrt2sig. assert (0 < sqrt 2) by (apply sqrt_lt_R0; lra). replace (1 / (s * sqrt 2) * dk_of p * (F (v_of p) - F (u_of p))) with (dk_of p * (F (v_of p) - F (u_of p)) / (s * sqrt 2)) by (field; split; lra). auto. Qed.
Lemma W_psd s y F n : s <> 0 -> not_low s y F -> psd n (calc_W s y F).
Proof.
  intros Hs H. apply (psd_ext n (fun i j => rsum (map (fun p => paren (z_of s F p) * (coef s p i * coef s p j)) y))); [intros; symmetry; apply W_sum|].
  apply (psd_rsum n (fun p i j => paren (z_of s F p) * (coef s p i * coef s p j))). intros p Hp. apply (psd_scale n (fun i j => coef s p i * coef s p j)); [left; apply paren_pos; eapply z_not_low; eauto|apply psd_rank1].
Qed.
Lemma newton_pd n A B : psd n A -> (forall c, (exists i, (i < n)%nat /\ c i <> 0) -> 0 < qform n B c) -> forall c, (exists i, (i < n)%nat /\ c i <> 0) -> 0 < qform n (fun i j => A i j + B i j) c.
Proof. intros HA HB c Hc. rewrite qform_plus. specialize (HA c). specialize (HB c Hc). lra. Qed.
Lemma ll_concave s y F G t : s <> 0 -> unclipped s y F -> unclipped s y G -> 0 <= t <= 1 ->
  t * log_likelihood s y F + (1 - t) * log_likelihood s y G <= log_likelihood s y (fun i => t * F i + (1 - t) * G i).
Proof.
  intros Hs HF HG Ht. rewrite !ll_sum, <- !rsum_map_scale, <- rsum_plus. apply rsum_le. intros p Hp. assert (A := z_clip s y F Hs HF p Hp). assert (B := z_clip s y G Hs HG p Hp).
  replace (z_of s (fun i => t * F i + (1 - t) * G i) p) with (t * z_of s F p + (1 - t) * z_of s G p) by (unfold z_of; ring).
  rewrite !rclip_id by (try lra; nra). now apply log_ndtr_concave.
Qed.
Lemma ratio_low : pdf_cdf_ratio (-31) <= 1.
Proof.
  unfold pdf_cdf_ratio, std_norm_cdf. rewrite rclip_low by lra.
  destruct (MVT_gen ndtr (-31) (-30) npdf) as [c [Hc1 Hc2]]; [intros; apply ndtr_derive|intros; apply ndtr_continuous|]. rewrite Rmin_left, Rmax_right in Hc1 by lra.
  assert (R := ndtr_range (-31)). assert (npdf (-31) <= npdf c).
  { unfold npdf, Rdiv. apply Rmult_le_compat_r; [left; apply Rinv_0_lt_compat, s2pi_pos|]. destruct (Req_dec c (-31)) as [-> |N]; [lra|]. left. apply exp_increasing. nra. }
  assert (0 < ndtr (-30)) by apply ndtr_range. apply Rmult_le_reg_r with (ndtr (-30)); auto. unfold Rdiv. rewrite Rmult_assoc, Rinv_l by lra. lra.
Qed.
Lemma W_not_psd : forall s, 0 < s -> exists F, well_formed 2 ((1%Z, 0%nat, 1%nat) :: nil) /\ calc_W s ((1%Z, 0%nat, 1%nat) :: nil) F 0%nat 0%nat < 0.
Proof.
  intros s Hs. exists (fun i => if Nat.eqb i 0 then 31 * (s * sqrt 2) else 0). assert (0 < sqrt 2) by (apply sqrt_lt_R0; lra). split.
  - intros p [<- |[]]. cbn. repeat split; try lia. now left.
  - rewrite W_sum. cbn [map rsum]. change (rsum (?a :: nil)) with (a + 0). rewrite Rplus_0_r.
    match goal with |- paren ?z * _ < 0 => replace z with (-31) end. 2: { unfold z_of, isqrt2sig, dk_of, v_of, u_of. cbn [fst snd Nat.eqb]. field. lra. }
    assert (R := ratio_pos (-31)). assert (L := ratio_low). assert (P : paren (-31) < 0) by (unfold paren; nra).
    unfold coef, isqrt2sig, dk_of, delta, hot, v_of, u_of. cbn [fst snd Nat.eqb]. assert (0 < 1 / (s * sqrt 2)) by (apply Rdiv_lt_0_compat; [lra|apply Rmult_lt_0_compat; lra]).
    replace (paren (-31) * (1 / (s * sqrt 2) * 1 * (0 - 1) * (1 / (s * sqrt 2) * 1 * (0 - 1)))) with (- ((1 / (s * sqrt 2) * (1 / (s * sqrt 2))) * (- paren (-31)))) by ring.
    assert (0 < (1 / (s * sqrt 2) * (1 / (s * sqrt 2))) * (- paren (-31))); [|lra]. apply Rmult_lt_0_compat; [apply Rmult_lt_0_compat; auto|lra].
Qed.

(** ---- C42 ---- *)
Lemma z_sigma_derive (F : vec) p (s : R) : s <> 0 -> is_derive (fun s : R => z_of s F p) s (- z_of s F p / s).
Proof.
  intro Hs. assert (0 < sqrt 2) by (apply sqrt_lt_R0; lra). unfold z_of, isqrt2sig. auto_derive; [apply Rmult_integral_contrapositive; split; lra|]. field. split; lra.
Qed.
Lemma grad_hyper_derive y F (s : R) : s <> 0 -> unclipped s y F -> is_derive (fun s : R => log_likelihood s y F) s (grad_hyper s y F).
Proof.
  intros Hs H. apply (is_derive_ext (fun s : R => rsum (map (fun p => log_ndtr (rclip (-30) 100 (z_of s F p))) y))); [intro t; symmetry; apply ll_sum|].
  replace (grad_hyper s y F) with (rsum (map (fun p => pdf_cdf_ratio (z_of s F p) * (- z_of s F p / s)) y)).
  2: { unfold grad_hyper, z_k. rewrite map_map. replace (- rsum (map (fun x => z_of s F x * pdf_cdf_ratio (z_of s F x)) y) / s) with ((- / s) * rsum (map (fun x => z_of s F x * pdf_cdf_ratio (z_of s F x)) y)) by (field; auto).
       rewrite <- rsum_map_scale. apply rsum_ext. intros; field; auto. }
  apply (is_derive_rsum (fun p s => log_ndtr (rclip (-30) 100 (z_of s F p)))). intros p Hp. apply (comp_derive (fun z => log_ndtr (rclip (-30) 100 z)) (fun s => z_of s F p)); [|now apply z_sigma_derive].
  apply clipped_log_derive. eapply z_clip; eauto.
Qed.
Lemma coef_sigma_derive p a (s : R) : s <> 0 -> is_derive (fun s : R => coef s p a) s (- coef s p a / s).
Proof.
  intro Hs. assert (0 < sqrt 2) by (apply sqrt_lt_R0; lra). unfold coef, isqrt2sig. auto_derive; [apply Rmult_integral_contrapositive; split; lra|]. field. split; lra.
Qed.
Lemma dHyper_sum s y F i j : s <> 0 -> calc_W_dHyper s y F i j = rsum (map (fun p => let z := z_of s F p in
   (paren' z * (- z / s) - 2 / s * paren z) * (coef s p i * coef s p j)) y).
Proof.
  intro Hs. unfold calc_W_dHyper. rewrite add_four_sum. apply rsum_ext. intros p _. cbv zeta. unfold paren', paren, pdf_cdf_ratio, coef, isqrt2sig.
  assert (C := std_norm_cdf_range (z_of s F p)). assert (H2 : sqrt 2 * sqrt 2 = 2) by (apply sqrt_sqrt; lra). assert (0 < sqrt 2) by (apply sqrt_lt_R0; lra).
  generalize dependent (std_norm_cdf (z_of s F p)). generalize (npdf (z_of s F p)) (z_of s F p) (delta p i) (delta p j) (dk_of p). intros q z a b k c Hc.
  replace (1 / (s * sqrt 2) * k * a * (1 / (s * sqrt 2) * k * b)) with (k * k * a * b / (s * s * (sqrt 2 * sqrt 2))) by (field; split; lra). rewrite H2. field. split; lra.
Qed.
Lemma W_sigma_derive y F i j (s : R) : s <> 0 -> unclipped s y F -> is_derive (fun s : R => calc_W s y F i j) s (calc_W_dHyper s y F i j).
Proof.
  intros Hs H. apply (is_derive_ext (fun s : R => rsum (map (fun p => paren (z_of s F p) * (coef s p i * coef s p j)) y))); [intro t; symmetry; apply W_sum|].
  rewrite dHyper_sum by auto. apply (is_derive_rsum (fun p s => paren (z_of s F p) * (coef s p i * coef s p j))). intros p Hp. cbv zeta.
  assert (Z := z_clip s y F Hs H p Hp). evar_last.
  - apply (is_derive_mult (fun s => paren (z_of s F p)) (fun s => coef s p i * coef s p j)).
    + apply (comp_derive paren (fun s => z_of s F p)); [now apply paren_derive|now apply z_sigma_derive].
    + apply (is_derive_mult (fun s => coef s p i) (fun s => coef s p j)); [now apply coef_sigma_derive|now apply coef_sigma_derive|intros; apply Rmult_comm].
    + intros; apply Rmult_comm.
  - unfold plus, mult; simpl; unfold mult; simpl. field. auto.
Qed.
Lemma W_F_derive s y F i j k : s <> 0 -> unclipped s y F -> has_partial (fun G => calc_W s y G i j) k F
  (calc_W_dF s y F i j k - rsum (map (fun p => 2 * pdf_cdf_ratio (z_of s F p) ^ 2 * (pdf_cdf_ratio (z_of s F p) - npdf (z_of s F p)) * (coef s p i * coef s p j * coef s p k)) y)).
Proof.
  intros Hs H. unfold has_partial. apply (is_derive_ext (fun t : R => rsum (map (fun p => paren (z_of s (upd F k t) p) * (coef s p i * coef s p j)) y))); [intro t; symmetry; apply W_sum|].
  rewrite dF_sum by auto. rewrite <- rsum_minus.
  rewrite (rsum_ext _ (fun p => coef s p i * coef s p j * (paren' (z_of s F p) * coef s p k))) by (intros p _; cbv zeta; unfold paren'; ring).
  apply (is_derive_rsum (fun p t => paren (z_of s (upd F k t) p) * (coef s p i * coef s p j))). intros p Hp.
  apply (is_derive_ext (fun t : R => (coef s p i * coef s p j) * paren (z_of s (upd F k t) p))); [intro; apply Rmult_comm|]. apply is_derive_scal.
  apply (comp_derive paren); [|apply z_derive]. rewrite (z_of_ext s (upd F k (F k)) F) by apply upd_same. apply paren_derive. eapply z_clip; eauto.
Qed.
Lemma W_F_wrong : forall s, 0 < s -> exists y F, well_formed 2 y /\ unclipped s y F /\ ~ has_partial (fun G => calc_W s y G 0%nat 0%nat) 0 F (calc_W_dF s y F 0%nat 0%nat 0%nat).
Proof.
  intros s Hs. assert (0 < sqrt 2) by (apply sqrt_lt_R0; lra). exists ((1%Z, 0%nat, 1%nat) :: nil), (fun _ => 0). 
  assert (U : unclipped s ((1%Z, 0%nat, 1%nat) :: nil) (fun _ => 0)). { intros p [<- |[]]. unfold dk_of. cbn [fst snd]. replace (1 * (0 - 0) / (s * sqrt 2)) with 0 by (field; lra). lra. }
  split; [|split; auto].
  - intros p [<- |[]]. cbn. repeat split; try lia. now left.
  - intro D. assert (E := W_F_derive s _ _ 0 0 0 ltac:(lra) U). unfold has_partial in D, E. apply is_derive_unique in D. apply is_derive_unique in E. rewrite D in E. clear D. cbn [map] in E. change (rsum (?a :: nil)) with (a + 0) in E.
    rewrite !coef_isq in E. unfold delta, hot, v_of, u_of, dk_of in E. cbn [fst snd Nat.eqb] in E.
    replace (z_of s (fun _ => 0) (1%Z, 0%nat, 1%nat)) with 0 in E by (unfold z_of; ring). assert (R := ratio_pos 0). 
    assert (B : pdf_cdf_ratio 0 = 2 * npdf 0). { rewrite ratio_id by lra. unfold hazard. rewrite ndtr_0. field. }
    assert (P := npdf_pos 0). set (q := npdf 0) in *. rewrite B in E. set (c := isqrt2sig s) in *. assert (0 < c) by (unfold c, isqrt2sig; apply Rdiv_lt_0_compat; [lra|apply Rmult_lt_0_compat; lra]).
    clearbody q c. assert (Z : 8 * q ^ 3 * c ^ 3 = 0) by (ring_simplify in E; ring_simplify; lra). assert (0 < 8 * q ^ 3 * c ^ 3); [|lra]. apply Rmult_lt_0_compat; [apply Rmult_lt_0_compat; [lra|]|]; apply pow_lt; auto.
Qed.

(** ---- C39 ---- *)
Lemma isqrt_pos s : 0 < s -> 0 < isqrt2sig s.
Proof. intro. assert (0 < sqrt 2) by (apply sqrt_lt_R0; lra). unfold isqrt2sig. apply Rdiv_lt_0_compat; [lra|]. now apply Rmult_lt_0_compat. Qed.
Lemma cdf_half z : 1 / 2 < std_norm_cdf z <-> 0 < z.
Proof.
  split; intro H.
  - destruct (Rlt_dec 0 z); auto. assert (K := std_norm_cdf_le z 0 ltac:(lra)). rewrite (std_norm_cdf_id 0), ndtr_0 in K by lra. lra.
  - rewrite <- ndtr_0. unfold std_norm_cdf. apply ndtr_increasing. unfold rclip, Rmin, Rmax. repeat destruct (Rle_dec _ _); lra.
Qed.
Lemma z_sign s F p : 0 < s -> dk_of p = 1 \/ dk_of p = -1 -> (0 < z_of s F p <-> agrees F p).
Proof.
  intros Hs D. assert (I := isqrt_pos s Hs). unfold z_of, agrees. destruct D as [-> | ->]; split.
  - intro H. left. split; auto. destruct (Rlt_dec (F (u_of p)) (F (v_of p))); auto. exfalso. assert (0 <= isqrt2sig s * (F (u_of p) - F (v_of p))) by (apply Rmult_le_pos; lra). lra.
  - intros [[_ H]|[H _]]; [|lra]. rewrite Rmult_1_r. apply Rmult_lt_0_compat; lra.
  - intro H. right. split; auto. destruct (Rlt_dec (F (v_of p)) (F (u_of p))); auto. exfalso. assert (0 <= isqrt2sig s * (F (v_of p) - F (u_of p))) by (apply Rmult_le_pos; lra). lra.
  - intros [[H _]|[_ H]]; [lra|]. assert (0 < isqrt2sig s * (F (u_of p) - F (v_of p))) by (apply Rmult_lt_0_compat; lra). lra.
Qed.
Lemma likelihood_nth s y F i p : nth_error y i = Some p -> nth_error (likelihood s y F) i = Some (std_norm_cdf (z_of s F p)).
Proof. intro H. unfold likelihood, z_k. rewrite map_map. now apply (map_nth_error (fun p => std_norm_cdf (z_of s F p))). Qed.
Lemma likelihood_agrees s y F i p : 0 < s -> nth_error y i = Some p -> dk_of p = 1 \/ dk_of p = -1 ->
  exists q, nth_error (likelihood s y F) i = Some q /\ 0 < q < 1 /\ (1 / 2 < q <-> agrees F p).
Proof.
  intros Hs H D. eexists. split; [apply likelihood_nth; eauto|]. split; [apply std_norm_cdf_range|]. rewrite cdf_half. now apply z_sign.
Qed.
Lemma z_mono s F G p : 0 < s -> dk_of p * (F (v_of p) - F (u_of p)) < dk_of p * (G (v_of p) - G (u_of p)) -> z_of s F p < z_of s G p.
Proof. intros Hs H. unfold z_of. rewrite !Rmult_assoc. apply Rmult_lt_compat_l; auto. now apply isqrt_pos. Qed.
Lemma likelihood_grows s y F G i p a b : 0 < s -> nth_error y i = Some p -> dk_of p * (F (v_of p) - F (u_of p)) < dk_of p * (G (v_of p) - G (u_of p)) ->
  nth_error (likelihood s y F) i = Some a -> nth_error (likelihood s y G) i = Some b -> a <= b /\ (unclipped s y F -> unclipped s y G -> a < b).
Proof.
  intros Hs H L. rewrite !(likelihood_nth s y _ i p H). intros [= <-] [= <-]. assert (Z := z_mono s F G p Hs L). split; [apply std_norm_cdf_le; lra|].
  intros UF UG. assert (Hp : In p y) by (eapply nth_error_In; eauto). assert (A := z_clip s y F ltac:(lra) UF p Hp). assert (B := z_clip s y G ltac:(lra) UG p Hp). rewrite !std_norm_cdf_id by lra. now apply ndtr_increasing.
Qed.
Lemma cdf_complement z : Rabs (std_norm_cdf z + std_norm_cdf (- z) - 1) < exp (-450) /\ (-30 <= z <= 30 -> std_norm_cdf z + std_norm_cdf (- z) = 1).
Proof.
  assert (K : -30 <= z <= 30 -> std_norm_cdf z + std_norm_cdf (- z) = 1) by (intro H; rewrite !std_norm_cdf_id, ndtr_sym by lra; ring). split; auto.
  assert (P := exp_pos (-450)).
  assert (L : forall w, 30 < w -> Rabs (std_norm_cdf w + std_norm_cdf (- w) - 1) < exp (-450)).
  { intros w Hw. replace (std_norm_cdf (- w)) with (ndtr (-30)) by (unfold std_norm_cdf; rewrite (rclip_low (-30) 100 (- w)) by lra; auto).
    assert (A : ndtr 30 < std_norm_cdf w). { unfold std_norm_cdf. apply ndtr_increasing. unfold rclip, Rmin, Rmax. repeat destruct (Rle_dec _ _); lra. }
    assert (R := std_norm_cdf_range w). assert (T := ndtr_tail 30 ltac:(lra)). replace (- 30 ^ 2 / 2) with (-450) in T by field. assert (S := ndtr_sym 30). replace (- (30)) with (-30) in S by ring. rewrite S. unfold Rabs. destruct (Rcase_abs _); lra. }
  destruct (Rlt_dec 30 z); [auto|]. destruct (Rlt_dec z (-30)).
  - replace (std_norm_cdf z + std_norm_cdf (- z) - 1) with (std_norm_cdf (- z) + std_norm_cdf (- - z) - 1) by (rewrite Ropp_involutive; ring). apply L. lra.
  - rewrite K by lra. unfold Rminus. rewrite Rplus_opp_r, Rabs_R0. auto.
Qed.
(** the opposite statement: the points swapped, or the sign flipped *)
Lemma likelihood_opposite s F d u v : likelihood s ((d, v, u) :: nil) F = likelihood s ((Z.opp d, u, v) :: nil) F /\
  forall a b, likelihood s ((d, u, v) :: nil) F = a :: nil -> likelihood s ((d, v, u) :: nil) F = b :: nil -> Rabs (a + b - 1) < exp (-450) /\ (unclipped s ((d, u, v) :: (d, v, u) :: nil) F -> s <> 0 -> a + b = 1).
Proof.
  unfold likelihood, z_k. cbn [map]. assert (E : z_of s F (d, v, u) = - z_of s F (d, u, v)) by (unfold z_of, dk_of, v_of, u_of; cbn [fst snd]; ring). split.
  - do 2 f_equal. unfold z_of, dk_of, v_of, u_of. cbn [fst snd]. rewrite opp_IZR. ring.
  - intros a b [= <-] [= <-]. rewrite E. destruct (cdf_complement (z_of s F (d, u, v))) as [A B]. split; auto. intros U Hs. apply B.
    assert (A1 := z_clip s _ F Hs U (d, u, v) ltac:(now left)). assert (A2 := z_clip s _ F Hs U (d, v, u) ltac:(right; now left)). rewrite E in A2. lra.
Qed.
Lemma all_pairs_agree s F i j : likelihood s ((1%Z, j, i) :: nil) F = likelihood_all_pairs s F i j :: nil.
Proof. unfold likelihood, z_k, likelihood_all_pairs, z_of, dk_of, v_of, u_of. cbn [map fst snd]. do 2 f_equal. ring. Qed.
Lemma preference_half s F u v : 0 < s -> forall a, likelihood s (preference u v :: nil) F = a :: nil -> (1 / 2 < a <-> F v < F u).
Proof.
  intros Hs a [= <-]. rewrite cdf_half. rewrite (z_sign s F (preference u v) Hs) by (right; reflexivity). unfold agrees, dk_of, preference, u_of, v_of. cbn [fst snd]. replace (IZR (get_dk 1 0)) with (-1) by reflexivity. split.
  - intros [[H _]|[_ H]]; [lra|auto].
  - intro H. right. split; auto.
Qed.
