(** Derivatives of the log likelihood of all labels along a direction. *)
From Coquelicot Require Import Coquelicot.
From Coq Require Import Reals Lra Lia List.
From Verif Require Import M_RBase M_Normal M_PrefProbit M_OrdProbit M_AbsProbit M_Acq M_GP M_Fit S_PrefProbit S_OrdProbit S_AbsProbit S_Fit P_RBase P_Normal P_PrefProbit P_Put P_OrdProbit P_AbsProbit.
From Verif Require Import S_Psd P_Psd.
Local Open Scope R_scope.

(** the gradient parts of [dotn] *)
Lemma along_0 F e i : along F e 0 i = F i.
Proof. unfold along. ring. Qed.
Lemma along_derive F e i (t : R) : is_derive (fun t : R => along F e t i) t (e i).
Proof. unfold along. auto_derive; auto. ring. Qed.
(** a sum of functions of single entries *)
Definition dsum {A} (dL : A -> R -> R) (y : list (A * nat)) (F e : nat -> R) : R := rsum (map (fun p => dL (fst p) (F (snd p)) * e (snd p)) y).
Lemma LLsum_direction {A} (L dL : A -> R -> R) (y : list (A * nat)) F e : (forall p, In p y -> is_derive (L (fst p)) (F (snd p)) (dL (fst p) (F (snd p)))) ->
  has_direction (LLsum L y) F e (dsum dL y F e).
Proof.
  intro D. unfold has_direction, LLsum, dsum. apply (is_derive_rsum (fun p t => L (fst p) (along F e t (snd p)))). intros p Hp.
  apply (comp_derive (L (fst p)) (fun t => along F e t (snd p))); [rewrite along_0; now apply D|apply along_derive].
Qed.
Lemma sumn_if n u (c : R) (e : nat -> R) : (u < n)%nat -> sumn n (fun i => (if Nat.eqb i u then c else 0) * e i) = c * e u.
Proof.
  intro H. rewrite (sumn_single n _ u H); [now rewrite Nat.eqb_refl|]. intros i _ N. apply Nat.eqb_neq in N. rewrite N. ring.
Qed.
Lemma put_dot {A} (f : A * nat -> R) (y : list (A * nat)) n e : NoDup (map snd y) -> (forall p, In p y -> (snd p < n)%nat) ->
  dotn n (put_vec (map snd y) (map f y) (fun _ => 0)) e = rsum (map (fun p => f p * e (snd p)) y).
Proof.
  intros N B. unfold dotn. rewrite (sumn_ext n _ (fun i => rsum (map (fun p => (if Nat.eqb i (snd p) then f p else 0) * e i) y))).
  - rewrite (sumn_rsum n (fun i p => (if Nat.eqb i (snd p) then f p else 0) * e i)). apply rsum_ext. intros p Hp. now apply sumn_if, B.
  - intros i _. rewrite (put_vec_sum y f i N) by reflexivity. rewrite Rmult_comm, <- rsum_map_scale. apply rsum_ext. intros; ring.
Qed.
(** comparisons *)
Definition dz (s : R) (p : pair) (e : nat -> R) : R := isqrt2sig s * dk_of p * (e (v_of p) - e (u_of p)).
Lemma z_along s F e p t : z_of s (along F e t) p = z_of s F p + t * dz s p e.
Proof. unfold z_of, along, dz. ring. Qed.
Lemma z_along_derive s F e p (t : R) : is_derive (fun t : R => z_of s (along F e t) p) t (dz s p e).
Proof. apply (is_derive_ext (fun t : R => z_of s F p + t * dz s p e)); [intro; symmetry; apply z_along|]. auto_derive; auto. ring. Qed.
Lemma LLp_z s y F : s <> 0 -> LLp s y F = rsum (map (fun p => log_ndtr (z_of s F p)) y).
Proof.
  intro Hs. unfold LLp. apply rsum_ext. intros p _. unfold log_ndtr. do 2 f_equal. unfold z_of, isqrt2sig. field. split; [apply Rgt_not_eq, sqrt2_pos|auto].
Qed.
Definition dLLp (s : R) (y : list pair) (F e : nat -> R) : R := rsum (map (fun p => pdf_cdf_ratio (z_of s F p) * dz s p e) y).
Lemma LLp_direction s y F e : s <> 0 -> unclipped s y F -> has_direction (LLp s y) F e (dLLp s y F e).
Proof.
  intros Hs U. unfold has_direction. apply (is_derive_ext (fun t : R => rsum (map (fun p => log_ndtr (z_of s (along F e t) p)) y))); [intro t; symmetry; now apply LLp_z|].
  unfold dLLp. apply (is_derive_rsum (fun p t => log_ndtr (z_of s (along F e t) p))). intros p Hp. assert (Z := z_clip s y F Hs U p Hp).
  apply (comp_derive log_ndtr (fun t => z_of s (along F e t) p)); [|apply z_along_derive]. replace (z_of s (along F e 0) p) with (z_of s F p) by (rewrite z_along; ring).
  rewrite ratio_id by lra. apply log_ndtr_derive.
Qed.
Lemma coef_dot s p n e : (u_of p < n)%nat -> (v_of p < n)%nat -> sumn n (fun i => coef s p i * e i) = dz s p e.
Proof.
  intros Hu Hv. unfold dz. rewrite (sumn_ext n _ (fun i => isqrt2sig s * dk_of p * (hot i (v_of p) * e i - hot i (u_of p) * e i))) by (intros; rewrite coef_isq; unfold delta; ring).
  rewrite sumn_scale, sumn_minus. unfold hot. rewrite (sumn_if n (v_of p) 1 e Hv), (sumn_if n (u_of p) 1 e Hu). ring.
Qed.
Lemma derv_dot s y F n e : well_formed n y -> dotn n (derv_log_likelyhood s y F) e = dLLp s y F e.
Proof.
  intro H. unfold dotn. rewrite (sumn_ext n _ (fun i => rsum (map (fun p => pdf_cdf_ratio (z_of s F p) * coef s p i * e i) y))).
  - rewrite (sumn_rsum n (fun i p => pdf_cdf_ratio (z_of s F p) * coef s p i * e i)). unfold dLLp. apply rsum_ext. intros p Hp. destruct (H p Hp) as [Hu [Hv _]].
    rewrite <- (coef_dot s p n e Hu Hv), <- sumn_scale. apply sumn_ext. intros; ring.
  - intros i _. rewrite derv_sum, Rmult_comm, <- rsum_map_scale. apply rsum_ext. intros; ring.
Qed.
Lemma W_bform s y F n e e' : well_formed n y -> bform n (calc_W s y F) e e' = rsum (map (fun p => paren (z_of s F p) * dz s p e * dz s p e') y).
Proof.
  intro H. unfold bform. rewrite (sumn_ext n _ (fun i => rsum (map (fun p => paren (z_of s F p) * (coef s p i * e i) * dz s p e') y))).
  - rewrite (sumn_rsum n (fun i p => paren (z_of s F p) * (coef s p i * e i) * dz s p e')). apply rsum_ext. intros p Hp. destruct (H p Hp) as [Hu [Hv _]].
    rewrite sumn_scale_r, sumn_scale, (coef_dot s p n e Hu Hv). ring.
  - intros i _. rewrite (sumn_ext n _ (fun j => rsum (map (fun p => paren (z_of s F p) * (coef s p i * e i) * (coef s p j * e' j)) y))).
    + rewrite (sumn_rsum n (fun j p => paren (z_of s F p) * (coef s p i * e i) * (coef s p j * e' j))). apply rsum_ext. intros p Hp. destruct (H p Hp) as [Hu [Hv _]].
      rewrite sumn_scale, (coef_dot s p n e' Hu Hv). ring.
    + intros j _. rewrite W_sum. rewrite Rmult_assoc, (Rmult_comm _ (e' j)), <- Rmult_assoc, <- rsum_map_scale. apply rsum_ext. intros; ring.
Qed.
(** second derivative of the comparisons *)
Lemma unclipped_along s y F e : s <> 0 -> unclipped s y F -> locally (0 : R) (fun t : R => unclipped s y (along F e t)).
Proof.
  intros Hs U. unfold unclipped in *. apply (locally_all y 0 (fun p t => -30 < dk_of p * (along F e t (v_of p) - along F e t (u_of p)) / (s * sqrt 2) < 100)). intros p Hp.
  apply (between_locally (fun t => dk_of p * (along F e t (v_of p) - along F e t (u_of p)) / (s * sqrt 2))).
  - apply (ex_derive_continuous (fun t : R => dk_of p * (along F e t (v_of p) - along F e t (u_of p)) / (s * sqrt 2))). unfold along. auto_derive. auto.
  - rewrite !along_0. now apply U.
Qed.
Lemma dLLp_direction s y F e e' : s <> 0 -> unclipped s y F -> has_direction (fun G => dLLp s y G e) F e' (- rsum (map (fun p => paren (z_of s F p) * dz s p e * dz s p e') y)).
Proof.
  intros Hs U. unfold has_direction, dLLp. rewrite <- (Rmult_1_l (rsum _)), Ropp_mult_distr_l, <- rsum_map_scale.
  apply (is_derive_rsum (fun p t => pdf_cdf_ratio (z_of s (along F e' t) p) * dz s p e)). intros p Hp. assert (Z := z_clip s y F Hs U p Hp).
  evar_last. { apply (rmult_derive (fun t : R => pdf_cdf_ratio (z_of s (along F e' t) p)) (fun _ => dz s p e)); [|apply rconst_derive].
    apply (comp_derive pdf_cdf_ratio (fun t => z_of s (along F e' t) p)); [|apply z_along_derive]. replace (z_of s (along F e' 0) p) with (z_of s F p) by (rewrite z_along; ring). now apply ratio_derive. }
  cbv beta. ring.
Qed.
Lemma pref_second s y F n e e' : s <> 0 -> unclipped s y F -> well_formed n y -> has_direction (direction (LLp s y) e) F e' (- bform n (calc_W s y F) e e').
Proof.
  intros Hs U H. rewrite (W_bform s y F n e e' H). unfold has_direction. apply (is_derive_ext_loc (fun t : R => dLLp s y (along F e' t) e)).
  - generalize (unclipped_along s y F e' Hs U). apply filter_imp. intros t Ht. unfold direction. symmetry. apply is_derive_unique. exact (LLp_direction s y (along F e' t) e Hs Ht).
  - now apply dLLp_direction.
Qed.
(** ratings *)
Lemma rating_direction sp a eps y F e n : gamma_facts sp -> 0 < a_v a -> NoDup (map snd y) -> (forall p, In p y -> (snd p < n)%nat) -> all_free eps (a_sigma a) y F ->
  has_direction (LLa sp (a_v a) (a_sigma a) y) F e (dotn n (snd (fst (abs_derivatives sp a eps y F))) e).
Proof.
  intros G V N B H. unfold abs_derivatives. cbn [fst snd]. rewrite (map_ext_in _ (fun p => A_ (a_v a) (a_sigma a) (F (snd p)) * T_ sp (a_v a) (a_sigma a) (fst p) (F (snd p)))) by (intros p Hp; apply dpy_exact; now apply H).
  rewrite (put_dot (fun p => A_ (a_v a) (a_sigma a) (F (snd p)) * T_ sp (a_v a) (a_sigma a) (fst p) (F (snd p))) y n e N B).
  apply (LLsum_direction (fun x f => rating_ll sp (a_v a) (a_sigma a) x f) (fun x f => A_ (a_v a) (a_sigma a) f * T_ sp (a_v a) (a_sigma a) x f)). intros p _. now apply rating_derive.
Qed.
Lemma put_bform {A} (f : A * nat -> R) (y : list (A * nat)) n e e' : NoDup (map snd y) -> (forall p, In p y -> (snd p < n)%nat) ->
  bform n (put_diag (map snd y) (map f y)) e e' = rsum (map (fun p => f p * e (snd p) * e' (snd p)) y).
Proof.
  intros N B. rewrite <- (put_dot (fun p => f p * e (snd p)) y n e' N B). unfold bform, dotn. rewrite sumn_swap. apply sumn_ext. intros j Hj. rewrite (sumn_single n _ j Hj).
  - unfold put_diag. rewrite Nat.eqb_refl, (put_vec_sum y f j N), (put_vec_sum y (fun p => f p * e (snd p)) j N) by reflexivity. rewrite <- rsum_map_scale. f_equal. apply rsum_ext. intros p _.
    destruct (Nat.eqb j (snd p)) eqn:E; [apply Nat.eqb_eq in E; subst j; ring|ring].
  - intros i _ D. unfold put_diag. apply Nat.eqb_neq in D. rewrite D. ring.
Qed.
Lemma rating_second sp a eps y F e e' n : gamma_facts sp -> 0 < a_v a -> NoDup (map snd y) -> (forall p, In p y -> (snd p < n)%nat) -> all_free eps (a_sigma a) y F ->
  has_direction (direction (LLa sp (a_v a) (a_sigma a) y) e) F e' (- bform n (fst (fst (abs_derivatives sp a eps y F))) e e').
Proof.
  intros G V N B H. set (L := fun x f => rating_ll sp (a_v a) (a_sigma a) x f). set (dL := fun x f => A_ (a_v a) (a_sigma a) f * T_ sp (a_v a) (a_sigma a) x f).
  assert (D1 : forall G' : nat -> R, direction (LLa sp (a_v a) (a_sigma a) y) e G' = dsum dL y G' e).
  { intro G'. apply is_derive_unique. apply (LLsum_direction L dL). intros p _. now apply rating_derive. }
  unfold has_direction. apply (is_derive_ext (fun t : R => dsum dL y (along F e' t) e)); [intro t; symmetry; apply D1|].
  replace (- bform n (fst (fst (abs_derivatives sp a eps y F))) e e') with (rsum (map (fun p => - W_ sp (a_v a) (a_sigma a) (fst p) (F (snd p)) * e' (snd p) * e (snd p)) y)).
  - unfold dsum. apply (is_derive_rsum (fun p t => dL (fst p) (along F e' t (snd p)) * e (snd p))). intros p Hp.
    evar_last. { apply (rmult_derive (fun t : R => dL (fst p) (along F e' t (snd p))) (fun _ => e (snd p))); [|apply rconst_derive].
      apply (comp_derive (dL (fst p)) (fun t => along F e' t (snd p))); [rewrite along_0; now apply grad_derive|apply along_derive]. }
    cbv beta. ring.
  - unfold abs_derivatives. cbn [fst snd]. rewrite (map_ext_in (abs_Wdiag sp a eps F) (fun p => - W_ sp (a_v a) (a_sigma a) (fst p) (F (snd p)))) by (intros p Hp; apply Wdiag_exact; now apply H).
    transitivity (bform n (put_diag (map snd y) (map (fun p => - W_ sp (a_v a) (a_sigma a) (fst p) (F (snd p))) y)) e e').
    + rewrite (put_bform (fun p => - W_ sp (a_v a) (a_sigma a) (fst p) (F (snd p))) y n e e' N B). apply rsum_ext. intros; ring.
    + unfold bform. rewrite <- (Rmult_1_l (sumn n _)), <- (Ropp_involutive 1), <- Ropp_mult_distr_l. rewrite <- sumn_scale. f_equal. apply sumn_ext. intros i _. rewrite <- sumn_scale. apply sumn_ext. intros; ring.
Qed.
(** ordinal labels *)
Lemma ordinal_direction o eps y F n : o_sigma o <> 0 -> 0 < eps -> NoDup (map snd y) -> valid o y -> (forall p, In p y -> (snd p < n)%nat) ->
  (forall p, In p y -> label_unclipped (o_n o) (o_sigma o) (o_b o) (fst p) (F (snd p)) /\ eps <= label_prob (o_n o) (o_sigma o) (o_b o) (fst p) (F (snd p))) ->
  exists W g, ord_derivatives o eps y F = Ok (W, g, Some (LLo o y F)) /\ forall e, has_direction (LLo o y) F e (dotn n g e).
Proof.
  intros Sg E N V B U. unfold ord_derivatives. rewrite each_ok by auto. cbn [bind]. rewrite combine_map_self, !map_map. cbn [fst snd]. eexists. eexists. split.
  - f_equal. f_equal. rewrite <- (map_map (fun p => lik o (fst p) (F (snd p))) np_log). rewrite (osum_some (fun p => lik o (fst p) (F (snd p)))).
    + f_equal. apply rsum_ext. intros p Hp. rewrite unclipped_lik; [auto|apply V; auto|apply U; auto].
    + intros p Hp. rewrite unclipped_lik; [|apply V; auto|apply U; auto]. destruct (U p Hp). lra.
  - intro e. rewrite (put_dot (fun p => fst (ord_derv o eps (fst p) (F (snd p)) (lik o (fst p) (F (snd p))))) y n e N B).
    rewrite (rsum_ext _ (fun p => dlab o (fst p) (F (snd p)) * e (snd p))).
    + apply (LLsum_direction (fun k f => ln (label_prob (o_n o) (o_sigma o) (o_b o) k f)) (dlab o)). intros p Hp. destruct (U p Hp). apply log_label_derive; [apply V; auto|lra].
    + intros p Hp. destruct (U p Hp) as [U1 U2]. unfold ord_derv. rewrite unclipped_lik by (auto; apply V; auto). replace (Rltb _ eps) with false by (symmetry; now apply Rltb_false). reflexivity.
Qed.
