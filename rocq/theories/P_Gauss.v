(** The Gaussian integral. *)
From Coquelicot Require Import Coquelicot.
From Coq Require Import Reals Lra Lia.
Local Open Scope R_scope.

Definition gE (t : R) : R := exp (- (t ^ 2) / 2).
Lemma gE_continuous x : continuous gE x.
Proof. apply (ex_derive_continuous gE). unfold gE. auto_derive. auto. Qed.
Lemma gE_ex a b : ex_RInt gE a b.
Proof. apply (ex_RInt_continuous (V := R_CompleteNormedModule)). intros; apply gE_continuous. Qed.
Definition gI (x : R) : R := RInt gE 0 x.
Lemma gI_derive (x : R) : is_derive gI x (gE x).
Proof.
  apply (is_derive_RInt gE gI 0 x); [|apply gE_continuous].
  exists (mkposreal 1 Rlt_0_1). intros y _. apply (RInt_correct (V := R_CompleteNormedModule)). apply gE_ex.
Qed.
Lemma gI_0 : gI 0 = 0.
Proof. exact (RInt_point (V := R_CompleteNormedModule) 0 gE). Qed.

(** B x = int_0^1 2 exp (-x^2 (1+t^2)/2) / (1+t^2) dt *)
Definition gf (x t : R) : R := 2 * exp (- (x ^ 2 * (1 + t ^ 2)) / 2) / (1 + t ^ 2).
Lemma one_sq t : 0 < 1 + t ^ 2.
Proof. assert (0 <= t ^ 2) by apply pow2_ge_0. lra. Qed.
Lemma gf_derive (x t : R) : is_derive (fun u : R => gf u t) x (- 2 * x * exp (- (x ^ 2 * (1 + t ^ 2)) / 2)).
Proof. assert (K := one_sq t). unfold gf. auto_derive; auto. change (- (x * (x * 1) * (1 + t * (t * 1))) * / 2) with (- (x ^ 2 * (1 + t ^ 2)) / 2). generalize (exp (- (x ^ 2 * (1 + t ^ 2)) / 2)). intro e. field. simpl in K. lra. Qed.
Lemma gf_continuous x t : continuous (fun t => gf x t) t.
Proof. assert (K := one_sq t). apply (ex_derive_continuous (fun t => gf x t)). unfold gf. auto_derive. intro; simpl in *; lra. Qed.
Lemma gf_ex x : ex_RInt (fun t => gf x t) 0 1.
Proof. apply (ex_RInt_continuous (V := R_CompleteNormedModule)). intros; apply gf_continuous. Qed.
Definition gB (x : R) : R := RInt (fun t => gf x t) 0 1.
Lemma gB_derive (x : R) : is_derive gB x (- 2 * gE x * gI x).
Proof.
  assert (D : forall u t, Derive (fun z : R => gf z t) u = - 2 * u * exp (- (u ^ 2 * (1 + t ^ 2)) / 2)) by (intros; apply is_derive_unique, gf_derive).
  evar_last.
  - apply (is_derive_RInt_param gf 0 1 x).
    + exists (mkposreal 1 Rlt_0_1). intros y _ t _. eexists. apply gf_derive.
    + intros t _. apply continuity_2d_pt_ext with (f := fun u v => - 2 * u * exp (- (u ^ 2 * (1 + v ^ 2)) / 2)); [intros; now rewrite D|].
      apply continuity_2d_pt_mult.
      * apply continuity_2d_pt_mult; [apply continuity_2d_pt_const|apply continuity_2d_pt_id1].
      * apply (continuity_1d_2d_pt_comp exp (fun u v => - (u ^ 2 * (1 + v ^ 2)) / 2)).
        -- apply derivable_continuous_pt, derivable_pt_exp.
        -- apply continuity_2d_pt_ext with (f := fun u v => - (1 / 2) * ((u * u) * (1 + v * v))); [intros; field|].
           repeat first [apply continuity_2d_pt_mult | apply continuity_2d_pt_plus | apply continuity_2d_pt_const | apply continuity_2d_pt_id1 | apply continuity_2d_pt_id2].
    + exists (mkposreal 1 Rlt_0_1). intros y _. apply gf_ex.
  - apply (is_RInt_unique (V := R_CompleteNormedModule)).
    apply (is_RInt_ext (V := R_NormedModule) (fun t => scal (- 2 * gE x) (scal x (gE (x * t))))).
    { intros t _. change (- 2 * gE x * (x * gE (x * t)) = Derive (fun u : R => gf u t) x). rewrite D. unfold gE.
      replace (- (x ^ 2 * (1 + t ^ 2)) / 2) with (- (x ^ 2) / 2 + - ((x * t) ^ 2) / 2) by field. rewrite exp_plus. ring. }
    apply (is_RInt_scal (V := R_NormedModule)).
    assert (C := is_RInt_comp gE (fun t => x * t) (fun _ => x) 0 1). rewrite Rmult_0_r, Rmult_1_r in C. apply C.
    + intros; apply gE_continuous.
    + intros z _. split; [auto_derive; auto; ring|apply continuous_const].
Qed.
Lemma gB_0 : gB 0 = PI / 2.
Proof.
  assert (A : is_RInt (fun t => / (1 + t ^ 2)) 0 1 (minus (atan 1) (atan 0))).
  { apply (is_RInt_derive atan).
    - intros t _. evar_last. apply is_derive_atan. unfold Rsqr. f_equal. ring.
    - intros t _. assert (K := one_sq t). apply (ex_derive_continuous (fun t => / (1 + t ^ 2))). auto_derive. intro; simpl in *; lra. }
  unfold gB. apply (is_RInt_unique (V := R_CompleteNormedModule)). apply (is_RInt_ext (V := R_NormedModule) (fun t => scal 2 (/ (1 + t ^ 2)))).
  { intros t _. change (2 * / (1 + t ^ 2) = gf 0 t). unfold gf. replace (- (0 ^ 2 * (1 + t ^ 2)) / 2) with 0 by field. rewrite exp_0. assert (K := one_sq t). field. lra. }
  evar_last. apply (is_RInt_scal (V := R_NormedModule)). exact A. rewrite atan_1, atan_0. change (2 * (PI / 4 + - 0) = PI / 2). field.
Qed.
Lemma gauss_square x : gI x ^ 2 + gB x = PI / 2.
Proof.
  assert (D : forall t, is_derive (fun x => gI x ^ 2 + gB x) t zero).
  { intro t. evar_last.
    - apply @is_derive_plus; [|apply gB_derive]. apply (is_derive_pow gI 2 t). apply gI_derive.
    - unfold plus, zero; simpl. ring. }
  assert (Z : gI 0 ^ 2 + gB 0 = PI / 2) by (rewrite gI_0, gB_0; ring).
  destruct (Rtotal_order x 0) as [H|[H|H]].
  - rewrite <- Z. apply (eq_is_derive (fun x => gI x ^ 2 + gB x)); auto.
  - now subst.
  - rewrite <- Z. symmetry. apply (eq_is_derive (fun x => gI x ^ 2 + gB x)); auto.
Qed.
Lemma gB_pos x : 0 < gB x.
Proof.
  apply RInt_gt_0; [lra| |intros; apply gf_continuous]. intros t _. assert (K := one_sq t). unfold gf. apply Rdiv_lt_0_compat; auto. assert (J := exp_pos (- (x ^ 2 * (1 + t ^ 2)) / 2)). lra.
Qed.
Lemma gB_upper x : gB x <= PI / 2 * exp (- (x ^ 2) / 2).
Proof.
  rewrite <- gB_0. unfold gB. rewrite Rmult_comm. change (exp (- x ^ 2 / 2) * RInt (fun t => gf 0 t) 0 1) with (scal (exp (- x ^ 2 / 2)) (RInt (fun t => gf 0 t) 0 1)).
  rewrite <- RInt_scal by apply gf_ex. apply RInt_le; [lra|apply gf_ex| |].
  - apply (ex_RInt_scal (V := R_NormedModule)), gf_ex.
  - intros t _. assert (K := one_sq t). change (gf x t <= exp (- x ^ 2 / 2) * gf 0 t). unfold gf.
    replace (- (0 ^ 2 * (1 + t ^ 2)) / 2) with 0 by field. rewrite exp_0. replace (exp (- x ^ 2 / 2) * (2 * 1 / (1 + t ^ 2))) with (2 * exp (- x ^ 2 / 2) / (1 + t ^ 2)) by (field; lra).
    unfold Rdiv at 1 3. apply Rmult_le_compat_r; [left; apply Rinv_0_lt_compat; auto|].
    assert (exp (- (x ^ 2 * (1 + t ^ 2)) / 2) <= exp (- x ^ 2 / 2)); [|lra].
    assert (0 <= (x * t) ^ 2) by apply pow2_ge_0. replace (- (x ^ 2 * (1 + t ^ 2)) / 2) with (- x ^ 2 / 2 - (x * t) ^ 2 / 2) by field.
    destruct H as [H|H]; [left; apply exp_increasing; lra|]. rewrite <- H. right. f_equal. lra.
Qed.
Lemma gI_odd x : gI (- x) = - gI x.
Proof.
  assert (D : forall t, is_derive (fun x => gI (- x) + gI x) t zero).
  { intro t. evar_last.
    - apply @is_derive_plus; [|apply gI_derive]. apply (is_derive_comp gI (fun x => - x)); [apply gI_derive|]. apply @is_derive_opp. apply @is_derive_id.
    - unfold scal, plus, opp, one, zero; simpl; unfold mult; simpl. replace (gE (- t)) with (gE t); [ring|]. unfold gE. f_equal. field. }
  assert (Z : gI (- 0) + gI 0 = 0) by (rewrite Ropp_0, gI_0; ring).
  assert (gI (- x) + gI x = 0); [|lra].
  destruct (Rtotal_order x 0) as [H|[H|H]].
  - rewrite <- Z. apply (eq_is_derive (fun x => gI (- x) + gI x)); auto.
  - now subst.
  - rewrite <- Z. symmetry. apply (eq_is_derive (fun x => gI (- x) + gI x)); auto.
Qed.
