(** Lemmas about the synthetic utilities. *)
From Verif Require Import M_Base M_RBase M_Fake S_Fake P_RBase.
From Coq Require Import Lra Lia.
Local Open Scope R_scope.

(** ---- lifting relations ---- *)
Lemma bind_rel {A B} (P : A -> A -> Prop) (Q : B -> B -> Prop) r s f g :
  res_rel P r s -> (forall a b, P a b -> res_rel Q (f a) (g b)) -> res_rel Q (bind r f) (bind s g).
Proof. destruct r, s; cbn; intros H Hf; try contradiction; auto. Qed.

Lemma mapM_rel {A B} (P : A -> A -> Prop) (Q : B -> B -> Prop) f g l l' :
  Forall2 P l l' -> (forall a b, P a b -> res_rel Q (f a) (g b)) -> res_rel (Forall2 Q) (mapM f l) (mapM g l').
Proof.
  intros H Hf. induction H as [|x y l l' Hxy Hl IH]; cbn [mapM]; [constructor|].
  eapply bind_rel; [apply Hf, Hxy|]. intros a b Hab. eapply bind_rel; [apply IH|]. intros u v Huv. constructor; assumption.
Qed.

Lemma Forall2_map_le {A B} (P : A -> A -> Prop) (Q : B -> B -> Prop) f g l l' :
  Forall2 P l l' -> (forall a b, P a b -> Q (f a) (g b)) -> Forall2 Q (map f l) (map g l').
Proof. intros H Hf. induction H; cbn; constructor; auto. Qed.

Lemma Forall2_len {A B} (P : A -> B -> Prop) l l' : Forall2 P l l' -> length l = length l'.
Proof. induction 1; cbn; congruence. Qed.

Lemma Forall2_and_Forall {A} (P : A -> Prop) (R : A -> A -> Prop) l l' :
  Forall P l -> Forall P l' -> Forall2 R l l' -> Forall2 (fun x y => P x /\ P y /\ R x y) l l'.
Proof. intros H H' H2. induction H2; inversion H; inversion H'; subst; constructor; auto. Qed.

(** ---- weights ---- *)
Definition nonneg (w : list R) : Prop := Forall (fun x => 0 <= x) w.

Lemma zipw_le_mult w : nonneg w -> forall l l', Forall2 Rle l l' -> Forall2 Rle (zipw Rmult l w) (zipw Rmult l' w).
Proof.
  induction w as [|a w IH]; intros Hw l l' H; [destruct H; constructor|].
  inversion Hw; subst. destruct H; cbn; constructor; [apply Rmult_le_compat_r; assumption|apply IH; assumption].
Qed.

Lemma rsum_le2 l l' : Forall2 Rle l l' -> rsum l <= rsum l'.
Proof. induction 1; cbn; lra. Qed.

Lemma bzip_rel w l l' : nonneg w -> Forall2 Rle l l' -> res_rel (Forall2 Rle) (bzip Rmult l w) (bzip Rmult l' w).
Proof.
  intros Hw H. unfold bzip. pose proof (Forall2_len _ _ _ H) as Hl. rewrite <- Hl.
  destruct (Nat.eqb (length l) (length w)); [cbn; now apply zipw_le_mult|].
  destruct H as [|x y l l' Hxy H].
  - destruct w as [|a [|b w]]; cbn; auto.
  - destruct H as [|x2 y2 l l' Hxy2 H].
    + destruct w as [|a w]; cbn [map res_rel]; [constructor|]. inversion Hw as [|? ? Ha Hw']; subst.
      change (Forall2 Rle (map (Rmult x) (a :: w)) (map (Rmult y) (a :: w))).
      clear Hw' Ha Hl. induction Hw as [|c v Hc Hv IHv]; cbn; constructor; [apply Rmult_le_compat_r; assumption|apply IHv].
    + destruct w as [|a [|b w]]; cbn [res_rel]; auto. inversion Hw; subst.
      apply (Forall2_map_le Rle); [constructor; [assumption|constructor; assumption]|].
      intros; apply Rmult_le_compat_r; assumption.
Qed.

Lemma vdot_rel w l l' : nonneg w -> Forall2 Rle l l' -> res_rel Rle (vdot l w) (vdot l' w).
Proof.
  intros Hw H. unfold vdot. rewrite <- (Forall2_len _ _ _ H).
  destruct (Nat.eqb (length l) (length w)); cbn; [|reflexivity]. now apply rsum_le2, zipw_le_mult.
Qed.

Lemma adot_rel w a b : nonneg w -> arr_le a b -> res_rel arr_le (adot a w) (adot b w).
Proof.
  intros Hw H. destruct a, b; cbn in H; try contradiction; cbn [adot].
  - cbn. apply (Forall2_map_le (fun a b => a = b /\ 0 <= a)).
    + induction Hw; constructor; auto.
    + intros u v [<- Hu]. now apply Rmult_le_compat_r.
  - eapply bind_rel; [now apply vdot_rel|]. auto.
  - eapply bind_rel; [now apply vdot_rel|]. auto.
  - eapply bind_rel; [eapply mapM_rel; [exact H|intros; now apply vdot_rel]|]. auto.
  - eapply bind_rel; [eapply mapM_rel; [exact H|intros; eapply mapM_rel; [eassumption|intros; now apply vdot_rel]]|]. auto.
Qed.

Lemma amul_rel w a b : nonneg w -> arr_le a b -> res_rel arr_le (amul a w) (amul b w).
Proof.
  intros Hw H. destruct a, b; cbn in H; try contradiction; cbn [amul].
  - cbn. apply (Forall2_map_le (fun a b => a = b /\ 0 <= a)).
    + induction Hw; constructor; auto.
    + intros u v [<- Hu]. now apply Rmult_le_compat_r.
  - reflexivity.
  - eapply bind_rel; [now apply bzip_rel|]. auto.
  - eapply bind_rel; [eapply mapM_rel; [exact H|intros; now apply bzip_rel]|]. auto.
  - eapply bind_rel; [eapply mapM_rel; [exact H|intros; eapply mapM_rel; [eassumption|intros; now apply bzip_rel]]|]. auto.
Qed.

Lemma amap_rel (P : R -> Prop) f a b : (forall x y, P x -> P y -> x <= y -> f x <= f y) ->
  arr_all P a -> arr_all P b -> arr_le a b -> arr_le (amap f a) (amap f b).
Proof.
  intros Hf Ha Hb H.
  assert (H1 : forall l l', Forall P l -> Forall P l' -> Forall2 Rle l l' -> Forall2 Rle (map f l) (map f l')).
  { intros l l' Hl Hl' HH. apply (Forall2_map_le (fun x y => P x /\ P y /\ x <= y)); [now apply Forall2_and_Forall|].
    intros x y [Hx [Hy Hxy]]; auto. }
  assert (H2 : forall l l', Forall (Forall P) l -> Forall (Forall P) l' -> Forall2 (Forall2 Rle) l l'
     -> Forall2 (Forall2 Rle) (map (map f) l) (map (map f) l')).
  { intros l l' Hl Hl' HH. apply (Forall2_map_le (fun x y => Forall P x /\ Forall P y /\ Forall2 Rle x y)); [now apply Forall2_and_Forall|].
    intros x y [Hx [Hy Hxy]]; auto. }
  destruct a, b; cbn in *; try contradiction; auto.
  apply (Forall2_map_le (fun x y => Forall (Forall P) x /\ Forall (Forall P) y /\ Forall2 (Forall2 Rle) x y)); [now apply Forall2_and_Forall|].
  intros x y [Hx [Hy Hxy]]; auto.
Qed.

Lemma arr_all_true a : arr_all (fun _ => True) a.
Proof.
  assert (H1 : forall l : list R, Forall (fun _ => True) l) by (induction l; constructor; auto).
  assert (H2 : forall l : list (list R), Forall (Forall (fun _ => True)) l) by (induction l; constructor; auto).
  destruct a; cbn; auto. induction t; constructor; auto.
Qed.

Lemma amap_mono f a b : (forall x y, x <= y -> f x <= f y) -> arr_le a b -> arr_le (amap f a) (amap f b).
Proof. intros Hf H. apply (amap_rel (fun _ => True)); auto using arr_all_true. Qed.

Lemma np_array_le a b : arr_le a b -> arr_le (np_array a) (np_array b).
Proof. destruct a, b; cbn; try contradiction; auto. Qed.

Lemma np_array_all P a : arr_all P a -> arr_all P (np_array a).
Proof. destruct a; cbn; auto. Qed.

(** ---- reductions ---- *)
Lemma rmax1_mono l l' : Forall2 Rle l l' -> forall x y, x <= y -> rmax1 x l <= rmax1 y l'.
Proof.
  induction 1 as [|a b l l' Hab Hl IH]; intros x y Hxy; cbn; [exact Hxy|]. apply IH.
  unfold Rmax. destruct (Rle_dec x a), (Rle_dec y b); lra.
Qed.
Lemma rmin1_mono l l' : Forall2 Rle l l' -> forall x y, x <= y -> rmin1 x l <= rmin1 y l'.
Proof.
  induction 1 as [|a b l l' Hab Hl IH]; intros x y Hxy; cbn; [exact Hxy|]. apply IH.
  unfold Rmin. destruct (Rle_dec x a), (Rle_dec y b); lra.
Qed.
Lemma np_max_rel l l' : Forall2 Rle l l' -> res_rel Rle (np_max l) (np_max l').
Proof. intros H; destruct H; cbn; [reflexivity|now apply rmax1_mono]. Qed.
Lemma np_min_rel l l' : Forall2 Rle l l' -> res_rel Rle (np_min l) (np_min l').
Proof. intros H; destruct H; cbn; [reflexivity|now apply rmin1_mono]. Qed.

Definition bin_mono (f : R -> R -> R) : Prop := forall a b c d, a <= b -> c <= d -> f a c <= f b d.
Lemma Rmax_mono : bin_mono Rmax.
Proof. intros a b c d H H'. unfold Rmax. destruct (Rle_dec a c), (Rle_dec b d); lra. Qed.
Lemma Rmin_mono : bin_mono Rmin.
Proof. intros a b c d H H'. unfold Rmin. destruct (Rle_dec a c), (Rle_dec b d); lra. Qed.

Lemma zipw_mono f : bin_mono f -> forall l l', Forall2 Rle l l' -> forall k k', Forall2 Rle k k' ->
  Forall2 Rle (zipw f l k) (zipw f l' k').
Proof.
  intros Hf l l' H. induction H as [|a b l l' Hab Hl IH]; intros k k' Hk; [constructor|].
  destruct Hk; cbn; constructor; auto.
Qed.

Lemma col_reduce_rel f m m' : bin_mono f -> Forall2 (Forall2 Rle) m m' ->
  res_rel (Forall2 Rle) (col_reduce f m) (col_reduce f m').
Proof.
  intros Hf H. destruct H as [|r r' m m' Hr Hm]; cbn; [reflexivity|].
  revert r r' Hr. induction Hm as [|a b m m' Hab Hm IH]; intros r r' Hr; cbn; [exact Hr|].
  apply IH. now apply zipw_mono.
Qed.

Lemma reduce_last_rel red f w a b : bin_mono f -> (forall l l', Forall2 Rle l l' -> res_rel Rle (red l) (red l')) ->
  nonneg w -> arr_le a b -> res_rel arr_le (reduce_last red f a w) (reduce_last red f b w).
Proof.
  intros Hf Hred Hw H. destruct a, b; cbn in H; try contradiction; cbn [reduce_last]; try reflexivity.
  - eapply bind_rel; [now apply bzip_rel|]. intros; cbv beta in *. eapply bind_rel; [now apply Hred|]. auto.
  - eapply bind_rel; [eapply mapM_rel; [exact H|intros; now apply bzip_rel]|].
    intros u v Huv. eapply bind_rel; [eapply mapM_rel; [exact Huv|auto]|]. auto.
  - eapply bind_rel; [eapply mapM_rel; [exact H|intros; eapply mapM_rel; [eassumption|intros; now apply bzip_rel]]|].
    intros u v Huv. eapply bind_rel; [eapply mapM_rel; [exact Huv|intros; now apply col_reduce_rel]|]. auto.
Qed.

Lemma extreme_rel red f w : bin_mono f -> (forall l l', Forall2 Rle l l' -> res_rel Rle (red l) (red l')) ->
  nonneg w -> forall a b, arr_le a b -> res_rel arr_le (extreme_calc red f w a) (extreme_calc red f w b).
Proof.
  intros Hf Hred Hw a b H. unfold extreme_calc. destruct w as [|w0 [|w1 w]].
  - now apply reduce_last_rel.
  - destruct a, b; cbn in H; try contradiction; try exact H. apply (reduce_last_rel _ _ _ (Vec l) (Vec l0)); assumption.
  - now apply reduce_last_rel.
Qed.

Lemma wmax_monotone w : nonneg w -> monotone_on (fun _ => True) (wmax_calc w).
Proof. intros Hw a b _ _ H. apply extreme_rel; auto using Rmax_mono, np_max_rel. Qed.
Lemma wmin_monotone w : nonneg w -> monotone_on (fun _ => True) (wmin_calc w).
Proof. intros Hw a b _ _ H. apply extreme_rel; auto using Rmin_mono, np_min_rel. Qed.

Lemma linear_monotone w : nonneg w -> monotone_on (fun _ => True) (linear_calc w).
Proof.
  intros Hw a b _ _ H. unfold linear_calc. destruct w as [|w0 [|w1 w]]; [now apply adot_rel| |now apply adot_rel].
  pose proof (np_array_le _ _ H) as H'. inversion Hw; subst.
  destruct (np_array a), (np_array b); cbn in H'; try contradiction; try (apply amul_rel; assumption).
  cbn. now apply Rmult_le_compat_r.
Qed.

Lemma asquare_rel a b : arr_all (fun x => 0 <= x) a -> arr_all (fun x => 0 <= x) b -> arr_le a b ->
  res_rel arr_le (asquare a) (asquare b).
Proof.
  intros Ha Hb H. unfold asquare.
  assert (arr_le (amap (fun x => x * x) a) (amap (fun x => x * x) b)).
  { apply (amap_rel (fun x => 0 <= x)); auto. intros; apply Rmult_le_compat; assumption. }
  destruct a, b; cbn in H; try contradiction; try assumption. reflexivity.
Qed.

Lemma squared_monotone w : nonneg w -> monotone_on (fun x => 0 <= x) (squared_calc w).
Proof.
  intros Hw a b Ha Hb H. unfold squared_calc. destruct w as [|w0 [|w1 w]].
  - eapply bind_rel; [now apply asquare_rel|]. intros; now apply adot_rel.
  - eapply bind_rel; [apply asquare_rel; auto using np_array_all, np_array_le|].
    intros x y Hxy. apply amap_mono; [|exact Hxy]. inversion Hw; subst. intros; now apply Rmult_le_compat_r.
  - eapply bind_rel; [now apply asquare_rel|]. intros; now apply adot_rel.
Qed.

Lemma logistic_val_eq L wx : logistic_val L wx = / (1 + lg_Q L * exp (- (wx / lg_v L))).
Proof.
  unfold logistic_val, Rpower. rewrite ln_exp.
  replace (1 / lg_v L * - wx) with (- (wx / lg_v L)) by (unfold Rdiv; ring).
  unfold Rdiv. ring.
Qed.

Lemma logistic_val_bounds L wx : 0 < lg_Q L -> 0 < logistic_val L wx < 1.
Proof.
  intros HQ. rewrite logistic_val_eq. set (e := exp _).
  assert (0 < lg_Q L * e) by (apply Rmult_lt_0_compat; [exact HQ|apply exp_pos]).
  split; [apply Rinv_0_lt_compat; lra|]. rewrite <- Rinv_1. apply Rinv_lt_contravar; lra.
Qed.

Lemma logistic_val_strict L x y : 0 < lg_Q L -> 0 < lg_v L -> x < y -> logistic_val L x < logistic_val L y.
Proof.
  intros HQ Hv Hxy. rewrite !logistic_val_eq.
  assert (He : exp (- (y / lg_v L)) < exp (- (x / lg_v L))).
  { apply exp_increasing. apply Ropp_lt_contravar. unfold Rdiv. apply Rmult_lt_compat_r; [now apply Rinv_0_lt_compat|exact Hxy]. }
  pose proof (exp_pos (- (y / lg_v L))) as Hy.
  assert (Hm : lg_Q L * exp (- (y / lg_v L)) < lg_Q L * exp (- (x / lg_v L))) by now apply Rmult_lt_compat_l.
  assert (0 < lg_Q L * exp (- (y / lg_v L))) by now apply Rmult_lt_0_compat.
  apply Rinv_lt_contravar; [apply Rmult_lt_0_compat; lra|lra].
Qed.

Lemma logistic_val_mono L x y : 0 < lg_Q L -> 0 < lg_v L -> x <= y -> logistic_val L x <= logistic_val L y.
Proof. intros HQ Hv [H | ->]; [left; now apply logistic_val_strict|right; reflexivity]. Qed.

Lemma logistic_monotone L : nonneg (lg_w L) -> 0 < lg_Q L -> 0 < lg_v L -> monotone_on (fun _ => True) (logistic_calc L).
Proof.
  intros Hw HQ Hv a b _ _ H. unfold logistic_calc. eapply (bind_rel arr_le).
  - destruct (lg_w L) as [|w0 [|w1 w]].
    + eapply bind_rel; [now apply adot_rel|]. intros; apply amap_mono; [intros; lra|assumption].
    + cbn [res_rel]. apply amap_mono; [|now apply np_array_le]. inversion Hw; subst. intros; now apply Rmult_le_compat_r.
    + eapply bind_rel; [now apply adot_rel|]. intros; apply amap_mono; [intros; lra|assumption].
  - intros x y Hxy. apply amap_mono; [|exact Hxy]. intros; now apply logistic_val_mono.
Qed.

Lemma bzip_rel_gen {A B C} (P : A -> A -> Prop) (Q : B -> B -> Prop) (S' : C -> C -> Prop) f l l' k k' :
  (forall a a' b b', P a a' -> Q b b' -> S' (f a b) (f a' b')) ->
  Forall2 P l l' -> Forall2 Q k k' -> res_rel (Forall2 S') (bzip f l k) (bzip f l' k').
Proof.
  intros Hf H K. unfold bzip. rewrite <- (Forall2_len _ _ _ H), <- (Forall2_len _ _ _ K).
  destruct (Nat.eqb (length l) (length k)) eqn:E.
  - clear E. cbn. revert k k' K. induction H; intros k k' K; [constructor|]. destruct K; cbn; constructor; auto.
  - destruct H as [|x y l l' Hxy H].
    + destruct K as [|? ? ? ? ? [|]]; cbn; auto; try (constructor; auto; fail).
    + destruct H as [|x2 y2 l l' Hxy2 H].
      * cbn. destruct K; cbn; constructor; [auto|]. clear E. induction K; cbn; constructor; auto.
      * destruct K as [|? ? ? ? ? [|]]; cbn; auto. constructor; [auto|]. constructor; [auto|]. clear E. induction H; cbn; constructor; auto.
Qed.

Lemma aadd_rel a a' b b' : arr_le a a' -> arr_le b b' -> res_rel arr_le (aadd a b) (aadd a' b').
Proof.
  intros Ha Hb. destruct a, a'; cbn in Ha; try contradiction; cbn [aadd].
  - cbn. revert b b' Hb. 
    assert (H1 : forall l l', Forall2 Rle l l' -> Forall2 Rle (map (Rplus x) l) (map (Rplus x0) l')).
    { intros l l' HH. apply (Forall2_map_le Rle); [exact HH|]. intros; lra. }
    intros b b' Hb. destruct b, b'; cbn in Hb; try contradiction; cbn; auto.
    + lra.
    + apply (Forall2_map_le (Forall2 Rle)); auto.
    + apply (Forall2_map_le (Forall2 (Forall2 Rle))); auto. intros. apply (Forall2_map_le (Forall2 Rle)); auto.
  - destruct b, b'; cbn in Hb; try contradiction; cbn; reflexivity.
  - destruct b, b'; cbn in Hb; try contradiction; try (cbn; reflexivity).
    eapply bind_rel; [apply (bzip_rel_gen Rle Rle Rle); [intros; lra|exact Ha|exact Hb]|]. auto.
  - destruct b, b'; cbn in Hb; try contradiction; try (cbn; reflexivity).
    eapply bind_rel; [apply (bzip_rel_gen (Forall2 Rle) (Forall2 Rle) (res_rel (Forall2 Rle))); [|exact Ha|exact Hb]|].
    + intros. apply (bzip_rel_gen Rle Rle Rle); auto. intros; lra.
    + intros u v Huv. eapply bind_rel; [eapply (mapM_rel _ (Forall2 Rle)); [exact Huv|auto]|]. auto.
  - destruct b, b'; cbn in Hb; try contradiction; try (cbn; reflexivity).
    rewrite <- (Forall2_len _ _ _ Ha), <- (Forall2_len _ _ _ Hb). destruct (Nat.eqb _ _); [|reflexivity].
    eapply bind_rel.
    + eapply (mapM_rel (fun p q => Forall2 (Forall2 Rle) (fst p) (fst q) /\ Forall2 (Forall2 Rle) (snd p) (snd q))).
      * revert t1 t2 Hb. induction Ha as [|p q t t' Hpq Ha IH]; intros t1 t2 Hb; [constructor|].
        destruct Hb; cbn; constructor; auto.
      * intros p q [H1 H2].
        eapply bind_rel; [apply (bzip_rel_gen (Forall2 Rle) (Forall2 Rle) (res_rel (Forall2 Rle))); [|exact H1|exact H2]|].
        -- intros. apply (bzip_rel_gen Rle Rle Rle); auto. intros; lra.
        -- intros u v Huv. eapply (mapM_rel _ (Forall2 Rle)); [exact Huv|auto].
    + auto.
Qed.

Lemma minlog_monotone alpha w L : 0 <= alpha <= 1 -> nonneg w -> nonneg (lg_w L) -> 0 < lg_Q L -> 0 < lg_v L ->
  monotone_on (fun _ => True) (minlog_calc alpha w L).
Proof.
  intros Hal Hw HL HQ Hv a b Ha Hb H. unfold minlog_calc.
  eapply bind_rel; [now apply wmin_monotone|]. intros u v Huv.
  eapply bind_rel; [now apply logistic_monotone|]. intros u' v' Huv'.
  apply aadd_rel; apply amap_mono; auto; intros; apply Rmult_le_compat_l; lra.
Qed.

(** FakeSquaredMinMax on non-negative rewards *)
Lemma zipw_mult_nonneg l w : nonneg l -> nonneg w -> nonneg (zipw Rmult l w).
Proof.
  intros Hl. revert w. induction Hl as [|x l Hx Hl IH]; intros w Hw; [constructor|].
  destruct Hw; cbn; constructor; [now apply Rmult_le_pos|now apply IH].
Qed.
Lemma map_mult_nonneg x w : 0 <= x -> nonneg w -> nonneg (map (Rmult x) w).
Proof. intros Hx H. induction H; cbn; constructor; auto using Rmult_le_pos. Qed.
Lemma map_multr_nonneg x w : 0 <= x -> nonneg w -> nonneg (map (fun a => a * x) w).
Proof. intros Hx H. induction H; cbn; constructor; auto using Rmult_le_pos. Qed.
Lemma bzip_nonneg l w v : nonneg l -> nonneg w -> bzip Rmult l w = Ok v -> nonneg v.
Proof.
  intros Hl Hw. unfold bzip. destruct (Nat.eqb _ _); [intros [= <-]; now apply zipw_mult_nonneg|].
  destruct l as [|x [|x2 l]].
  - destruct w as [|a [|b w]]; intros [= <-]; constructor.
  - intros [= <-]. inversion Hl; subst. now apply map_mult_nonneg.
  - destruct w as [|a [|b w]]; intros H; try discriminate. injection H as <-. inversion Hw; subst.
    now apply (map_multr_nonneg a (x :: x2 :: l)).
Qed.
Lemma mapM_bzip_nonneg m w v : Forall nonneg m -> nonneg w -> mapM (fun r => bzip Rmult r w) m = Ok v -> Forall nonneg v.
Proof.
  intros Hm Hw. revert v. induction Hm as [|r m Hr Hm IH]; cbn [mapM]; intros v.
  - intros [= <-]. constructor.
  - destruct (bzip Rmult r w) as [y|] eqn:E; [|discriminate]. cbn [bind].
    destruct (mapM _ m) as [ys|]; [|discriminate]. intros [= <-]. constructor; [now apply (bzip_nonneg r w)|now apply IH].
Qed.
Lemma mapM_np_min_nonneg v r : Forall nonneg v -> mapM np_min v = Ok r -> nonneg r.
Proof.
  intros H. revert r. induction H as [|a v Ha Hv IH]; cbn [mapM]; intros r.
  - intros [= <-]. constructor.
  - destruct (np_min a) as [y|] eqn:E; [|discriminate]. cbn [bind].
    destruct (mapM _ v) as [ys|]; [|discriminate]. intros [= <-]. constructor; [|now apply IH].
    destruct a as [|x a]; [discriminate|]. injection E as <-.
    pose proof (rmin1_in a x) as Hi. unfold nonneg in Ha. rewrite Forall_forall in Ha. now apply Ha.
Qed.

Lemma bind_rel_eq {A B} (P : A -> A -> Prop) (Q : B -> B -> Prop) r s f g :
  res_rel P r s -> (forall a b, r = Ok a -> s = Ok b -> P a b -> res_rel Q (f a) (g b)) -> res_rel Q (bind r f) (bind s g).
Proof. destruct r, s; cbn; intros H Hf; try contradiction; auto. Qed.

Lemma sqminmax_body_rel w m m' : nonneg w -> Forall nonneg m -> Forall nonneg m' -> Forall2 (Forall2 Rle) m m' ->
  res_rel arr_le
   (do vals <- mapM (fun r => bzip Rmult r w) m; do mins <- mapM np_min vals; do maxs <- mapM np_max vals;
    Ok (Vec (zipw (fun x n => sqrt x + n * n) maxs mins)))
   (do vals <- mapM (fun r => bzip Rmult r w) m'; do mins <- mapM np_min vals; do maxs <- mapM np_max vals;
    Ok (Vec (zipw (fun x n => sqrt x + n * n) maxs mins))).
Proof.
  intros Hw Hm Hm' H.
  eapply bind_rel_eq; [eapply mapM_rel; [exact H|intros; now apply bzip_rel]|]. intros v v' Ev Ev' Hv.
  apply mapM_bzip_nonneg in Ev; [|assumption..]. apply mapM_bzip_nonneg in Ev'; [|assumption..].
  eapply bind_rel_eq; [eapply mapM_rel; [exact Hv|intros; now apply np_min_rel]|]. intros n n' En En' Hn.
  apply mapM_np_min_nonneg in En; [|assumption]. apply mapM_np_min_nonneg in En'; [|assumption].
  eapply bind_rel; [eapply mapM_rel; [exact Hv|intros; now apply np_max_rel]|]. intros x x' Hx.
  cbn. clear Ev Ev' Hv H Hm Hm'. revert n n' En En' Hn. induction Hx as [|a b x x' Hab Hx IH]; intros n n' En En' Hn; [constructor|].
  destruct Hn as [|c d n n' Hcd Hn]; cbn; constructor.
  - inversion En; subst. apply Rplus_le_compat; [apply sqrt_le_1_alt; exact Hab|apply Rmult_le_compat; assumption].
  - inversion En; inversion En'; subst. now apply IH.
Qed.

Lemma sqminmax_vec_rel w l l' : nonneg w -> Forall2 Rle l l' ->
  res_rel arr_le (do v <- bzip Rmult l w; do r <- np_max v; Ok (Scal r)) (do v <- bzip Rmult l' w; do r <- np_max v; Ok (Scal r)).
Proof. intros Hw H. eapply bind_rel; [now apply bzip_rel|]. intros; eapply bind_rel; [now apply np_max_rel|]. auto. Qed.

Lemma sqminmax_monotone w : nonneg w -> monotone_on (fun x => 0 <= x) (sqminmax_calc w).
Proof.
  intros Hw a b Ha Hb H. unfold sqminmax_calc.
  destruct w as [|w0 [|w1 w]]; destruct a, b; cbn in H; try contradiction; cbn [arr_all] in *; try reflexivity; try exact H;
  first [now apply sqminmax_vec_rel | now apply sqminmax_body_rel].
Qed.
