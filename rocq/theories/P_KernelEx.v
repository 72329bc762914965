(** Counterexamples about kernels. *)
From Verif Require Import P_Base P_RBase P_Util S_Psd P_Psd P_Kernel P_KernelGrad.
From Coq Require Import Lra Lia.
From Verif Require Import M_RBase M_Util M_Kernel S_Psd S_Kernel.
Local Open Scope R_scope.

Lemma sin_PI3_sq : sin (PI / 3) * sin (PI / 3) = 3 / 4.
Proof. rewrite sin_PI3. replace (sqrt 3 / 2 * (sqrt 3 / 2)) with (sqrt 3 * sqrt 3 / 4) by field. rewrite sqrt_sqrt; lra. Qed.
Definition square_pts : list point := [[0; 0]; [1; 0]; [0; 1]; [1; 1]].
Definition square_w (i : nat) : R := match i with 0%nat | 3%nat => 1 | _ => -1 end.
Lemma per_0 : per_call 1 2 6 [0;0] [0;0] = 1.
Proof. unfold per_call, l1dist, rsum. simpl. replace (0 - 0) with 0 by ring. rewrite Rabs_R0. replace (PI * (0 + (0 + 0)) / 6) with 0 by field. rewrite sin_0. replace (-2 * 0 * 0 / (2 * 2)) with 0 by field. rewrite exp_0. ring. Qed.
Lemma per_value a b c d x : l1dist [a; b] [c; d] = x -> per_call 1 2 6 [a; b] [c; d] = exp (- (sin (PI * x / 6) * sin (PI * x / 6)) / 2).
Proof. intro H. unfold per_call. rewrite H. rewrite !Rmult_1_l. f_equal. field. Qed.
Lemma l1_2 a b c d : l1dist [a; b] [c; d] = Rabs (a - c) + Rabs (b - d).
Proof. unfold l1dist, rsum. simpl. ring. Qed.
Lemma square_form : exists t, 7 / 8 < t < 1 /\
  qform 4 (fun i j => per_call 1 2 6 (pt square_pts i) (pt square_pts j)) square_w = 4 * (t - 1) * (t * t + t - 1).
Proof.
  exists (exp (- (1 / 8))). split.
  - split; [assert (H := exp_ineq1 (- (1/8)) ltac:(apply Rlt_not_eq; lra)); lra|]. apply Rlt_le_trans with (exp 0); [apply exp_increasing; lra|rewrite exp_0; lra].
  - set (t := exp (- (1 / 8))).
    assert (A0 : Rabs (0 - 0) = 0) by (rewrite Rminus_0_r; apply Rabs_R0).
    assert (A1 : Rabs (1 - 0) = 1) by (rewrite Rminus_0_r; apply Rabs_R1).
    assert (A2 : Rabs (0 - 1) = 1) by (rewrite Rabs_minus_sym; auto).
    assert (A3 : Rabs (1 - 1) = 0) by (rewrite Rminus_diag_eq by auto; apply Rabs_R0).
    assert (V0 : forall a b c d, l1dist [a; b] [c; d] = 0 -> per_call 1 2 6 [a; b] [c; d] = 1).
    { intros a b c d H. rewrite (per_value _ _ _ _ _ H). replace (PI * 0 / 6) with 0 by field. rewrite sin_0. replace (- (0 * 0) / 2) with 0 by field. apply exp_0. }
    assert (V1 : forall a b c d, l1dist [a; b] [c; d] = 1 -> per_call 1 2 6 [a; b] [c; d] = t).
    { intros a b c d H. rewrite (per_value _ _ _ _ _ H). replace (PI * 1 / 6) with (PI / 6) by field. rewrite sin_PI6. unfold t. f_equal. field. }
    assert (V2 : forall a b c d, l1dist [a; b] [c; d] = 2 -> per_call 1 2 6 [a; b] [c; d] = t * t * t).
    { intros a b c d H. rewrite (per_value _ _ _ _ _ H). replace (PI * 2 / 6) with (PI / 3) by field. rewrite sin_PI3_sq. unfold t. rewrite <- !exp_plus. f_equal. field. }
    unfold qform, square_pts, square_w, pt. cbn [sumn nth].
    rewrite !(V0 0 0 0 0), !(V0 1 0 1 0), !(V0 0 1 0 1), !(V0 1 1 1 1) by (rewrite l1_2, ?A0, ?A1, ?A2, ?A3; lra).
    rewrite !(V1 0 0 1 0), !(V1 0 0 0 1), !(V1 1 0 0 0), !(V1 0 1 0 0), !(V1 1 1 1 0), !(V1 1 1 0 1), !(V1 1 0 1 1), !(V1 0 1 1 1) by (rewrite l1_2, ?A0, ?A1, ?A2, ?A3; lra).
    rewrite !(V2 0 0 1 1), !(V2 1 1 0 0), !(V2 1 0 0 1), !(V2 0 1 1 0) by (rewrite l1_2, ?A0, ?A1, ?A2, ?A3; lra). ring.
Qed.
Lemma periodic_not_psd : exists k X M, X <> [] /\ dim 2 X /\ valid 2 k /\ kcov k X X = Ok M /\ ~ psd (length X) (entry M).
Proof.
  exists (Per 1 2 6), square_pts. eexists. split; [discriminate|]. split; [intros x H; simpl in H; intuition; subst; reflexivity|].
  split; [simpl; split; apply Rgt_not_eq; lra|]. split; [reflexivity|]. intro H. specialize (H square_w). destruct square_form as [t [Ht E]].
  rewrite (qform_ext (length square_pts) _ (fun i j => per_call 1 2 6 (pt square_pts i) (pt square_pts j)) square_w square_w) in H; auto.
  - change (length square_pts) with 4%nat in H. rewrite E in H. assert (0 < t * t + t - 1) by nra. assert (0 < (1 - t) * (t * t + t - 1)) by (apply Rmult_lt_0_compat; lra). lra.
  - intros i j Hi Hj. now apply entry_pairwise.
Qed.

(** zeroed RBF *)
Lemma zeroed_single s l n z : s <> 0 -> exists M, kcov (ZRBF s l n (Some z)) [z] [z] = Ok M /\ entry M 0 0 = - (n + n * n / (s * s)).
Proof.
  intro Hs. cbn -[exp rbf_call Rmult point_eqb]. rewrite !point_eqb_refl. cbn -[exp rbf_call Rmult point_eqb]. rewrite ?point_eqb_refl. cbn -[exp rbf_call Rmult]. eexists. split; [reflexivity|].
  unfold entry. cbn -[exp rbf_call Rmult]. rewrite rbf_call_self. field. auto.
Qed.
Lemma zeroed_call_self s l n z : kcall (ZRBF s l n (Some z)) z z = s * s * (1 - s * s).
Proof. cbn [kcall zero_of]. rewrite rbf_call_self. ring. Qed.
Lemma zeroed_call_zero s l n z v : kcall (ZRBF s l n (Some z)) z v = (1 - s * s) * rbf_call s l z v.
Proof. cbn [kcall zero_of]. rewrite rbf_call_self, (rbf_call_sym s l v z). ring. Qed.
Lemma rbf_call_pos s l u v : s <> 0 -> 0 < rbf_call s l u v.
Proof. intro H. unfold rbf_call. apply Rmult_lt_0_compat; [nra|apply exp_pos]. Qed.

(** gradients *)
Lemma sqdist_pos u v : length u = length v -> u <> v -> 0 < sqdist u v.
Proof.
  revert v. induction u as [|a u IH]; intros [|b v] L H; try discriminate; [congruence|].
  assert (P : forall u v, 0 <= sqdist u v).
  { clear. induction u as [|a u IH]; intros [|b v]; unfold sqdist, rsum; simpl; try lra. specialize (IH v). unfold sqdist, rsum in IH. assert (K := Rle_0_sqr (a - b)). unfold Rsqr in K. lra. }
  assert (E : sqdist (a :: u) (b :: v) = (a - b) * (a - b) + sqdist u v) by reflexivity. rewrite E.
  destruct (Req_dec a b) as [-> |N]; [|specialize (P u v); nra]. specialize (IH v ltac:(simpl in L; lia) ltac:(congruence)). lra.
Qed.
Lemma l1dist_pos u v : length u = length v -> u <> v -> 0 < l1dist u v.
Proof.
  revert v. induction u as [|a u IH]; intros [|b v] L H; try discriminate; [congruence|].
  assert (P : forall u v, 0 <= l1dist u v).
  { clear. induction u as [|a u IH]; intros [|b v]; unfold l1dist, rsum; simpl; try lra. specialize (IH v). unfold l1dist, rsum in IH. assert (K := Rabs_pos (a - b)). lra. }
  assert (E : l1dist (a :: u) (b :: v) = Rabs (a - b) + l1dist u v) by reflexivity. rewrite E.
  destruct (Req_dec a b) as [-> |N]; [|specialize (P u v); assert (K := Rabs_pos_lt (a - b) ltac:(lra)); lra]. specialize (IH v ltac:(simpl in L; lia) ltac:(congruence)).
  assert (K := Rabs_pos (b - b)). lra.
Qed.
From Coquelicot Require Import Coquelicot.
From Verif Require Import M_RBase M_Util M_Kernel S_Psd S_Kernel.
Local Open Scope R_scope.
Lemma derive_unique (f : R -> R) x a b : is_derive f x a -> is_derive f x b -> a = b.
Proof. intros H1 H2. apply is_derive_unique in H1. apply is_derive_unique in H2. congruence. Qed.
Lemma rbf_dl_half s l n u v : l <> 0 -> is_derive (at_param (RBF s l n) 1 u v) l (nth 1 (rbf_grad s l u v) 0 / 2).
Proof. intro H. apply (is_derive_ext (fun t => rbf_call s t u v)); [reflexivity|]. now apply rbf_dl. Qed.
Lemma rbf_dl_wrong s l n u v g : s <> 0 -> l <> 0 -> length u = length v -> u <> v -> kgrad (RBF s l n) u v = Ok g ->
  ~ is_derive (at_param (RBF s l n) 1 u v) l (nth 1 g 0).
Proof.
  intros Hs Hl HL Hne E D. injection E as <-. assert (K := derive_unique _ _ _ _ D (rbf_dl_half s l n u v Hl)).
  assert (Z : nth 1 (rbf_grad s l u v) 0 = 0) by lra. unfold rbf_grad in Z. cbn [nth] in Z.
  assert (Hp := sqdist_pos u v HL Hne). assert (He := exp_pos (- sqdist u v / (2 * l * l))).
  apply Rmult_integral in Z as [Z|Z]; [|apply Rinv_neq_0_compat in Z; [auto|repeat apply Rmult_integral_contrapositive_currified; auto]].
  apply Rmult_integral in Z as [Z|Z]; [|lra]. apply Rmult_integral in Z as [Z|Z]; [|lra]. assert (2 * s * s <> 0) by (assert (0 < s * s) by nra; lra). auto.
Qed.
Lemma per_dl_wrong s l p u v g : s <> 0 -> 0 < l -> length u = length v -> u <> v -> kgrad (Per s l p) u v = Ok g ->
  ~ is_derive (at_param (Per s l p) 1 u v) l (nth 1 g 0).
Proof.
  intros Hs Hl HL Hne E D. injection E as <-. assert (Hl0 : l <> 0) by lra.
  assert (D' : is_derive (at_param (Per s l p) 1 u v) l (4 * s * s * exp (- 2 * sin (PI * l1dist u v / p) * sin (PI * l1dist u v / p) / (l * l)) * (sin (PI * l1dist u v / p)) ^ 2 / (l * l * l))).
  { apply (is_derive_ext (fun t => per_call s t p u v)); [reflexivity|]. now apply per_dl. }
  assert (K := derive_unique _ _ _ _ D D'). clear D D'. unfold per_grad in K. cbn [nth] in K.
  set (E := exp _) in *. assert (HE : 0 < E) by apply exp_pos. assert (Hp := l1dist_pos u v HL Hne).
  set (q := sin _ ^ 2) in *. assert (Hq : 0 <= q) by apply pow2_ge_0.
  assert (Hi : 0 < / (l * l * l)) by (apply Rinv_0_lt_compat; repeat apply Rmult_lt_0_compat; auto).
  assert (Hss : 0 < s * s) by nra. unfold Rdiv in K.
  assert (A : 0 < (s * s) * (E * (l1dist u v * / (l * l * l)))) by (do 3 (apply Rmult_lt_0_compat; auto)).
  assert (B : 0 <= (s * s) * (E * (q * / (l * l * l)))) by (do 3 (apply Rmult_le_pos; try lra)).
  nra.
Qed.
Lemma per_dp_true s l p u v : l <> 0 -> p <> 0 -> is_derive (at_param (Per s l p) 2 u v) p (2 * sin (PI * l1dist u v / p) * nth 2 (per_grad s l p u v) 0).
Proof. intros H H2. apply (is_derive_ext (fun t => per_call s l t u v)); [reflexivity|]. now apply per_dp. Qed.
Lemma per_dp_wrong s l p u v g : s <> 0 -> l <> 0 -> p <> 0 -> length u = length v -> u <> v ->
  cos (PI * l1dist u v / p) <> 0 -> sin (PI * l1dist u v / p) <> 1 / 2 -> kgrad (Per s l p) u v = Ok g ->
  ~ is_derive (at_param (Per s l p) 2 u v) p (nth 2 g 0).
Proof.
  intros Hs Hl Hp HL Hne Hc Hsn E D. injection E as <-. assert (K := derive_unique _ _ _ _ D (per_dp_true s l p u v Hl Hp)).
  set (w := nth 2 (per_grad s l p u v) 0) in *. assert (W : w <> 0).
  { unfold w, per_grad. cbn [nth]. assert (Hd := l1dist_pos u v HL Hne). assert (He := exp_pos (- 2 * sin (PI * l1dist u v / p) * sin (PI * l1dist u v / p) / (l * l))).
    assert (PI <> 0) by (assert (X := PI_RGT_0); lra).
    assert (l1dist u v <> 0) by lra. assert (exp (- 2 * sin (PI * l1dist u v / p) * sin (PI * l1dist u v / p) / (l * l)) <> 0) by lra.
    unfold Rdiv at 1. apply Rmult_integral_contrapositive_currified;
      [|apply Rinv_neq_0_compat; repeat apply Rmult_integral_contrapositive_currified; auto].
    assert (2 <> 0) by discrR. generalize dependent PI. intros. repeat apply Rmult_integral_contrapositive_currified; auto. }
  apply W. assert (Z : w * (1 - 2 * sin (PI * l1dist u v / p)) = 0) by lra. apply Rmult_integral in Z as [Z|Z]; [auto|lra].
Qed.
(** the matrix version of the periodic gradient uses another exponent *)
Lemma per_cov_grad_wrong : exists k X Y G g, kcov_grad k X Y = Ok (GTuple G) /\ kgrad k (pt X 0) (pt Y 0) = Ok g /\ X <> nil /\ Y <> nil /\ entry (nth 0 G nil) 0 0 <> nth 0 g 0.
Proof.
  exists (Per 1 1 2), (cons (cons 0 nil) nil), (cons (cons 2 nil) nil). eexists. eexists. split; [reflexivity|]. split; [reflexivity|]. split; [discriminate|]. split; [discriminate|].
  cbn [nth]. rewrite entry_pairwise by (simpl; lia). unfold pt. cbn [nth]. unfold per_grad. cbn [nth].
  assert (E : l1dist (cons 0 nil) (cons 2 nil) = 2) by (rewrite l1dist_1, Rabs_minus_sym, Rminus_0_r; apply Rabs_pos_eq; lra). rewrite E.
  replace (PI * 2 / 2) with PI by field. rewrite sin_PI. replace (-2 * 0 * 0 / (1 * 1)) with 0 by field. rewrite exp_0.
  assert (F : sqdist (cons 0 nil) (cons 2 nil) = 4) by (unfold sqdist, rsum; simpl; ring). rewrite F. replace (- (4) / (2 * 1 * 1)) with (-2) by field.
  assert (exp (-2) < 1) by (apply Rlt_le_trans with (exp 0); [apply exp_increasing; lra|rewrite exp_0; lra]). lra.
Qed.
(** the matrix version of the zeroed gradient is not the derivative of the covariance *)
Definition two_pts : list point := cons (cons 0 nil) (cons (cons 1 nil) nil).
Lemma zeroed_cov_grad_wrong : exists G, kcov_grad (ZRBF 1 1 0 (Some (cons 0 nil))) two_pts two_pts = Ok (GTuple G) /\ entry (nth 0 G nil) 0 0 = -2 /\
  forall t, t <> 0 -> exists M, kcov (ZRBF t 1 0 (Some (cons 0 nil))) two_pts two_pts = Ok M /\ entry M 0 0 = 0.
Proof.
  assert (G1 : exists G, kcov_grad (ZRBF 1 1 0 (Some (cons 0 nil))) two_pts two_pts = Ok (GTuple G) /\ entry (nth 0 G nil) 0 0 = -2).
  { cbn [kcov_grad getitem nth_error two_pts bind zero_of]. unfold zero_cov_grad, rbf_cov. cbn [length Nat.eqb bind]. eexists. split; [reflexivity|].
    unfold entry. cbn [nth mat2 map combine fst snd map2 pairwise rbf_cov_grad hd two_pts]. rewrite !rbf_call_self. unfold rbf_grad. cbn [nth]. rewrite sqdist_self.
    replace (- 0 / (2 * 1 * 1)) with 0 by field. rewrite exp_0. ring. }
  destruct G1 as [G [E1 E2]]. exists G. split; [exact E1|]. split; [exact E2|].
  intros t Ht. assert (N1 : two_pts <> nil) by (unfold two_pts; congruence). assert (N2 : length two_pts <> 1%nat) by (unfold two_pts; cbn [length]; lia).
  destruct (kcov_spec (ZRBF t 1 0 (Some (cons 0 nil))) two_pts two_pts N1 (or_intror (conj N2 N2))) as [M [E [_ H]]].
  exists M. split; [exact E|]. rewrite H by (unfold two_pts; cbn [length]; lia). cbn [kentry zero_of].
  change (pt two_pts 0) with (cons 0 nil). rewrite rbf_call_self. destruct (_ && _)%bool; field; auto.
Qed.
(** number of gradient matrices *)
Lemma kcov_grad_length k X Y G : kcov_grad k X Y = Ok G -> (2 <= length (mats G) <= length (kparam k))%nat.
Proof.
  revert G. induction k as [s l e|s sb c|s l p|s l e z|a IHa b IHb|a IHa b IHb]; intros G H; cbn [kcov_grad] in H.
  - injection H as <-. simpl. lia.
  - injection H as <-. simpl. lia.
  - injection H as <-. simpl. lia.
  - destruct (getitem X 0); [|discriminate]. cbn [bind] in H. destruct (zero_cov_grad s l e 0 _ X Y); [|discriminate]. cbn [bind] in H.
    destruct (zero_cov_grad s l e 1 _ X Y); [|discriminate]. cbn [bind rbf_cov_grad] in H. injection H as <-. simpl. lia.
  - destruct (kcov_grad a X Y) as [ga|]; [|discriminate]. destruct (kcov_grad b X Y) as [gb|]; [|discriminate]. cbn [bind] in H.
    specialize (IHa _ eq_refl). specialize (IHb _ eq_refl). cbn [kparam]. rewrite app_length.
    unfold gadd in H. destruct ga as [la|la], gb as [lb|lb]; cbn [mats] in *; [injection H as <-; cbn [mats]; rewrite app_length; lia| | |];
      (destruct (Nat.eqb_spec (length la) (length lb)); [|discriminate]); injection H as <-; cbn [mats]; rewrite map_length, combine_length; lia.
  - destruct (kcov_grad a X Y) as [ga|]; [|discriminate]. cbn [bind] in H. destruct (kcov b X Y) as [B|]; [|discriminate]. cbn [bind] in H.
    destruct (kcov_grad b X Y) as [gb|]; [|discriminate]. cbn [bind] in H. destruct (kcov a X Y) as [A|]; [|discriminate]. cbn [bind] in H.
    specialize (IHa _ eq_refl). specialize (IHb _ eq_refl). cbn [kparam]. rewrite app_length.
    unfold gadd, gmul in H. cbn [mats] in H. rewrite !map_length in H. destruct (Nat.eqb_spec (length (mats ga)) (length (mats gb))); [|discriminate]. injection H as <-.
    cbn [mats]. rewrite map_length, combine_length, !map_length. lia.
Qed.
Lemma product_grad_short a b X Y G : kcov_grad (KMul a b) X Y = Ok G -> (length (mats G) < length (kparam (KMul a b)))%nat.
Proof.
  intro H. cbn [kcov_grad] in H. destruct (kcov_grad a X Y) as [ga|] eqn:Ea; [|discriminate]. cbn [bind] in H. destruct (kcov b X Y) as [B|]; [|discriminate]. cbn [bind] in H.
  destruct (kcov_grad b X Y) as [gb|] eqn:Eb; [|discriminate]. cbn [bind] in H. destruct (kcov a X Y) as [A|]; [|discriminate]. cbn [bind] in H.
  apply kcov_grad_length in Ea. apply kcov_grad_length in Eb. cbn [kparam]. rewrite app_length.
  unfold gadd, gmul in H. cbn [mats] in H. rewrite !map_length in H. destruct (Nat.eqb_spec (length (mats ga)) (length (mats gb))); [|discriminate]. injection H as <-.
  cbn [mats]. rewrite map_length, combine_length, !map_length. lia.
Qed.
Lemma zeroed_call_not_psd s l n z : 1 < s * s -> ~ psd 1 (fun i j => kcall (ZRBF s l n (Some z)) (pt (cons z nil) i) (pt (cons z nil) j)).
Proof.
  intros H P. specialize (P (fun _ => 1)). unfold qform in P. cbn [sumn] in P. change (pt (cons z nil) 0) with z in P. rewrite zeroed_call_self in P. nra.
Qed.
Lemma zeroed_single_negative s l n z : s <> 0 -> 0 < n -> exists M, kcov (ZRBF s l n (Some z)) (cons z nil) (cons z nil) = Ok M /\ entry M 0 0 < 0.
Proof.
  intros Hs Hn. destruct (zeroed_single s l n z Hs) as [M [E H]]. exists M. split; auto. rewrite H.
  assert (0 < n * n / (s * s)) by (apply Rdiv_lt_0_compat; nra). lra.
Qed.
Lemma zeroed_single_not_psd s l n z : s <> 0 -> 0 < n -> exists M, kcov (ZRBF s l n (Some z)) (cons z nil) (cons z nil) = Ok M /\ ~ psd 1 (entry M).
Proof.
  intros Hs Hn. destruct (zeroed_single_negative s l n z Hs Hn) as [M [E H]]. exists M. split; auto. intro P. apply psd_head in P. lra.
Qed.
Lemma periodic_1d_cov_psd s l p X : X <> nil -> dim 1 X -> l <> 0 -> p <> 0 -> exists M, kcov (Per s l p) X X = Ok M /\ psd (length X) (entry M).
Proof.
  intros H1 H2 H3 H4. destruct (kcov_psd (Per s l p) 1 X) as [M [E [_ [_ P]]]]; simpl; auto. exists M. auto.
Qed.
Lemma kcov_entries k X Y : X <> nil -> no_zeroed k -> exists M, kcov k X Y = Ok M /\ shape (length X) (length Y) M /\
  forall i j, (i < length X)%nat -> (j < length Y)%nat ->
    (i <> j \/ length X <> length Y \/ (length (pt X 0) = length (pt Y 0) /\ pt X 0 <> pt Y 0) -> entry M i j = kcall k (pt X i) (pt Y j)) /\
    (X = Y -> i = j -> entry M i j = noisy k (pt X i) (pt X i)).
Proof.
  intros HX HZ. destruct (kcov_spec k X Y HX (or_introl HZ)) as [M [E [HS H]]]. exists M. do 2 (split; auto). intros i j Hi Hj. rewrite H by auto. split.
  - intro Hc. rewrite <- (kentry_off k (pt X 0)) by auto. f_equal. destruct Hc as [Hc|[Hc|[L Hc]]]; unfold same_start.
    + rewrite (proj2 (Nat.eqb_neq i j) Hc). apply Bool.andb_false_r.
    + now rewrite (proj2 (Nat.eqb_neq _ _) Hc).
    + destruct (point_eqb (pt X 0) (pt Y 0)) eqn:F; [apply (point_eqb_true _ _ L) in F; tauto|]. now rewrite Bool.andb_false_r.
  - intros <- <-. unfold same_start. rewrite !Nat.eqb_refl, point_eqb_refl. simpl. now apply kentry_on.
Qed.
Lemma zeroed_entries s l n z X Y : (2 <= length X)%nat -> (2 <= length Y)%nat -> exists M, kcov (ZRBF s l n (Some z)) X Y = Ok M /\
  forall i j, (i < length X)%nat -> (j < length Y)%nat -> i <> j ->
    entry M i j = rbf_call s l (pt X i) (pt Y j) - rbf_call s l (pt X i) z * rbf_call s l z (pt Y j) / rbf_call s l z z.
Proof.
  intros HX HY. assert (N : X <> nil) by (intros ->; simpl in HX; lia).
  destruct (kcov_spec (ZRBF s l n (Some z)) X Y N ltac:(right; lia)) as [M [E [_ H]]]. exists M. split; auto. intros i j Hi Hj Hn. rewrite H by auto.
  rewrite (proj2 (Nat.eqb_neq i j) Hn), Bool.andb_false_r. cbn [kentry zero_of]. rewrite rbf_call_self. ring.
Qed.
Lemma zeroed_pinned s l n z X Y i j : s <> 0 -> (2 <= length X)%nat -> (2 <= length Y)%nat -> (i < length X)%nat -> (j < length Y)%nat ->
  pt X i = z \/ pt Y j = z -> exists M, kcov (ZRBF s l n (Some z)) X Y = Ok M /\ (i <> j -> entry M i j = 0) /\ (entry M i j = 0 \/ entry M i j = n).
Proof.
  intros Hs HX HY Hi Hj Hz. assert (N : X <> nil) by (intros ->; simpl in HX; lia).
  destruct (kcov_spec (ZRBF s l n (Some z)) X Y N ltac:(right; lia)) as [M [E [_ H]]]. exists M. split; auto. rewrite H by auto.
  assert (K : rbf_call s l (pt X i) (pt Y j) - rbf_call s l (pt X i) z * rbf_call s l z (pt Y j) / (s * s) = 0).
  { destruct Hz as [-> | ->]; rewrite rbf_call_self; field; auto. }
  cbn [kentry zero_of]. split.
  - intro Hn. rewrite (proj2 (Nat.eqb_neq i j) Hn), Bool.andb_false_r. lra.
  - destruct (_ && _)%bool; [right|left]; lra.
Qed.
(** without a zero point the kernel pins the origin of the space of the first point *)
Lemma zeroed_default s l n X Y i j : s <> 0 -> (2 <= length X)%nat -> (2 <= length Y)%nat -> (i < length X)%nat -> (j < length Y)%nat ->
  (forall q, (q < length X)%nat -> length (pt X q) = length (pt X 0)) -> (forall x, In x (pt X i) -> x = 0) -> exists M, kcov (ZRBF s l n None) X Y = Ok M /\ (i <> j -> entry M i j = 0) /\ (entry M i j = 0 \/ entry M i j = n).
Proof.
  intros Hs HX HY Hi Hj HL HZ. assert (E : pt X i = repeat 0 (length (pt X 0))). { rewrite <- (HL i Hi). clear - HZ. induction (pt X i) as [|x u IH]; [reflexivity|]. cbn. rewrite (HZ x) by now left. f_equal. apply IH. intros y Hy. apply HZ. now right. }
  destruct (zeroed_pinned s l n _ X Y i j Hs HX HY Hi Hj (or_introl E)) as (M & EM & C). exists M. split; [|exact C]. rewrite <- EM. destruct X as [|x0 X]; [cbn in HX; lia|]. reflexivity.
Qed.
Lemma zeroed_call_nonzero s l n z v : s <> 0 -> s * s <> 1 -> kcall (ZRBF s l n (Some z)) z v <> 0.
Proof.
  intros Hs H1. rewrite zeroed_call_zero. assert (P := rbf_call_pos s l z v Hs). apply Rmult_integral_contrapositive_currified; lra.
Qed.
Lemma zeroed_grad_raises s l n z u v : kgrad (ZRBF s l n z) u v = Raise TypeError.
Proof. reflexivity. Qed.
Lemma noise_refuted : exists k X Y M, no_zeroed k /\ kcov k X Y = Ok M /\ length X = length Y /\ pt X 1 <> pt Y 1 /\ entry M 1 1 <> kcall k (pt X 1) (pt Y 1).
Proof.
  exists (RBF 1 1 1), (cons (cons 0 nil) (cons (cons 1 nil) nil)), (cons (cons 0 nil) (cons (cons 2 nil) nil)).
  set (X := cons (cons 0 nil) (cons (cons 1 nil) nil)). set (Y := cons (cons 0 nil) (cons (cons 2 nil) nil)).
  assert (N : X <> nil) by (unfold X; congruence). destruct (kcov_spec (RBF 1 1 1) X Y N (or_introl I)) as [M [E [_ H]]]. exists M.
  split; [exact I|]. split; [exact E|]. split; [reflexivity|]. split; [unfold X, Y, pt; cbn [nth]; intro K; injection K; lra|].
  rewrite H by (unfold X, Y; cbn [length]; lia). unfold same_start.
  replace (length X =? length Y)%nat with true by reflexivity. change (pt X 0) with (pt Y 0). rewrite point_eqb_refl, Nat.eqb_refl. cbn [andb kentry kcall]. apply Rgt_not_eq. cbn [Nat.eqb]. lra.
Qed.
Lemma zeroed_cov_refuted : exists k X Y M, kcov k X Y = Ok M /\ (2 <= length X)%nat /\ (2 <= length Y)%nat /\ entry M 0 1 <> kcall k (pt X 0) (pt Y 1).
Proof.
  exists (ZRBF 2 1 0 (Some (cons 0 nil))), two_pts, two_pts. assert (L : (2 <= length two_pts)%nat) by (unfold two_pts; cbn [length]; lia).
  assert (Hi : (0 < length two_pts)%nat) by lia. assert (Hj : (1 < length two_pts)%nat) by lia. assert (Hs : 2 <> 0) by discrR.
  destruct (zeroed_pinned 2 1 0 (cons 0 nil) two_pts two_pts 0 1 Hs L L Hi Hj (or_introl eq_refl)) as [M [E [H _]]]. exists M. split; [exact E|]. do 2 (split; [exact L|]).
  rewrite H by lia. change (pt two_pts 0) with (cons 0 nil). intro K. symmetry in K. revert K. apply zeroed_call_nonzero; auto. apply Rgt_not_eq. lra.
Qed.
Lemma kset_len k th : length th = length (kparam k) -> exists k', kset k th = Ok k' /\ kparam k' = th /\ klen k' = length th.
Proof.
  intro H. destruct (kset_ok k th H) as [k' [E P]]. exists k'. do 2 (split; auto). rewrite <- P. clear.
  induction k' as [s l e|s sb c|s l p|s l e z|a IHa b IHb|a IHa b IHb]; cbn [klen kparam]; rewrite ?app_length; auto.
Qed.
Lemma kprior_none g k : kprior g k = None <-> exists x, In x (kparam k) /\ x < 0.
Proof.
  assert (O : forall a b, oplus a b = None <-> a = None \/ b = None) by (intros [a|] [b|]; simpl; split; intros; try tauto; try discriminate; intuition discriminate).
  induction k as [s l e|s sb c|s l p|s l e z|a IHa b IHb|a IHa b IHb]; cbn [kprior kparam]; rewrite !O, ?log_pdf_none.
  1,2,3,4: split; [intro H; repeat destruct H as [H|H]; eexists; (split; [|exact H]); simpl; tauto|intros [x [Hi Hx]]; simpl in Hi; intuition; subst; tauto].
  all: rewrite IHa, IHb; split; [intros [[x [Hx Hn]]|[x [Hx Hn]]]; exists x; rewrite in_app_iff; tauto|intros [x [Hx Hn]]; apply in_app_iff in Hx as [Hx|Hx]; [left|right]; exists x; tauto].
Qed.
