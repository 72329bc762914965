(** Lemmas about the normalised fit. *)
From Coq Require Import Reals Lra Lia List Permutation.
From Verif Require Import M_RBase M_Base M_Normal M_Pairs M_PrefProbit M_OrdProbit M_AbsProbit M_Kernel M_Acq M_GP M_Fit M_Search M_Mode M_NormMode
  S_PrefProbit S_Fit S_Psd S_Kernel S_GP S_Mode P_Acq P_Search P_GP P_GP2 P_GP3 P_Fit P_Fit2 P_Mode P_Mode2 P_Mode3 P_Mode4 P_Mode5.
From Verif Require Import P_Chol S_Psd P_Psd.
Import ListNotations.
Local Open Scope R_scope.

Lemma mode_loop_last {V} (upd : nat -> V -> result V) far maxloops fuel n F k v :
  mode_loop upd far maxloops fuel n F = Ok (k, v) -> exists i w, upd i w = Ok v.
Proof.
  revert n F. induction fuel as [|fuel IH]; simpl; intros n F H; [discriminate|]. destruct (upd n F) as [F'|e] eqn:E; cbn [bind] in H; [|discriminate].
  destruct (maxloops <? S n)%nat; [inversion H; subst; eauto|]. destruct (far F' F); [eauto|inversion H; subst; eauto].
Qed.
Lemma norm_step_some positive sp P y n L inv v F : norm_step positive sp P y n L inv v = Ok (Some F) -> exists F1, normalise true positive F1 = Ok (Some F).
Proof. unfold norm_step. destruct v as [F0|]; [|discriminate]. destruct (mode_step _ _ _ _ _ _ _) as [F1|e]; cbn [bind]; [eauto|discriminate]. Qed.
Lemma fit_norm_last positive sp P y n K L inv d maxloops F0 k F : chol n K = Some L ->
  fit_normalised positive sp P y n K inv d maxloops F0 = Ok (k, Some F) -> exists F1, normalise true positive F1 = Ok (Some F).
Proof.
  intros EL H. unfold fit_normalised in H. rewrite EL in H. unfold find_mode in H. destruct (mode_loop_last _ _ _ _ _ _ _ _ H) as [i [w E]].
  exact (norm_step_some _ _ _ _ _ _ _ _ _ E).
Qed.
Lemma fit_norm_range positive sp P y n K L inv d maxloops F0 k F : chol n K = Some L -> fit_normalised positive sp P y n K inv d maxloops F0 = Ok (k, Some F) ->
  if positive then (forall x, In x F -> 0 <= x <= 1) /\ In 0 F /\ In 1 F else norm_inf F = 1.
Proof.
  intros EL H. destruct (fit_norm_last _ _ _ _ _ _ _ _ _ _ _ _ _ EL H) as [F1 E]. destruct positive.
  - destruct (normalise_positive_range _ _ E) as [_ [A [B [C _]]]]. auto.
  - now destruct (normalise_symmetric_range _ _ E) as [_ [A _]].
Qed.
Lemma mode_loop_inv {V} (Inv : V -> Prop) (upd : nat -> V -> result V) far maxloops fuel n F k v : (forall i w z, Inv w -> upd i w = Ok z -> Inv z) -> Inv F ->
  mode_loop upd far maxloops fuel n F = Ok (k, v) -> Inv v.
Proof.
  intro HI. revert n F. induction fuel as [|fuel IH]; simpl; intros n F HF H; [discriminate|]. destruct (upd n F) as [F'|e] eqn:E; cbn [bind] in H; [|discriminate].
  destruct (maxloops <? S n)%nat; [inversion H; subst; eauto|]. destruct (far F' F); [eauto|inversion H; subst; eauto].
Qed.
Lemma mode_step_length sp P y n L inv F F' : length F = n -> mode_step sp P y n L inv F = Ok F' -> length F' = n.
Proof.
  intros LF H. unfold mode_step in H. destruct (derivatives _ _ _ _) as [d|e]; cbn [bind] in H; [|discriminate]. cbv zeta in H. unfold newton_update in H. cbn [bind] in H.
  injection H as <-. unfold step_from. rewrite map_length, combine_length, LF. unfold descent. destruct (inv n _); rewrite map_length, seq_length; lia.
Qed.
Lemma fit_norm_length positive sp P y n K inv d maxloops F0 k F : length F0 = n -> fit_normalised positive sp P y n K inv d maxloops F0 = Ok (k, Some F) -> length F = n.
Proof.
  intros L0 H. unfold fit_normalised in H. destruct (chol n K) as [L|]; unfold find_mode in H; [|injection H as _ <-; exact L0].
  refine (mode_loop_inv (fun v => forall G, v = Some G -> length G = n) _ _ _ _ _ _ _ _ _ _ H F eq_refl); [|intros G E; injection E as <-; exact L0].
  intros i w z Hw E G Eg. subst z. unfold norm_step in E. destruct w as [F1|]; [|discriminate]. destruct (mode_step sp P y n L inv F1) as [F2|e] eqn:ES; cbn [bind] in E; [|discriminate].
  assert (Q := mode_step_length _ _ _ _ _ _ _ _ (Hw F1 eq_refl) ES). destruct positive; [destruct (normalise_positive_range _ _ E)|destruct (normalise_symmetric_range _ _ E)]; congruence.
Qed.
(** some value has absolute value 1 *)
Lemma norm_inf_attained F c : norm_inf F = c -> 0 < c -> exists x, In x F /\ Rabs x = c.
Proof.
  unfold norm_inf. induction F as [|x F IH]; simpl; intros E Hc; [lra|]. destruct (Rle_dec (norm_inf F) (Rabs x)) as [H|H]; unfold norm_inf in H.
  - rewrite Rmax_left in E by exact H. eauto.
  - rewrite Rmax_right in E by lra. destruct (IH E Hc) as [z [Hz Ez]]. eauto.
Qed.
Lemma normalise_length positive F F' : normalise true positive F = Ok (Some F') -> length F' = length F.
Proof. destruct positive; intro E; [now destruct (normalise_positive_range _ _ E)|now destruct (normalise_symmetric_range _ _ E)]. Qed.
Lemma fit_norm_one positive sp P y n K L inv d maxloops F0 k F : chol n K = Some L -> fit_normalised positive sp P y n K inv d maxloops F0 = Ok (k, Some F) ->
  exists i, (i < length F)%nat /\ Rabs (entries F i) = 1.
Proof.
  intros EL H. assert (R := fit_norm_range _ _ _ _ _ _ _ _ _ _ _ _ _ EL H). assert (Q : exists x, In x F /\ Rabs x = 1).
  { destruct positive; [exists 1; split; [tauto|apply Rabs_R1]|apply norm_inf_attained; lra]. }
  destruct Q as [x [Hx E]]. destruct (In_nth _ _ 0 Hx) as [i [Hi Ei]]. exists i. split; auto. unfold entries. now rewrite Ei.
Qed.
Lemma fit_norm_not_mode positive sp P y n K L B inv d maxloops F0 k F : good_probits sp P -> good_labels P n y -> discrete P y -> symmetric n K -> chol n K = Some L -> right_inverse n K B ->
  (forall i, (i < n)%nat -> K i i * - LL sp P y (fun _ => 0) < 1) -> length F0 = n ->
  fit_normalised positive sp P y n K inv d maxloops F0 = Ok (k, Some F) -> ~ mode sp P y n B (entries F).
Proof.
  intros HP HY HD HS EL IB HK L0 H M. assert (LF := fit_norm_length _ _ _ _ _ _ _ _ _ _ _ _ L0 H). destruct (fit_norm_one _ _ _ _ _ _ _ _ _ _ _ _ _ EL H) as [i [Hi E]]. rewrite LF in Hi.
  assert (PK := chol_pd n K L HS EL).
  assert (Q := mode_entry_bound sp P n y K B HP HY HD HS PK IB (entries F) i M Hi). specialize (HK i Hi).
  assert (entries F i ^ 2 = 1); [|lra]. rewrite <- Rsqr_pow2, Rsqr_abs, E. unfold Rsqr. ring.
Qed.
(** scaling a right-hand side *)
Lemma fwd_scale n : forall L b c i, fwd n L (fun j => b j / c) i = fwd n L b i / c.
Proof.
  induction n as [|n IH]; intros L b c i; cbn [fwd]; [unfold Rdiv; ring|]. cbv zeta. destruct i as [|i]; [unfold Rdiv; ring|].
  rewrite <- IH. f_equal. apply FunctionalExtensionality.functional_extensionality. intro j. unfold Rdiv. ring.
Qed.
Lemma sum_to_scale n f c : sum_to n (fun j => f j / c) = sum_to n f / c.
Proof.
  rewrite !sum_to_sumn. induction n as [|n IH]; cbn [sumn]; [unfold Rdiv; ring|]. rewrite IH. unfold Rdiv. ring.
Qed.
Lemma bwd_scale n : forall L b c i, bwd n L (fun j => b j / c) i = bwd n L b i / c.
Proof.
  induction n as [|n IH]; intros L b c i; cbn [bwd]; [unfold Rdiv; ring|]. cbv zeta. destruct i as [|i]; [|apply IH].
  replace (sum_to n (fun j => L (S j) 0%nat * bwd n (fun i j0 => L (S i) (S j0)) (fun i => b (S i) / c) j))
    with (sum_to n (fun j => L (S j) 0%nat * bwd n (fun i j0 => L (S i) (S j0)) (fun i => b (S i)) j) / c); [unfold Rdiv; ring|].
  rewrite <- sum_to_scale. f_equal. apply FunctionalExtensionality.functional_extensionality. intro j. rewrite (IH _ (fun i => b (S i)) c j). unfold Rdiv. ring.
Qed.
Lemma cho_scale n L b c i : cho_solve n L (fun j => b j / c) i = cho_solve n L b i / c.
Proof.
  unfold cho_solve. rewrite <- bwd_scale. f_equal. apply FunctionalExtensionality.functional_extensionality. intro j. apply fwd_scale.
Qed.
Lemma nth_scale F c j : nth j (map (fun x => x / c) F) 0 = nth j F 0 / c.
Proof. rewrite <- (map_nth (fun x => x / c)). f_equal. unfold Rdiv. ring. Qed.
(** other values, other W: the means are scaled alike *)
Lemma pgp_scale inv k d d' c X mu var : pX d' = pX d -> pK d' = pK d -> pF d' = map (fun x => x / c) (pF d) ->
  pgp_predict inv k (Some d) X = Ok (mu, var) -> exists var', pgp_predict inv k (Some d') X = Ok (map (fun m => m / c) mu, var').
Proof.
  intros EX EK EF H. unfold pgp_predict in *. cbv zeta in *. rewrite EX, EK, EF. destruct (kcov k X (pX d)) as [cX|e]; cbn [bind] in *; [|discriminate].
  destruct (kcov k X X) as [cT|e]; cbn [bind] in *; [|discriminate]. destruct (chol (length (pX d)) (mat_at (pK d))) as [L|]; [|discriminate].
  injection H as <- _. eexists. do 2 f_equal. rewrite map_map. apply map_ext. intro i. rewrite <- sum_to_scale. f_equal.
  apply FunctionalExtensionality.functional_extensionality. intro j.
  replace (cho_solve (length (pX d)) L (fun j0 => nth j0 (map (fun x => x / c) (pF d)) 0)) with (cho_solve (length (pX d)) L (fun j0 => nth j0 (pF d) 0 / c)).
  - rewrite (cho_scale _ _ (fun j0 => nth j0 (pF d) 0)). unfold Rdiv. ring.
  - f_equal. apply FunctionalExtensionality.functional_extensionality. intro j0. now rewrite nth_scale.
Qed.
Lemma normalise_factor F F' : normalise true false F = Ok (Some F') -> exists c, 0 < c /\ F' = map (fun x => x / c) F.
Proof.
  unfold normalise, scale_down. destruct (Req_EM_T (norm_inf F) 0) as [E|E]; [discriminate|]. intro H. injection H as <-. exists (norm_inf F). split; auto.
  assert (0 <= norm_inf F); [|lra]. unfold norm_inf. clear. induction F; simpl; [lra|]. eapply Rle_trans; [apply IHF|apply Rmax_r].
Qed.
Lemma pgp_normalised inv k d d' X mu var : pX d' = pX d -> pK d' = pK d -> normalise true false (pF d) = Ok (Some (pF d')) ->
  pgp_predict inv k (Some d) X = Ok (mu, var) -> exists mu' var', pgp_predict inv k (Some d') X = Ok (mu', var') /\ length mu' = length mu /\
    forall i j, (i < length mu)%nat -> (j < length mu)%nat -> (nth i mu' 0 < nth j mu' 0 <-> nth i mu 0 < nth j mu 0).
Proof.
  intros EX EK EN H. destruct (normalise_factor _ _ EN) as [c [Hc EF]]. destruct (pgp_scale inv k d d' c X mu var EX EK EF H) as [var' E].
  exists (map (fun m => m / c) mu), var'. split; auto. split; [apply map_length|]. intros i j _ _. rewrite !nth_scale.
  split; intro Q; [apply (Rmult_lt_reg_r (/ c)); [now apply Rinv_0_lt_compat|exact Q]|apply Rmult_lt_compat_r; [now apply Rinv_0_lt_compat|exact Q]].
Qed.

(** balanced answers *)
Lemma fit_norm_balanced sp P n r K L B inv d maxloops F0 k F : good_probits sp P -> well_formed n r -> symmetric n K -> chol n K = Some L -> right_inverse n K B -> Permutation r (map contrary r) ->
  length F0 = n -> fit_normalised true sp P (only r) n K inv d maxloops F0 = Ok (k, Some F) ->
  (exists i j, (i < n)%nat /\ (j < n)%nat /\ entries F i = 0 /\ entries F j = 1) /\ forall G, mode sp P (only r) n B G -> forall i, (i < n)%nat -> G i = 0.
Proof.
  intros HP HW HS EL IB HB L0 H. assert (LF := fit_norm_length _ _ _ _ _ _ _ _ _ _ _ _ L0 H). split.
  - destruct (fit_norm_range _ _ _ _ _ _ _ _ _ _ _ _ _ EL H) as [_ [A C]]. destruct (In_nth _ _ 0 A) as [i [Hi Ei]]. destruct (In_nth _ _ 0 C) as [j [Hj Ej]].
    exists i, j. rewrite LF in *. auto.
  - intros G M i Hi. exact (mode_balanced sp P n r K B G HP HW HS (chol_pd n K L HS EL) IB HB M i Hi).
Qed.
(** a comparison and its contrary, or any number of answers up to a prior variance *)
Lemma fit_norm_comparisons positive sp P n r K L B inv d maxloops F0 k F : good_probits sp P -> 0 < p_sigma (ps_p P) -> well_formed n r -> symmetric n K -> chol n K = Some L -> right_inverse n K B ->
  (forall i, (i < n)%nat -> K i i * (INR (length r) * ln 2) < 1) -> length F0 = n ->
  fit_normalised positive sp P (only r) n K inv d maxloops F0 = Ok (k, Some F) -> ~ mode sp P (only r) n B (entries F).
Proof.
  intros HP HS0 HW HS EL IB HK L0 H. apply (fit_norm_not_mode positive sp P (only r) n K L B inv d maxloops F0 k F); auto.
  - split; [|split]; try (intros o E; discriminate E). intros r' E. injection E as <-. exact HW.
  - split; [reflexivity|]. intro E. now contradiction E.
  - intros i Hi. rewrite LL_only_zero by lra. specialize (HK i Hi). lra.
Qed.
(** two training points, and a new point at the origin whose mean is always 0 *)
Definition nk : kern := Lin 1 0 0.
Definition nY : list point := [[1; 0]; [0; 1]].
Definition nX : list point := [[1; 0]; [0; 1]; [0; 0]].
Definition nM : matrix := pairwise (lin_call 1 0 0) nY nY.
Definition nfit (F : list R) : pgp_data := {| pX := nY; pF := F; pW := [[1; -1]; [-1; 1]]; pK := nM |}.
Lemma nM_id i j : (i < 2)%nat -> (j < 2)%nat -> mat_at nM i j = if Nat.eqb i j then 1 else 0.
Proof.
  intros Hi Hj. destruct i as [|[|i]]; try lia; destruct j as [|[|j]]; try lia; unfold mat_at, nM, nY, pairwise, lin_call; cbn [map nth combine fst snd Nat.eqb]; unfold rsum; cbn [fold_right]; ring.
Qed.
Lemma nchol : exists L, chol 2 (mat_at nM) = Some L.
Proof.
  apply chol_complete.
  - intros i j Hi Hj. rewrite !nM_id by auto. rewrite Nat.eqb_sym. reflexivity.
  - intros c [i [Hi Hc]]. unfold qform. cbn [sumn]. rewrite !nM_id by lia. cbn [Nat.eqb].
    assert (0 <= c 0%nat ^ 2) by (apply pow2_ge_0). assert (0 <= c 1%nat ^ 2) by (apply pow2_ge_0).
    destruct i as [|[|i]]; [| |lia].
    + assert (0 < c 0%nat ^ 2) by (rewrite <- Rsqr_pow2; now apply Rsqr_pos_lt). lra.
    + assert (0 < c 1%nat ^ 2) by (rewrite <- Rsqr_pow2; now apply Rsqr_pos_lt). lra.
Qed.
Lemma npredict inv a b : exists m v, pgp_predict inv nk (Some (nfit [a; b])) nX = Ok (m, v) /\ nth 1 m 0 = b /\ nth 2 m 0 = 0.
Proof.
  destruct nchol as [L EL]. unfold pgp_predict. cbn [nfit pX pK pF pW nk kcov bind]. change (length nY) with 2%nat. rewrite EL. eexists. eexists. split; [reflexivity|].
  assert (SK : symmetric 2 (mat_at nM)) by (intros i j Hi Hj; rewrite !nM_id by auto; now rewrite Nat.eqb_sym).
  assert (S2 := cho_solve_spec 2 _ L (fun j => nth j [a; b] 0) SK EL). change (length nX) with 3%nat. cbn [seq map nth]. rewrite !sum_to_sumn. split.
  - assert (S21 := S2 1%nat ltac:(lia)). cbv beta in S21. refine (eq_trans _ S21). apply sumn_ext. intros j Hj. destruct j as [|[|j]]; try lia; reflexivity.
  - apply sumn_zero. intros j Hj. destruct j as [|[|j]]; try lia; unfold mat_at, nX, nY, pairwise, lin_call; cbn [map nth combine fst snd]; unfold rsum; cbn [fold_right]; ring.
Qed.
Lemma order_lost : exists k d d' X inv m v m' v', pX d' = pX d /\ pK d' = pK d /\ pW d' = pW d /\ normalise true true (pF d) = Ok (Some (pF d')) /\
  kcov k (pX d) (pX d) = Ok (pK d) /\ pgp_predict inv k (Some d) X = Ok (m, v) /\ pgp_predict inv k (Some d') X = Ok (m', v') /\
  nth 1 X nil = nth 1 (pX d) nil /\ nth 1 m 0 < nth 2 m 0 /\ nth 2 m' 0 < nth 1 m' 0.
Proof.
  set (inv := fun (n : nat) (A : mat) => A). destruct (npredict inv (-2) (-1)) as [m [v [E [E1 E2]]]]. destruct (npredict inv 0 1) as [m' [v' [E' [E1' E2']]]].
  exists nk, (nfit [-2; -1]), (nfit [0; 1]), nX, inv, m, v, m', v'. split; [reflexivity|]. split; [reflexivity|]. split; [reflexivity|]. split.
  - cbn [nfit pF]. unfold normalise, np_min, np_max, rmin1, rmax1. cbn [bind map fold_right fold_left].
    repeat (rewrite ?Rmin_left, ?Rmax_right by lra). unfold scale_down. destruct (Req_EM_T _ 0) as [Q|Q]; [lra|]. cbn [map]. do 2 f_equal. repeat (f_equal; try lra).
  - split; [reflexivity|]. split; auto. split; auto. split; [reflexivity|]. lra.
Qed.

(** one point: the values between 0 and 1 are 0/0, and the loop ends *)
Lemma fit_norm_single sp P y K L inv d maxloops x r : chol 1 K = Some L -> fit_normalised true sp P y 1 K inv d maxloops [x] = Ok r -> r = (1%nat, None).
Proof.
  intros EL. unfold fit_normalised. rewrite EL. unfold find_mode. cbn [mode_loop]. unfold norm_step at 1.
  destruct (mode_step sp P y 1 L inv [x]) as [F|e] eqn:ES; cbn [bind]; [|discriminate]. apply mode_step_length in ES; [|reflexivity].
  destruct F as [|a [|b F]]; cbn [length] in ES; try discriminate ES. unfold normalise, np_min, np_max, rmin1, rmax1. cbn [bind map fold_left fold_right]. unfold scale_down. destruct (Req_EM_T (a - a) 0) as [_|N]; [|exfalso; apply N; lra].
  cbn [bind still_far]. intro H. destruct (Nat.ltb maxloops 1); now injection H as <-.
Qed.
