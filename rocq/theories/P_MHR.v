(** Lemmas for Monte-Carlo sampling of real vectors. *)
From Coquelicot Require Import Coquelicot.
From Coq Require Import Reals Lra Lia List Arith.
From Verif Require Import M_RBase M_Normal M_Util S_MH P_MH S_MHR P_Normal P_Box.
Import ListNotations.
Local Open Scope R_scope.
Local Arguments RInt {V} f a b : simpl never.

(** ---- continuous functions ---- *)
Lemma cont_ext k f g : (forall v, length v = k -> f v = g v) -> cont k f -> cont k g.
Proof. intros H C r e Hr He. destruct (C r e Hr He) as [dl [Hd K]]. exists dl. split; [exact Hd|]. intros u v Hu Huv. assert (Hv : length v = k) by (rewrite <- Hu; symmetry; now apply F2_length in Huv). rewrite <- !H by assumption. now apply K. Qed.
Lemma cont_const k c : cont k (fun _ => c).
Proof. intros r e _ He. exists 1. split; [lra|]. intros. unfold Rminus. now rewrite Rplus_opp_r, Rabs_R0. Qed.
Lemma cont_plus k f g : cont k f -> cont k g -> cont k (fun v => f v + g v).
Proof.
  intros Cf Cg r e Hr He. destruct (Cf r (e / 2) Hr ltac:(lra)) as [d1 [H1 K1]]. destruct (Cg r (e / 2) Hr ltac:(lra)) as [d2 [H2 K2]]. exists (Rmin d1 d2). split; [now apply Rmin_glb_lt|]. intros u v Hu Huv.
  assert (A := K1 u v Hu (close2_mono _ _ _ _ _ _ (Rle_refl r) (Rmin_l d1 d2) Huv)). assert (B := K2 u v Hu (close2_mono _ _ _ _ _ _ (Rle_refl r) (Rmin_r d1 d2) Huv)).
  replace (f u + g u - (f v + g v)) with ((f u - f v) + (g u - g v)) by ring. eapply Rle_lt_trans; [apply Rabs_triang|]. lra.
Qed.
Lemma above x : exists N, x < INR N.
Proof. exists (Z.to_nat (up x)). destruct (archimed x) as [H _]. destruct (Z.le_gt_cases 0 (up x)) as [L|L]; [rewrite INR_IZR_INZ, Z2Nat.id by exact L; lra|]. apply IZR_lt in L. assert (P := pos_INR (Z.to_nat (up x))). lra. Qed.
Lemma cont_bounded k f r : cont k f -> 0 < r -> exists M, 0 < M /\ forall v, length v = k -> Forall (fun a => Rabs a <= r) v -> Rabs (f v) <= M.
Proof.
  intros C Hr. destruct (C r 1 Hr ltac:(lra)) as [dl [Hd K]]. destruct (above (r / dl)) as [N HN].
  assert (PN : 0 < INR N) by (eapply Rlt_trans; [|exact HN]; now apply Rdiv_lt_0_compat). assert (RN : r / INR N < dl).
  { apply (Rmult_lt_reg_r (INR N)); [exact PN|]. replace (r / INR N * INR N) with r by (field; lra). apply (Rmult_lt_compat_l dl) in HN; [|exact Hd]. replace (dl * (r / dl)) with r in HN by (field; lra). lra. }
  exists (Rabs (f (repeat 0 k)) + INR N). assert (P0 := Rabs_pos (f (repeat 0 k))). split; [lra|]. intros v Hv Bv.
  assert (I : forall j, (j <= N)%nat -> Rabs (f (map (fun a => a * (INR j / INR N)) v)) <= Rabs (f (repeat 0 k)) + INR j).
  { induction j as [|j IH]; intro Hj.
    - right. cbn [INR]. rewrite Rplus_0_r. do 2 f_equal. rewrite <- Hv. clear. induction v as [|a v IH]; cbn; [reflexivity|]. rewrite IH. f_equal. unfold Rdiv. ring.
    - specialize (IH ltac:(lia)). set (x := map (fun a => a * (INR (S j) / INR N)) v). set (y := map (fun a => a * (INR j / INR N)) v).
      assert (L : INR (S j) <= INR N) by now apply le_INR. assert (J0 := pos_INR j). rewrite S_INR in L.
      assert (D : Rabs (f x - f y) < 1). { apply K; [unfold x; now rewrite map_length|]. unfold x, y. clear -Bv L RN PN J0 Hr. induction Bv as [|a v Ha Bv IH]; constructor; [|exact IH]. rewrite S_INR.
        assert (Pa := Rabs_pos a). assert (U1 : 0 <= (INR j + 1) / INR N <= 1) by (split; [apply Rdiv_le_0_compat; lra|apply (Rdiv_le_1 _ _ PN); lra]). assert (U2 : 0 <= INR j / INR N <= 1) by (split; [apply Rdiv_le_0_compat; lra|apply (Rdiv_le_1 _ _ PN); lra]).
        repeat split.
        - rewrite Rabs_mult, (Rabs_right ((INR j + 1) / INR N)) by lra. nra.
        - rewrite Rabs_mult, (Rabs_right (INR j / INR N)) by lra. nra.
        - replace (a * ((INR j + 1) / INR N) - a * (INR j / INR N)) with (a * / INR N) by (field; lra). rewrite Rabs_mult, (Rabs_right (/ INR N)) by (left; now apply Rinv_0_lt_compat). eapply Rle_lt_trans; [|exact RN]. unfold Rdiv. apply Rmult_le_compat_r; [left; now apply Rinv_0_lt_compat|exact Ha]. }
      assert (T := tri (f x) (f y)). unfold y in T. fold y in T. rewrite S_INR. fold y in IH. lra. }
  specialize (I N (le_n N)). replace (map (fun a => a * (INR N / INR N)) v) with v in I; [exact I|]. clear -PN. induction v as [|a v IH]; cbn; [reflexivity|]. rewrite <- IH. f_equal. field. lra.
Qed.
Lemma cont_comp k (g : R -> R) f : (forall t, continuity_pt g t) -> cont k f -> cont k (fun v => g (f v)).
Proof.
  intros Cg Cf r e Hr He. destruct (cont_bounded k f r Cf Hr) as [M [HM B]]. destruct (Heine_cor2 (f := g) (a := - M) (b := M) (fun x _ => Cg x) (mkposreal e He)) as [[d1 H1] K1]. cbn in K1. destruct (Cf r d1 Hr H1) as [dl [Hd K]]. exists dl. split; [exact Hd|]. intros u v Hu Huv.
  assert (Hv : length v = k) by (rewrite <- Hu; symmetry; now apply F2_length in Huv).
  assert (Bu : Forall (fun a => Rabs a <= r) u /\ Forall (fun a => Rabs a <= r) v) by (clear -Huv; induction Huv as [|a b u v [H1 [H2 _]] _ [I1 I2]]; split; constructor; auto). destruct Bu as [Bu Bv].
  apply K1; [apply Rabs_le_between; now apply B|apply Rabs_le_between; now apply B|now apply K].
Qed.
Lemma cont_mult k f g : cont k f -> cont k g -> cont k (fun v => f v * g v).
Proof.
  intros Cf Cg. assert (S : forall h, cont k h -> cont k (fun v => h v * h v)) by (intros h Ch; apply (cont_comp k (fun t => t * t)); [intro t; apply continuity_pt_mult; apply continuity_pt_id|exact Ch]).
  assert (Sc : forall c h, cont k h -> cont k (fun v => c * h v)) by (intros c h Ch; apply (cont_comp k (fun t => c * t)); [intro t; apply continuity_pt_mult; [apply continuity_pt_const; now intros ? ?|apply continuity_pt_id]|exact Ch]).
  apply (cont_ext k (fun v => / 4 * ((f v + g v) * (f v + g v)) + - / 4 * ((f v + -1 * g v) * (f v + -1 * g v)))); [intros v _; field|]. apply cont_plus; apply Sc; apply (S (fun v => _)); apply cont_plus; auto.
Qed.
Lemma cont_minus k f g : cont k f -> cont k g -> cont k (fun v => f v - g v).
Proof. intros Cf Cg. apply (cont_ext k (fun v => f v + (-1) * g v)); [intros; ring|]. apply cont_plus; [exact Cf|]. apply (cont_mult k (fun _ => -1)); [apply cont_const|exact Cg]. Qed.
Lemma cont2_app k d f : cont2 k d f <-> cont (k + d) (fun w => f (firstn k w) (skipn k w)).
Proof.
  assert (L1 : forall j r dl u v, Forall2 (close r dl) u v -> Forall2 (close r dl) (firstn j u) (firstn j v) /\ Forall2 (close r dl) (skipn j u) (skipn j v)).
  { intros j r dl u v H. revert j. induction H as [|a b u v H0 H IH]; intros [|j]; cbn; auto. destruct (IH j). auto. }
  split; intros C r e Hr He; destruct (C r e Hr He) as [dl [Hd K]]; exists dl; (split; [exact Hd|]).
  - intros u v Hu Huv. destruct (L1 k r dl u v Huv). apply K; [rewrite firstn_length; lia|rewrite skipn_length; lia|assumption|assumption].
  - intros p q u v Hp Hu Hpq Huv. assert (Hq : length q = k) by (rewrite <- Hp; symmetry; now apply F2_length in Hpq). specialize (K (p ++ u) (q ++ v)).
    assert (FS : forall p u : list R, length p = k -> firstn k (p ++ u) = p /\ skipn k (p ++ u) = u) by (intros p0 u0 <-; rewrite firstn_app, skipn_app, Nat.sub_diag, firstn_all, skipn_all, firstn_O, app_nil_r; split; reflexivity).
    destruct (FS p u Hp) as [F1 F2]. destruct (FS q v Hq) as [F3 F4]. rewrite F1, F2, F3, F4 in K.
    apply K; [rewrite app_length; lia|]. now apply Forall2_app.
Qed.
Lemma cont2_comp k d (g : R -> R) f : (forall t, continuity_pt g t) -> cont2 k d f -> cont2 k d (fun p u => g (f p u)).
Proof. intros Cg Cf. apply cont2_app. apply (cont_comp (k + d) g (fun w => f (firstn k w) (skipn k w))); [exact Cg|]. now apply cont2_app. Qed.
Lemma cont2_mult k d f g : cont2 k d f -> cont2 k d g -> cont2 k d (fun p u => f p u * g p u).
Proof. intros Cf Cg. apply cont2_app. apply (cont_mult (k + d) (fun w => f (firstn k w) (skipn k w)) (fun w => g (firstn k w) (skipn k w))); now apply cont2_app. Qed.
Lemma cont2_plus k d f g : cont2 k d f -> cont2 k d g -> cont2 k d (fun p u => f p u + g p u).
Proof. intros Cf Cg. apply cont2_app. apply (cont_plus (k + d) (fun w => f (firstn k w) (skipn k w)) (fun w => g (firstn k w) (skipn k w))); now apply cont2_app. Qed.
Lemma cont2_minus k d f g : cont2 k d f -> cont2 k d g -> cont2 k d (fun p u => f p u - g p u).
Proof. intros Cf Cg. apply cont2_app. apply (cont_minus (k + d) (fun w => f (firstn k w) (skipn k w)) (fun w => g (firstn k w) (skipn k w))); now apply cont2_app. Qed.
Lemma cont2_const k d c : cont2 k d (fun _ _ => c).
Proof. apply cont2_app. apply cont_const. Qed.
Lemma cont2_left k d f : cont k f -> cont2 k d (fun p _ => f p).
Proof. intros C r e Hr He. destruct (C r e Hr He) as [dl [Hd K]]. exists dl. split; [exact Hd|]. intros. now apply K. Qed.
Lemma cont2_right k d f : cont d f -> cont2 k d (fun _ u => f u).
Proof. intros C r e Hr He. destruct (C r e Hr He) as [dl [Hd K]]. exists dl. split; [exact Hd|]. intros. now apply K. Qed.
Lemma moved_length std x z : length z = length x -> length (moved std x z) = length x.
Proof. revert z. induction x as [|a x IH]; intros [|t z] H; try discriminate; [reflexivity|]. cbn in *. now rewrite IH by lia. Qed.
Lemma cont2_moved d std f : cont d f -> cont2 d d (fun x z => f (moved std x z)).
Proof.
  intros C r e Hr He. set (s := 1 + Rabs std). assert (Ps := Rabs_pos std). assert (Hs : 0 < s) by (unfold s; lra). destruct (C (r * s) e ltac:(now apply Rmult_lt_0_compat) He) as [dl [Hd K]]. exists (dl / s). assert (Hds : 0 < dl / s) by now apply Rdiv_lt_0_compat. split; [exact Hds|].
  intros p q u v Hp Hu Hpq Huv. apply K; [rewrite moved_length; lia|]. clear K C Hp Hu. revert u v Huv. induction Hpq as [|a b p q [A1 [A2 A3]] Hpq IH]; intros u v Huv; [constructor|]. destruct Huv as [|x y u v [B1 [B2 B3]] Huv]; cbn; [constructor|]. constructor; [|now apply IH].
  assert (Q : forall c t, Rabs c <= r -> Rabs t <= r -> Rabs (c + std * t) <= r * s). { intros c t Hc Ht. eapply Rle_trans; [apply Rabs_triang|]. rewrite Rabs_mult. unfold s. assert (Rabs std * Rabs t <= Rabs std * r) by (apply Rmult_le_compat_l; lra). lra. }
  repeat split; [now apply Q|now apply Q|]. replace (a + std * x - (b + std * y)) with ((a - b) + std * (x - y)) by ring. eapply Rle_lt_trans; [apply Rabs_triang|]. rewrite Rabs_mult. assert (Rabs std * Rabs (x - y) <= Rabs std * (dl / s)) by (apply Rmult_le_compat_l; lra).
  apply (Rlt_le_trans _ (dl / s + Rabs std * (dl / s))); [lra|]. right. unfold s. field. unfold s in Hs. lra.
Qed.
(** ---- integrals over all vectors ---- *)
Lemma cube_sides d n : sides (cube d n).
Proof. unfold cube. assert (H := pos_INR n). induction d as [|d IH]; constructor; [cbn; lra|exact IH]. Qed.
Lemma cube_length d n : length (cube d n) = d.
Proof. apply repeat_length. Qed.
Lemma cube_within d m n : (m <= n)%nat -> within (cube d m) (cube d n).
Proof. intro H. apply le_INR in H. unfold cube. induction d as [|d IH]; constructor; [cbn; lra|exact IH]. Qed.
Lemma cube_good d n f : cont d f -> good (cube d n) f.
Proof. intro C. apply good_cont; [apply cube_sides|now rewrite cube_length]. Qed.
Lemma whole_ext d f g : (forall v, length v = d -> f v = g v) -> whole_int d f = whole_int d g.
Proof. intro H. unfold whole_int. f_equal. apply Lim_seq_ext. intro n. apply box_ext. intros v Hv. apply H. now rewrite Hv, cube_length. Qed.
Lemma whole_is d f (L : R) : is_lim_seq (fun n => box_int (cube d n) f) L -> whole_int d f = L.
Proof. intro H. unfold whole_int. now rewrite (is_lim_seq_unique _ _ H). Qed.
Lemma whole_lim d f : ex_finite_lim_seq (fun n => box_int (cube d n) f) -> is_lim_seq (fun n => box_int (cube d n) f) (whole_int d f).
Proof. intros [L H]. now rewrite (whole_is d f L H). Qed.
Lemma cube_step d f F m n : cont d f -> cont d F -> (forall v, length v = d -> Rabs (f v) <= F v) -> (m <= n)%nat ->
  Rabs (box_int (cube d n) f - box_int (cube d m) f) <= box_int (cube d n) F - box_int (cube d m) F.
Proof. intros Cf CF H L. apply nested; [now apply cube_within|apply cube_sides| | |]; rewrite cube_length; assumption. Qed.
Lemma cube_incr d F : cont d F -> (forall v, length v = d -> 0 <= F v) -> forall m n, (m <= n)%nat -> box_int (cube d m) F <= box_int (cube d n) F.
Proof. intros C H m n L. assert (K := cube_step d F F m n C C ltac:(intros v Hv; rewrite Rabs_right; [lra|apply Rle_ge; now apply H]) L). assert (P := Rabs_pos (box_int (cube d n) F - box_int (cube d m) F)). lra. Qed.
Lemma cube_below d F : cont d F -> (forall v, length v = d -> 0 <= F v) -> ex_finite_lim_seq (fun n => box_int (cube d n) F) -> forall m, box_int (cube d m) F <= whole_int d F.
Proof.
  intros C H E m. apply (is_lim_seq_le_loc (fun _ => box_int (cube d m) F) (fun n => box_int (cube d n) F) (box_int (cube d m) F) (whole_int d F)); [|apply is_lim_seq_const|now apply whole_lim].
  exists m. intros n L. now apply cube_incr.
Qed.
Lemma dominated d f F : cont d f -> cont d F -> (forall v, length v = d -> Rabs (f v) <= F v) -> ex_finite_lim_seq (fun n => box_int (cube d n) F) ->
  ex_finite_lim_seq (fun n => box_int (cube d n) f) /\ forall m, Rabs (whole_int d f - box_int (cube d m) f) <= whole_int d F - box_int (cube d m) F.
Proof.
  intros Cf CF H E. assert (PF : forall v, length v = d -> 0 <= F v) by (intros v Hv; eapply Rle_trans; [apply Rabs_pos|now apply H]).
  assert (X : ex_finite_lim_seq (fun n => box_int (cube d n) f)).
  { apply ex_lim_seq_cauchy_corr. intros [e He]. cbn. assert (W := whole_lim d F E). apply is_lim_seq_spec in W. destruct (W (mkposreal (e / 2) ltac:(lra))) as [N HN]. cbn in HN. exists N.
    assert (Q : forall p q, (N <= p)%nat -> (p <= q)%nat -> Rabs (box_int (cube d q) f - box_int (cube d p) f) < e).
    { intros p q Hp Hq. eapply Rle_lt_trans; [apply (cube_step d f F p q Cf CF H Hq)|]. assert (A := HN p Hp). assert (B := HN q ltac:(lia)). apply Rabs_def2 in A, B. lra. }
    intros p q Hp Hq. destruct (le_ge_dec p q) as [L|L]; [rewrite Rabs_minus_sym|]; apply Q; auto. }
  split; [exact X|]. intro m. assert (W1 := whole_lim d f X). assert (W2 := whole_lim d F E).
  assert (L1 : is_lim_seq (fun n => Rabs (box_int (cube d n) f - box_int (cube d m) f)) (Rabs (whole_int d f - box_int (cube d m) f))).
  { apply (is_lim_seq_abs _ (whole_int d f - box_int (cube d m) f)). apply is_lim_seq_minus'; [exact W1|apply is_lim_seq_const]. }
  assert (L2 : is_lim_seq (fun n => box_int (cube d n) F - box_int (cube d m) F) (whole_int d F - box_int (cube d m) F)) by (apply is_lim_seq_minus'; [exact W2|apply is_lim_seq_const]).
  refine (is_lim_seq_le_loc _ _ _ _ _ L1 L2). exists m. intros n L. now apply cube_step.
Qed.
Lemma whole_bound d f F : cont d f -> cont d F -> (forall v, length v = d -> Rabs (f v) <= F v) -> ex_finite_lim_seq (fun n => box_int (cube d n) F) -> Rabs (whole_int d f) <= whole_int d F.
Proof.
  intros Cf CF H E. destruct (dominated d f F Cf CF H E) as [X _]. refine (is_lim_seq_le (fun n => Rabs (box_int (cube d n) f)) (fun n => box_int (cube d n) F) (Rabs (whole_int d f)) (whole_int d F) _ _ (whole_lim d F E)).
  - intro n. assert (G1 := cube_good d n f Cf). assert (G2 := cube_good d n F CF). destruct (good_scal (-1) _ F G2) as [G3 E3]. apply Rabs_le. split.
    + replace (- box_int (cube d n) F) with (-1 * box_int (cube d n) F) by ring. rewrite <- E3. apply box_le; auto. intros v Hv. apply inside_length in Hv. rewrite cube_length in Hv. specialize (H v Hv). apply Rabs_le_between in H. lra.
    + apply box_le; auto. intros v Hv. apply inside_length in Hv. rewrite cube_length in Hv. specialize (H v Hv). apply Rabs_le_between in H. lra.
  - apply (is_lim_seq_abs _ (whole_int d f)). now apply whole_lim.
Qed.
Lemma box_pos A : forall f, Forall (fun ab => fst ab < snd ab) A -> cont (length A) f -> (forall v, length v = length A -> 0 < f v) -> 0 < box_int A f.
Proof.
  induction A as [|[a b] A IH]; intros f S C H; [now apply H|]. inversion S as [|? ? S1 S2]; subst. cbn [box_int]. apply RInt_gt_0; [exact S1| |].
  - intros t _. apply IH; [exact S2|now apply cont_tail|]. intros v Hv. apply H. cbn. now rewrite Hv.
  - intros t _. apply (good_cont ((a, b) :: A) f); [|exact C]. clear -S. induction S; constructor; [lra|assumption].
Qed.
(** ---- normal draws ---- *)
Lemma bell_cons t z : bell (t :: z) = npdf t * bell z.
Proof. cbn. unfold npdf. do 4 f_equal. ring. Qed.
Lemma bell_pos z : 0 < bell z.
Proof. induction z as [|t z IH]; [cbn; lra|]. rewrite bell_cons. apply Rmult_lt_0_compat; [apply npdf_pos|exact IH]. Qed.
Lemma cont_hd d : cont (S d) (hd 0).
Proof. intros r e _ He. exists e. split; [exact He|]. intros u v _ H. destruct H as [|a b u v [_ [_ H]] _]; cbn; [unfold Rminus; now rewrite Rplus_opp_r, Rabs_R0|exact H]. Qed.
Lemma cont_tl d f : cont d f -> cont (S d) (fun v => f (tl v)).
Proof. intros C r e Hr He. destruct (C r e Hr He) as [dl [Hd K]]. exists dl. split; [exact Hd|]. intros u v Hu Huv. destruct Huv as [|a b u v _ Huv]; [discriminate|]. cbn. apply K; [now injection Hu|exact Huv]. Qed.
Lemma cont_bell d : cont d bell.
Proof.
  induction d as [|d IH].
  - apply (cont_ext 0 (fun _ => 1)); [intros [|? ?] H; [reflexivity|discriminate]|apply cont_const].
  - apply (cont_ext (S d) (fun v => npdf (hd 0 v) * bell (tl v))); [intros [|t v] H; [discriminate|]; now rewrite bell_cons|]. apply (cont_mult (S d) (fun v => npdf (hd 0 v)) (fun v => bell (tl v))); [apply (cont_comp (S d) npdf); [apply npdf_continuous|apply cont_hd]|now apply cont_tl].
Qed.
Lemma npdf_int a b : RInt npdf a b = ndtr b - ndtr a.
Proof.
  apply is_RInt_unique. apply (is_RInt_derive (V := R_CompleteNormedModule) ndtr npdf); [intros x _; apply ndtr_derive|intros x _; apply continuity_pt_filterlim; apply npdf_continuous].
Qed.
Lemma bell_cube d n : box_int (cube d n) bell = (ndtr (INR n) - ndtr (- INR n)) ^ d.
Proof.
  induction d as [|d IH]; [reflexivity|]. unfold cube. cbn [repeat box_int pow]. fold (cube d n). rewrite (RInt_ext _ (fun t => (ndtr (INR n) - ndtr (- INR n)) ^ d * npdf t)).
  - rewrite (rint_scal _ npdf) by (intro t; apply continuity_pt_filterlim; apply npdf_continuous). rewrite npdf_int. match goal with |- @eq _ ?p ?q => change (@eq R p q) end. ring.
  - intros t _. rewrite (box_ext _ _ (fun v => npdf t * bell v)) by (intros v _; apply bell_cons). rewrite (proj2 (good_scal (npdf t) (cube d n) bell (cube_good d n bell (cont_bell d)))), IH. match goal with |- @eq _ ?p ?q => change (@eq R p q) end. ring.
Qed.
Lemma bell_lim d : is_lim_seq (fun n => box_int (cube d n) bell) 1.
Proof.
  apply (is_lim_seq_ext (fun n => (ndtr (INR n) - ndtr (- INR n)) ^ d)); [intro n; symmetry; apply bell_cube|].
  assert (L : is_lim_seq (fun n => ndtr (INR n) - ndtr (- INR n)) 1).
  { replace (Finite 1) with (Finite (1 - 0)) by (f_equal; ring). apply is_lim_seq_minus'.
    - apply (is_lim_comp_seq ndtr INR p_infty 1 ndtr_lim_p); [exists 0%nat; discriminate|apply is_lim_seq_INR].
    - apply (is_lim_comp_seq ndtr (fun n => - INR n) m_infty 0 ndtr_lim_m); [exists 0%nat; discriminate|]. apply (is_lim_seq_opp INR p_infty). apply is_lim_seq_INR. }
  induction d as [|d IH]; [apply is_lim_seq_const|]. cbn [pow]. replace (Finite 1) with (Finite (1 * 1)) by (f_equal; ring). now apply is_lim_seq_mult'.
Qed.
Lemma bell_whole d : whole_int d bell = 1.
Proof. apply whole_is, bell_lim. Qed.
Lemma bell_ex d : ex_finite_lim_seq (fun n => box_int (cube d n) bell).
Proof. exists 1. apply bell_lim. Qed.
Lemma scal_lim d c F : cont d F -> is_lim_seq (fun n => box_int (cube d n) F) (whole_int d F) -> is_lim_seq (fun n => box_int (cube d n) (fun v => c * F v)) (c * whole_int d F).
Proof.
  intros C H. apply (is_lim_seq_ext (fun n => c * box_int (cube d n) F)); [intro n; symmetry; apply good_scal; now apply cube_good|]. now apply (is_lim_seq_scal_l _ c (whole_int d F)).
Qed.
