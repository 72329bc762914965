(** Lemmas about gradients of kernels and their priors. *)
From Verif Require Import P_Base P_RBase P_Util S_Psd P_Psd P_Kernel.
From Coquelicot Require Import Coquelicot.
From Coq Require Import Lra Lia.
From Verif Require Import M_RBase M_Util M_Kernel S_Psd S_Kernel.
Local Open Scope R_scope.

Lemma set_nth_length {A} (l : list A) i x : length (set_nth i x l) = length l.
Proof. revert i. induction l as [|y l IH]; intros [|i]; simpl; auto. Qed.
Lemma set_nth_app_l {A} (a b : list A) i x : (i < length a)%nat -> set_nth i x (a ++ b) = set_nth i x a ++ b.
Proof. revert i. induction a as [|y a IH]; intros [|i] H; simpl in *; try lia; auto. rewrite IH; auto. lia. Qed.
Lemma set_nth_app_r {A} (a b : list A) i x : (length a <= i)%nat -> set_nth i x (a ++ b) = a ++ set_nth (i - length a) x b.
Proof. revert i. induction a as [|y a IH]; intros [|i] H; simpl in *; try lia; auto. rewrite IH; auto. lia. Qed.
Lemma kset_ok k th : length th = length (kparam k) -> exists k', kset k th = Ok k' /\ kparam k' = th.
Proof.
  revert th. induction k as [s l e|s sb c|s l p|s l e z|a IHa b IHb|a IHa b IHb]; intros th H; cbn [kset kparam] in *.
  1,4: destruct th as [|x [|y [|? ?]]]; try discriminate; cbn; eexists; split; reflexivity.
  1,2: destruct th as [|x [|y [|w [|? ?]]]]; try discriminate; cbn; eexists; split; reflexivity.
  all: rewrite app_length in H;
    destruct (IHa (firstn (length (kparam a)) th)) as [a' [Ea Pa]]; [rewrite firstn_length; lia|];
    destruct (IHb (skipn (length (kparam a)) th)) as [b' [Eb Pb]]; [rewrite skipn_length; lia|];
    rewrite Ea, Eb; cbn [bind]; eexists; split; [reflexivity|]; cbn [kparam]; rewrite Pa, Pb; apply firstn_skipn.
Qed.
Lemma kset_id k : kset k (kparam k) = Ok k.
Proof.
  induction k as [s l e|s sb c|s l p|s l e z|a IHa b IHb|a IHa b IHb]; cbn [kset kparam]; try reflexivity.
  all: rewrite firstn_app, firstn_all, Nat.sub_diag, skipn_app, skipn_all, Nat.sub_diag; cbn [firstn skipn app]; rewrite app_nil_r, IHa, IHb; reflexivity.
Qed.
(** a change of one parameter of a combination *)
Lemma kset_add_l a b i t : (i < length (kparam a))%nat -> exists a', kset a (set_nth i t (kparam a)) = Ok a' /\
  kset (KAdd a b) (set_nth i t (kparam (KAdd a b))) = Ok (KAdd a' b) /\ kset (KMul a b) (set_nth i t (kparam (KMul a b))) = Ok (KMul a' b).
Proof.
  intro H. destruct (kset_ok a (set_nth i t (kparam a)) (set_nth_length _ _ _)) as [a' [E _]]. exists a'. split; auto.
  cbn [kset kparam]. rewrite set_nth_app_l by auto.
  rewrite firstn_app, skipn_app, set_nth_length, Nat.sub_diag. cbn [firstn skipn].
  rewrite firstn_all2 by (rewrite set_nth_length; lia). rewrite skipn_all2 by (rewrite set_nth_length; lia). cbn [app].
  rewrite app_nil_r, E, kset_id. auto.
Qed.
Lemma kset_add_r a b i t : (length (kparam a) <= i)%nat -> exists b', kset b (set_nth (i - length (kparam a)) t (kparam b)) = Ok b' /\
  kset (KAdd a b) (set_nth i t (kparam (KAdd a b))) = Ok (KAdd a b') /\ kset (KMul a b) (set_nth i t (kparam (KMul a b))) = Ok (KMul a b').
Proof.
  intro H. destruct (kset_ok b (set_nth (i - length (kparam a)) t (kparam b)) (set_nth_length _ _ _)) as [b' [E _]]. exists b'. split; auto.
  cbn [kset kparam]. rewrite set_nth_app_r by auto.
  rewrite firstn_app, skipn_app, Nat.sub_diag, firstn_all, skipn_all. cbn [firstn skipn app].
  rewrite app_nil_r, E, kset_id. auto.
Qed.
Lemma at_param_l a b i u v t : (i < length (kparam a))%nat ->
  at_param (KAdd a b) i u v t = at_param a i u v t + kcall b u v /\ at_param (KMul a b) i u v t = at_param a i u v t * kcall b u v.
Proof. intro H. unfold at_param. destruct (kset_add_l a b i t H) as [a' [E [E1 E2]]]. now rewrite E, E1, E2. Qed.
Lemma at_param_r a b i u v t : (length (kparam a) <= i)%nat ->
  at_param (KAdd a b) i u v t = kcall a u v + at_param b (i - length (kparam a)) u v t /\
  at_param (KMul a b) i u v t = kcall a u v * at_param b (i - length (kparam a)) u v t.
Proof. intro H. unfold at_param. destruct (kset_add_r a b i t H) as [a' [E [E1 E2]]]. now rewrite E, E1, E2. Qed.

Lemma kgrad_length k u v g : kgrad k u v = Ok g -> length g = length (kparam k).
Proof.
  revert g. induction k as [s l e|s sb c|s l p|s l e z|a IHa b IHb|a IHa b IHb]; intros g H; cbn [kgrad kparam] in *; try (injection H as <-; reflexivity); try discriminate.
  all: destruct (kgrad a u v) as [ga|]; [|discriminate]; destruct (kgrad b u v) as [gb|]; [|discriminate]; cbn [bind] in H; injection H as <-;
    rewrite !app_length, ?map_length, (IHa ga), (IHb gb); auto.
Qed.
Lemma right_length k : length (right_parameter k) = length (kparam k).
Proof. induction k; cbn [right_parameter kparam]; rewrite ?app_length; auto. Qed.

(** ---- derivatives of the basic kernels ---- *)
Lemma rbf_ds s l u v : is_derive (fun t => rbf_call t l u v) s (nth 0 (rbf_grad s l u v) 0).
Proof. unfold rbf_call, rbf_grad. cbn [nth]. auto_derive; auto. ring. Qed.
(** the length-scale derivative is half of what the code computes *)
Lemma rbf_dl s l u v : l <> 0 -> is_derive (fun t => rbf_call s t u v) l (nth 1 (rbf_grad s l u v) 0 / 2).
Proof.
  intro H. unfold rbf_call, rbf_grad. cbn [nth]. auto_derive; [nra|]. unfold Rdiv. set (E := exp _).
  field. auto.
Qed.
Lemma lin_ds s sb c u v : is_derive (fun t => lin_call t sb c u v) s (nth 0 (lin_grad s sb c u v) 0).
Proof.
  unfold lin_call, lin_grad. cbn [nth].
  replace (rsum (map (fun ab : R * R => 2 * s * (fst ab - c) * (snd ab - c)) (combine u v)))
    with (2 * s * rsum (map (fun ab : R * R => (fst ab - c) * (snd ab - c)) (combine u v))).
  - auto_derive; auto. ring.
  - unfold rsum. induction (combine u v) as [|x w IH]; simpl; [ring|]. rewrite <- IH. ring.
Qed.
Lemma lin_dsb s sb c u v : is_derive (fun t => lin_call s t c u v) sb (nth 1 (lin_grad s sb c u v) 0).
Proof. unfold lin_call, lin_grad. cbn [nth]. auto_derive; auto. ring. Qed.
Lemma lin_dc s sb c u v : is_derive (fun t => lin_call s sb t u v) c (nth 2 (lin_grad s sb c u v) 0).
Proof.
  unfold lin_call, lin_grad. cbn [nth].
  assert (D : is_derive (fun t => rsum (map (fun ab : R * R => (fst ab - t) * (snd ab - t)) (combine u v))) c
                (rsum (map (fun ab : R * R => 2 * c - fst ab - snd ab) (combine u v)))).
  { unfold rsum. induction (combine u v) as [|x w IH]; simpl; [apply @is_derive_const|].
    apply @is_derive_plus; [|exact IH]. auto_derive; auto. ring. }
  apply (is_derive_ext (fun t => plus (sb ^ 2) (s ^ 2 * rsum (map (fun ab : R * R => (fst ab - t) * (snd ab - t)) (combine u v))))); [reflexivity|].
  replace (s * s * rsum (map (fun ab : R * R => 2 * c - fst ab - snd ab) (combine u v)))
    with (plus zero (s ^ 2 * rsum (map (fun ab : R * R => 2 * c - fst ab - snd ab) (combine u v)))) by (unfold plus, zero; simpl; ring).
  apply @is_derive_plus; [apply @is_derive_const|]. now apply is_derive_scal.
Qed.
Lemma per_ds s l p u v : is_derive (fun t => per_call t l p u v) s (nth 0 (per_grad s l p u v) 0).
Proof. unfold per_call, per_grad. cbn [nth]. auto_derive; auto. ring. Qed.
Lemma per_dl s l p u v : l <> 0 -> is_derive (fun t => per_call s t p u v) l
  (4 * s * s * exp (- 2 * sin (PI * l1dist u v / p) * sin (PI * l1dist u v / p) / (l * l)) * (sin (PI * l1dist u v / p)) ^ 2 / (l * l * l)).
Proof.
  intro H. unfold per_call. cbv zeta. set (q := sin _). auto_derive; [nra|]. unfold Rdiv. set (E := exp _). field. auto.
Qed.
Lemma per_dp s l p u v : l <> 0 -> p <> 0 -> is_derive (fun t => per_call s l t u v) p
  (2 * sin (PI * l1dist u v / p) * nth 2 (per_grad s l p u v) 0).
Proof.
  intros H H2. unfold per_call, per_grad. cbn [nth]. cbv zeta. set (q := l1dist u v). auto_derive; [auto|]. unfold Rdiv.
  set (E := exp _). field. auto.
Qed.

Lemma nth_map_scale (c : R) l i : nth i (map (fun g => g * c) l) 0 = nth i l 0 * c.
Proof. revert i. induction l as [|x l IH]; intros [|i]; simpl; auto; ring. Qed.
Lemma kgrad_right d k u v g i : valid d k -> kgrad k u v = Ok g -> nth_error (right_parameter k) i = Some true ->
  is_derive (at_param k i u v) (nth i (kparam k) 0) (nth i g 0).
Proof.
  revert g i. induction k as [s l e|s sb c|s l p|s l e z|a IHa b IHb|a IHa b IHb]; intros g i Hv Hg Hr.
  - injection Hg as <-. destruct i as [|[|[|i]]]; try discriminate.
    apply (is_derive_ext (fun t => rbf_call t l u v)); [reflexivity|]. apply rbf_ds.
  - injection Hg as <-. destruct i as [|[|[|[|i]]]]; try discriminate.
    + apply (is_derive_ext (fun t => lin_call t sb c u v)); [reflexivity|]. apply lin_ds.
    + apply (is_derive_ext (fun t => lin_call s t c u v)); [reflexivity|]. apply lin_dsb.
    + apply (is_derive_ext (fun t => lin_call s sb t u v)); [reflexivity|]. apply lin_dc.
  - injection Hg as <-. destruct i as [|[|[|[|i]]]]; try discriminate.
    apply (is_derive_ext (fun t => per_call t l p u v)); [reflexivity|]. apply per_ds.
  - discriminate.
  - cbn [valid kgrad right_parameter kparam] in *.
    destruct (kgrad a u v) as [ga|] eqn:Ea; [|discriminate]; destruct (kgrad b u v) as [gb|] eqn:Eb; [|discriminate]. cbn [bind] in Hg. injection Hg as <-.
    assert (La := kgrad_length a u v ga Ea). assert (Lr := right_length a).
    destruct (Nat.lt_ge_cases i (length (kparam a))) as [Hi|Hi].
    + rewrite nth_error_app1 in Hr by lia. rewrite !app_nth1 by lia.
      apply (is_derive_ext (fun t => plus (at_param a i u v t) (kcall b u v))); [intro t; symmetry; now apply at_param_l|].
      replace (nth i ga 0) with (plus (nth i ga 0) zero) by (unfold plus, zero; simpl; ring).
      apply @is_derive_plus; [apply IHa; tauto|apply @is_derive_const].
    + rewrite nth_error_app2 in Hr by lia. rewrite Lr in Hr. rewrite !app_nth2 by lia. rewrite La.
      apply (is_derive_ext (fun t => plus (kcall a u v) (at_param b (i - length (kparam a)) u v t))); [intro t; symmetry; now apply at_param_r|].
      replace (nth (i - length (kparam a)) gb 0) with (plus zero (nth (i - length (kparam a)) gb 0)) by (unfold plus, zero; simpl; ring).
      apply @is_derive_plus; [apply @is_derive_const|apply IHb; tauto].
  - cbn [valid kgrad right_parameter kparam] in *.
    destruct (kgrad a u v) as [ga|] eqn:Ea; [|discriminate]; destruct (kgrad b u v) as [gb|] eqn:Eb; [|discriminate]. cbn [bind] in Hg. injection Hg as <-.
    assert (La := kgrad_length a u v ga Ea). assert (Lr := right_length a).
    destruct (Nat.lt_ge_cases i (length (kparam a))) as [Hi|Hi].
    + rewrite nth_error_app1 in Hr by lia. rewrite !app_nth1 by (rewrite ?map_length; lia). rewrite nth_map_scale.
      apply (is_derive_ext (fun t => scal (kcall b u v) (at_param a i u v t))); [intro t; destruct (at_param_l a b i u v t Hi) as [_ ->]; unfold scal; simpl; unfold mult; simpl; ring|].
      replace (nth i ga 0 * kcall b u v) with (scal (kcall b u v) (nth i ga 0)) by (unfold scal; simpl; unfold mult; simpl; ring).
      apply @is_derive_scal. apply IHa; tauto.
    + rewrite nth_error_app2 in Hr by lia. rewrite Lr in Hr. rewrite !app_nth2 by (rewrite ?map_length; lia). rewrite map_length, La, nth_map_scale.
      apply (is_derive_ext (fun t => scal (kcall a u v) (at_param b (i - length (kparam a)) u v t))); [intro t; destruct (at_param_r a b i u v t Hi) as [_ ->]; reflexivity|].
      replace (nth (i - length (kparam a)) gb 0 * kcall a u v) with (scal (kcall a u v) (nth (i - length (kparam a)) gb 0)) by (unfold scal; simpl; unfold mult; simpl; ring).
      apply @is_derive_scal. apply IHb; tauto.
Qed.
Lemma kgrad_total k u v : no_zeroed k -> exists g, kgrad k u v = Ok g /\ length g = length (kparam k).
Proof.
  intro H. assert (E : exists g, kgrad k u v = Ok g).
  { induction k as [s l e|s sb c|s l p|s l e z|a IHa b IHb|a IHa b IHb]; cbn [kgrad no_zeroed] in *; eauto; try tauto.
    all: destruct IHa as [ga ->]; [tauto|]; destruct IHb as [gb ->]; [tauto|]; cbn [bind]; eauto. }
  destruct E as [g E]. exists g. split; auto. eapply kgrad_length; eauto.
Qed.

(** ---- gradient matrices of sums ---- *)
Lemma kcov_grad_spec k X Y : additive k -> exists G, kcov_grad k X Y = Ok (GTuple G) /\ length G = length (kparam k) /\
  forall q i j g, (q < length G)%nat -> (i < length X)%nat -> (j < length Y)%nat -> kgrad k (pt X i) (pt Y j) = Ok g ->
    entry (nth q G nil) i j = nth q g 0.
Proof.
  induction k as [s l e|s sb c|s l p|s l e z|a IHa b IHb|a IHa b IHb]; cbn [additive]; intro H; try tauto.
  - eexists; split; [reflexivity|]. split; [reflexivity|]. intros q i j g Hq Hi Hj E. injection E as <-.
    destruct q as [|[|q]]; [| |simpl in Hq; lia]; cbn [nth rbf_cov_grad]; now rewrite entry_pairwise.
  - eexists; split; [reflexivity|]. split; [reflexivity|]. intros q i j g Hq Hi Hj E. injection E as <-.
    destruct q as [|[|[|q]]]; [| | |simpl in Hq; lia]; cbn [nth]; rewrite entry_pairwise by auto; auto.
    unfold lin_grad. cbn [nth]. unfold rsum. induction (combine (pt X i) (pt Y j)) as [|x w IH]; simpl; [ring|]. rewrite <- IH. ring.
  - destruct H as [Ha Hb]. destruct (IHa Ha) as [Ga [Ea [La Ha']]]. destruct (IHb Hb) as [Gb [Eb [Lb Hb']]]. clear IHa IHb.
    cbn [kcov_grad]. rewrite Ea, Eb. cbn [bind gadd]. eexists; split; [reflexivity|]. split; [cbn [kparam]; rewrite !app_length; lia|].
    intros q i j g Hq Hi Hj E. cbn [kgrad] in E.
    destruct (kgrad a _ _) as [ga|] eqn:Fa; [|discriminate]; destruct (kgrad b _ _) as [gb|] eqn:Fb; [|discriminate]. cbn [bind] in E. injection E as <-.
    assert (Lga := kgrad_length _ _ _ _ Fa). rewrite app_length in Hq.
    destruct (Nat.lt_ge_cases q (length Ga)) as [K|K].
    + rewrite !app_nth1 by lia. apply Ha'; auto.
    + rewrite !app_nth2 by lia. replace (q - length ga)%nat with (q - length Ga)%nat by lia. apply Hb'; auto. lia.
Qed.

(** ---- priors ---- *)
Definition lp (g : R -> R) (x k th : R) : R := match log_pdf_gamma g x k th with Some v => v | None => 0 end.
Lemma lp_some g x k th : 0 <= x -> log_pdf_gamma g x k th = Some (lp g x k th).
Proof.
  intro H. unfold lp. destruct (log_pdf_gamma g x k th) eqn:E; auto. apply (log_pdf_none g x k th) in E. lra.
Qed.
Fixpoint kpv (g : R -> R) (k : kern) : R :=
  match k with
  | RBF s l _ | ZRBF s l _ _ => lp g s 10 (1/10) + lp g l 3 (4/10)
  | Lin s sb c => lp g s 4 (25/100) + lp g sb 3 (2/10) + lp g c 2 (5/10)
  | Per s l p => lp g s 4 (25/100) + lp g l 3 (2/10) + lp g p 2 (5/10)
  | KAdd a b | KMul a b => kpv g a + kpv g b
  end.
Lemma kprior_some g k : (forall x, In x (kparam k) -> 0 <= x) -> kprior g k = Some (kpv g k).
Proof.
  induction k as [s l e|s sb c|s l p|s l e z|a IHa b IHb|a IHa b IHb]; cbn [kparam kprior kpv]; intro H.
  1,2,3,4: rewrite !lp_some by (apply H; simpl; tauto); reflexivity.
  all: rewrite IHa, IHb by (intros x Hx; apply H, in_or_app; tauto); reflexivity.
Qed.
Definition kpv_at g k i t : R := match kset k (set_nth i t (kparam k)) with Ok k' => kpv g k' | Raise _ => 0 end.
Lemma kpv_derive g k i : (i < length (kparam k))%nat -> 1 / 1000000 < nth i (kparam k) 0 ->
  is_derive (kpv_at g k i) (nth i (kparam k) 0) (nth i (kprior_grad k) 0).
Proof.
  assert (HL : forall k, length (kprior_grad k) = length (kparam k)) by (clear; intro k; induction k; cbn [kprior_grad kparam]; rewrite ?app_length; auto).
  assert (P1 : forall (f : R -> R) x d c, is_derive f x d -> is_derive (fun t => f t + c) x d).
  { intros f x d c Hf. replace d with (plus d zero) by (unfold plus, zero; simpl; ring). apply @is_derive_plus; auto. apply @is_derive_const. }
  assert (P2 : forall (f : R -> R) x d c, is_derive f x d -> is_derive (fun t => c + f t) x d).
  { intros f x d c Hf. replace d with (plus zero d) by (unfold plus, zero; simpl; ring). apply @is_derive_plus; auto. apply @is_derive_const. }
  assert (L : forall x a b, b <> 0 -> 1 / 1000000 < x -> is_derive (fun t => lp g t a b) x (d_log_pdf_gamma x a b)) by (intros; now apply log_pdf_derive).
  assert (COMB : forall a b i, (i < length (kparam a) + length (kparam b))%nat ->
    (forall i, (i < length (kparam a))%nat -> 1 / 1000000 < nth i (kparam a) 0 -> is_derive (kpv_at g a i) (nth i (kparam a) 0) (nth i (kprior_grad a) 0)) ->
    (forall i, (i < length (kparam b))%nat -> 1 / 1000000 < nth i (kparam b) 0 -> is_derive (kpv_at g b i) (nth i (kparam b) 0) (nth i (kprior_grad b) 0)) ->
    1 / 1000000 < nth i (kparam a ++ kparam b) 0 ->
    is_derive (kpv_at g (KAdd a b) i) (nth i (kparam a ++ kparam b) 0) (nth i (kprior_grad a ++ kprior_grad b) 0) /\
    is_derive (kpv_at g (KMul a b) i) (nth i (kparam a ++ kparam b) 0) (nth i (kprior_grad a ++ kprior_grad b) 0)).
  { intros a b j Hj Ia Ib Hc. destruct (Nat.lt_ge_cases j (length (kparam a))) as [K|K].
    - rewrite app_nth1 in * by auto. rewrite (app_nth1 (kprior_grad a)) by (rewrite HL; auto).
      split; (eapply is_derive_ext; [|apply (P1 (kpv_at g a j) _ _ (kpv g b)), Ia; auto]); intro t; cbv beta; unfold kpv_at; destruct (kset_add_l a b j t K) as [a' [E [E1 E2]]]; rewrite E, ?E1, ?E2; reflexivity.
    - rewrite app_nth2 in * by lia. rewrite (app_nth2 (kprior_grad a)) by (rewrite HL; lia). rewrite HL.
      split; (eapply is_derive_ext; [|apply (P2 (kpv_at g b (j - length (kparam a))) _ _ (kpv g a)), Ib; auto; lia]); intro t; cbv beta; unfold kpv_at; destruct (kset_add_r a b j t K) as [a' [E [E1 E2]]]; rewrite E, ?E1, ?E2; reflexivity. }
  revert i. induction k as [s l e|s sb c|s l p|s l e z|a IHa b IHb|a IHa b IHb]; intros i Hi H; cbn [kparam kprior_grad] in *.
  - destruct i as [|[|i]]; [| |simpl in Hi; lia]; cbn [nth] in *.
    + apply (is_derive_ext (fun t => lp g t 10 (1/10) + lp g l 3 (4/10))); [reflexivity|]. apply P1, L; lra.
    + apply (is_derive_ext (fun t => lp g s 10 (1/10) + lp g t 3 (4/10))); [reflexivity|]. apply P2, L; lra.
  - destruct i as [|[|[|i]]]; [| | |simpl in Hi; lia]; cbn [nth] in *.
    + apply (is_derive_ext (fun t => lp g t 4 (25/100) + lp g sb 3 (2/10) + lp g c 2 (5/10))); [reflexivity|]. apply P1, P1, L; lra.
    + apply (is_derive_ext (fun t => lp g s 4 (25/100) + lp g t 3 (2/10) + lp g c 2 (5/10))); [reflexivity|]. apply P1, P2, L; lra.
    + apply (is_derive_ext (fun t => lp g s 4 (25/100) + lp g sb 3 (2/10) + lp g t 2 (5/10))); [reflexivity|]. apply P2, L; lra.
  - destruct i as [|[|[|i]]]; [| | |simpl in Hi; lia]; cbn [nth] in *.
    + apply (is_derive_ext (fun t => lp g t 4 (25/100) + lp g l 3 (2/10) + lp g p 2 (5/10))); [reflexivity|]. apply P1, P1, L; lra.
    + apply (is_derive_ext (fun t => lp g s 4 (25/100) + lp g t 3 (2/10) + lp g p 2 (5/10))); [reflexivity|]. apply P1, P2, L; lra.
    + apply (is_derive_ext (fun t => lp g s 4 (25/100) + lp g l 3 (2/10) + lp g t 2 (5/10))); [reflexivity|]. apply P2, L; lra.
  - destruct i as [|[|i]]; [| |simpl in Hi; lia]; cbn [nth] in *.
    + apply (is_derive_ext (fun t => lp g t 10 (1/10) + lp g l 3 (4/10))); [reflexivity|]. apply P1, L; lra.
    + apply (is_derive_ext (fun t => lp g s 10 (1/10) + lp g t 3 (4/10))); [reflexivity|]. apply P2, L; lra.
  - rewrite app_length in Hi. apply COMB; auto.
  - rewrite app_length in Hi. apply COMB; auto.
Qed.
Lemma In_set_nth {A} (l : list A) i x y : In y (set_nth i x l) -> y = x \/ In y l.
Proof. revert i. induction l as [|z l IH]; intros [|i] H; simpl in *; try tauto; [intuition|]. destruct H as [->|H]; auto. apply IH in H. tauto. Qed.
Lemma kprior_derive g k i : (forall x, In x (kparam k) -> 1 / 1000000 < x) -> (i < length (kparam k))%nat ->
  is_derive (prior_at g k i) (nth i (kparam k) 0) (nth i (kprior_grad k) 0).
Proof.
  intros H Hi. set (x0 := nth i (kparam k) 0). assert (Hx : 1 / 1000000 < x0) by (apply H, nth_In; auto).
  assert (K : forall t : R, 0 < t -> kpv_at g k i t = prior_at g k i t).
  { intros t Ht. unfold kpv_at, prior_at. destruct (kset_ok k (set_nth i t (kparam k)) (set_nth_length _ _ _)) as [k' [E P]]. rewrite E.
    rewrite kprior_some; auto. intros x Hin. rewrite P in Hin. apply In_set_nth in Hin as [-> |Hin]; [lra|]. apply H in Hin. lra. }
  apply (is_derive_ext_loc (kpv_at g k i)); [|now apply kpv_derive].
  exists (mkposreal x0 ltac:(lra)). intros t Ht. unfold ball in Ht. simpl in Ht. unfold AbsRing_ball in Ht. unfold abs, minus, plus, opp in Ht. simpl in Ht. apply Rabs_def2 in Ht.
  apply K. lra.
Qed.
