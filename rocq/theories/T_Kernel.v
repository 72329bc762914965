(** Properties C31-C37 and C76: kernels. *)
From Verif Require Import M_RBase M_Util M_Kernel S_Psd S_Kernel P_RBase P_Psd P_Kernel P_KernelGrad P_KernelProd P_KernelEx.
From Coq Require Import Lra Lia.
From Coquelicot Require Import Coquelicot.
From Verif Require Import M_RBase M_Util M_Kernel S_Psd S_Kernel.
Local Open Scope R_scope.

(** a kernel used in the examples *)
Definition ex_kern : kern := KAdd (RBF 1 2 (1/10)) (KMul (Lin 1 1 0) (Per 1 2 3)).
Definition ex_pts : list point := two_pts.
Lemma ex_pts_dim : dim 1 ex_pts.
Proof. intros x H. simpl in H. intuition; subst; reflexivity. Qed.
Lemma ex_pts_nonempty : ex_pts <> nil.
Proof. unfold ex_pts, two_pts. congruence. Qed.
Lemma ex_kern_valid : valid 1 ex_kern.
Proof. unfold ex_kern. cbn [valid]. repeat split; try lra; apply Rgt_not_eq; lra. Qed.

(** C31 *)
Theorem C31_symmetric : forall k u v, length u = length v -> kcall k u v = kcall k v u.
Proof. exact kcall_sym. Qed.
Print Assumptions C31_symmetric.
(** the covariance matrix of two data sets is the transpose of the one with the data sets exchanged *)
Theorem C31_cov_transpose : forall k d X Y, X <> nil -> Y <> nil -> dim d X -> dim d Y ->
  no_zeroed k \/ (length X <> 1%nat /\ length Y <> 1%nat) ->
  exists M M', kcov k X Y = Ok M /\ kcov k Y X = Ok M' /\
  forall i j, (i < length X)%nat -> (j < length Y)%nat -> entry M i j = entry M' j i.
Proof. exact kcov_transpose. Qed.
Print Assumptions C31_cov_transpose.
Example C31_ex : kcall ex_kern (cons 0 nil) (cons 1 nil) = kcall ex_kern (cons 1 nil) (cons 0 nil).
Proof. now apply C31_symmetric. Qed.
Example C31_cov_ex : exists M M', kcov ex_kern ex_pts ex_pts = Ok M /\ kcov ex_kern ex_pts ex_pts = Ok M' /\
  forall i j, (i < 2)%nat -> (j < 2)%nat -> entry M i j = entry M' j i.
Proof. apply (C31_cov_transpose ex_kern 1 ex_pts ex_pts); try apply ex_pts_nonempty; try apply ex_pts_dim. left. simpl. auto. Qed.

(** C32 *)
Theorem C32_cov_psd : forall k d X, X <> nil -> dim d X -> valid d k -> periodic_1d d k -> no_zeroed k \/ (2 <= length X)%nat ->
  exists M, kcov k X X = Ok M /\ shape (length X) (length X) M /\ symmetric (length X) (entry M) /\ psd (length X) (entry M).
Proof. exact kcov_psd. Qed.
Print Assumptions C32_cov_psd.
Theorem C32_call_psd : forall k d X, dim d X -> valid d k -> periodic_1d d k -> no_zeroed k ->
  psd (length X) (fun i j => kcall k (pt X i) (pt X j)).
Proof. exact kcall_psd. Qed.
Print Assumptions C32_call_psd.
(** the zeroed kernel evaluated point by point is not positive semidefinite *)
Theorem C32_zeroed_call_refuted : forall s l n z, 1 < s * s -> ~ psd 1 (fun i j => kcall (ZRBF s l n (Some z)) (pt (cons z nil) i) (pt (cons z nil) j)).
Proof. exact zeroed_call_not_psd. Qed.
Print Assumptions C32_zeroed_call_refuted.
(** ... and neither is its covariance matrix of a data set that consists of the zero point *)
Theorem C32_zeroed_single_refuted : forall s l n z, s <> 0 -> 0 < n ->
  exists M, kcov (ZRBF s l n (Some z)) (cons z nil) (cons z nil) = Ok M /\ ~ psd 1 (entry M).
Proof. exact zeroed_single_not_psd. Qed.
Print Assumptions C32_zeroed_single_refuted.
Example C32_ex : exists M, kcov ex_kern ex_pts ex_pts = Ok M /\ psd 2 (entry M).
Proof.
  destruct (C32_cov_psd ex_kern 1 ex_pts) as [M [E [_ [_ P]]]]; [apply ex_pts_nonempty|apply ex_pts_dim|apply ex_kern_valid|simpl; auto|right; simpl; lia|].
  exists M. split; assumption.
Qed.
Example C32_zeroed_ex : exists M, kcov (ZRBF 2 1 (1/10) None) ex_pts ex_pts = Ok M /\ psd 2 (entry M).
Proof.
  destruct (C32_cov_psd (ZRBF 2 1 (1/10) None) 1 ex_pts) as [M [E [_ [_ P]]]];
    [apply ex_pts_nonempty|apply ex_pts_dim|cbn [valid]; repeat split; try lra; apply Rgt_not_eq; lra|simpl; auto|right; simpl; lia|].
  exists M. split; assumption.
Qed.

(** C33 *)
Theorem C33_periodic_psd_refuted : exists k X M, X <> nil /\ dim 2 X /\ valid 2 k /\ kcov k X X = Ok M /\ ~ psd (length X) (entry M).
Proof. exact periodic_not_psd. Qed.
Print Assumptions C33_periodic_psd_refuted.
(** in one dimension it is *)
Theorem C33_periodic_1d_psd : forall s l p X, X <> nil -> dim 1 X -> l <> 0 -> p <> 0 ->
  exists M, kcov (Per s l p) X X = Ok M /\ psd (length X) (entry M).
Proof. exact periodic_1d_cov_psd. Qed.
Print Assumptions C33_periodic_1d_psd.
Example C33_ex : exists M, kcov (Per 1 2 3) ex_pts ex_pts = Ok M /\ psd 2 (entry M).
Proof. apply C33_periodic_1d_psd; [apply ex_pts_nonempty|apply ex_pts_dim| |]; apply Rgt_not_eq; lra. Qed.

(** C34 *)
Theorem C34_entries_partial : forall k X Y, X <> nil -> no_zeroed k -> exists M, kcov k X Y = Ok M /\ shape (length X) (length Y) M /\
  forall i j, (i < length X)%nat -> (j < length Y)%nat ->
    (i <> j \/ length X <> length Y \/ (length (pt X 0) = length (pt Y 0) /\ pt X 0 <> pt Y 0) -> entry M i j = kcall k (pt X i) (pt Y j)) /\
    (X = Y -> i = j -> entry M i j = noisy k (pt X i) (pt X i)).
Proof. exact kcov_entries. Qed.
Print Assumptions C34_entries_partial.
Theorem C34_zeroed_entries : forall s l n z X Y, (2 <= length X)%nat -> (2 <= length Y)%nat ->
  exists M, kcov (ZRBF s l n (Some z)) X Y = Ok M /\
  forall i j, (i < length X)%nat -> (j < length Y)%nat -> i <> j ->
    entry M i j = rbf_call s l (pt X i) (pt Y j) - rbf_call s l (pt X i) z * rbf_call s l z (pt Y j) / rbf_call s l z z.
Proof. exact zeroed_entries. Qed.
Print Assumptions C34_zeroed_entries.
(** noise is added although the points differ *)
Theorem C34_noise_refuted : exists k X Y M, no_zeroed k /\ kcov k X Y = Ok M /\ length X = length Y /\ pt X 1 <> pt Y 1 /\ entry M 1 1 <> kcall k (pt X 1) (pt Y 1).
Proof. exact noise_refuted. Qed.
Print Assumptions C34_noise_refuted.
(** the covariance of the zeroed kernel is not the kernel *)
Theorem C34_zeroed_refuted : exists k X Y M, kcov k X Y = Ok M /\ (2 <= length X)%nat /\ (2 <= length Y)%nat /\ entry M 0 1 <> kcall k (pt X 0) (pt Y 1).
Proof. exact zeroed_cov_refuted. Qed.
Print Assumptions C34_zeroed_refuted.
Example C34_ex : exists M, kcov ex_kern ex_pts ex_pts = Ok M /\ entry M 0 1 = kcall ex_kern (cons 0 nil) (cons 1 nil) /\ entry M 1 1 = noisy ex_kern (cons 1 nil) (cons 1 nil).
Proof.
  destruct (C34_entries_partial ex_kern ex_pts ex_pts) as [M [E [_ H]]]; [apply ex_pts_nonempty|simpl; auto|]. exists M. split; [exact E|]. split.
  - apply (H 0%nat 1%nat); simpl; try lia; auto.
  - apply (H 1%nat 1%nat); simpl; try lia; auto.
Qed.

(** C35 *)
Theorem C35_pinned : forall s l n z X Y i j, s <> 0 -> (2 <= length X)%nat -> (2 <= length Y)%nat -> (i < length X)%nat -> (j < length Y)%nat ->
  pt X i = z \/ pt Y j = z -> exists M, kcov (ZRBF s l n (Some z)) X Y = Ok M /\ (i <> j -> entry M i j = 0) /\ (entry M i j = 0 \/ entry M i j = n).
Proof. exact zeroed_pinned. Qed.
Print Assumptions C35_pinned.
Theorem C35_call_refuted : forall s l n z v, s <> 0 -> s * s <> 1 -> kcall (ZRBF s l n (Some z)) z v <> 0.
Proof. exact zeroed_call_nonzero. Qed.
Print Assumptions C35_call_refuted.
(** one query point: the noise of the zero point leaks *)
Theorem C35_single_refuted : forall s l n z, s <> 0 -> 0 < n -> exists M, kcov (ZRBF s l n (Some z)) (cons z nil) (cons z nil) = Ok M /\ entry M 0 0 < 0.
Proof. exact zeroed_single_negative. Qed.
Print Assumptions C35_single_refuted.
(** a kernel made without a zero point pins the origin *)
Theorem C35_default : forall s l n X Y i j, s <> 0 -> (2 <= length X)%nat -> (2 <= length Y)%nat -> (i < length X)%nat -> (j < length Y)%nat ->
  (forall q, (q < length X)%nat -> length (pt X q) = length (pt X 0)) -> (forall x, In x (pt X i) -> x = 0) ->
  exists M, kcov (ZRBF s l n None) X Y = Ok M /\ (i <> j -> entry M i j = 0) /\ (entry M i j = 0 \/ entry M i j = n).
Proof. exact zeroed_default. Qed.
Print Assumptions C35_default.
Example C35_default_ex : exists M, kcov (ZRBF 2 1 (1/10) None) (cons (cons 0 (cons 0 nil)) (cons (cons 1 (cons 5 nil)) nil)) (cons (cons 3 (cons 4 nil)) (cons (cons 1 (cons 5 nil)) nil)) = Ok M /\ entry M 0 1 = 0.
Proof.
  destruct (C35_default 2 1 (1/10) (cons (cons 0 (cons 0 nil)) (cons (cons 1 (cons 5 nil)) nil)) (cons (cons 3 (cons 4 nil)) (cons (cons 1 (cons 5 nil)) nil)) 0 1) as [M [E [H _]]]; try (simpl; lia); [apply Rgt_not_eq; lra|intros q Hq; destruct q as [|[|q]]; simpl in *; try reflexivity; lia|intros x [<-|[<-|[]]]; reflexivity|].
  exists M. split; [exact E|]. apply H. lia.
Qed.
Example C35_ex : exists M, kcov (ZRBF 2 1 (1/10) (Some (cons 0 nil))) ex_pts ex_pts = Ok M /\ entry M 0 1 = 0.
Proof.
  destruct (C35_pinned 2 1 (1/10) (cons 0 nil) ex_pts ex_pts 0 1) as [M [E [H _]]]; try (simpl; lia); [apply Rgt_not_eq; lra|now left|].
  exists M. split; [exact E|]. apply H. lia.
Qed.

(** C36 *)
Theorem C36_gradient_partial : forall d k u v g i, valid d k -> kgrad k u v = Ok g -> nth_error (right_parameter k) i = Some true ->
  is_derive (at_param k i u v) (nth i (kparam k) 0) (nth i g 0).
Proof. exact kgrad_right. Qed.
Print Assumptions C36_gradient_partial.
Theorem C36_gradient_total : forall k u v, no_zeroed k -> exists g, kgrad k u v = Ok g /\ length g = length (kparam k).
Proof. exact kgrad_total. Qed.
Print Assumptions C36_gradient_total.
(** the length-scale derivative of the RBF kernel is twice the true one *)
Theorem C36_rbf_length : forall s l n u v, l <> 0 -> is_derive (at_param (RBF s l n) 1 u v) l (nth 1 (rbf_grad s l u v) 0 / 2).
Proof. exact rbf_dl_half. Qed.
Print Assumptions C36_rbf_length.
Theorem C36_rbf_length_refuted : forall s l n u v g, s <> 0 -> l <> 0 -> length u = length v -> u <> v -> kgrad (RBF s l n) u v = Ok g ->
  ~ is_derive (at_param (RBF s l n) 1 u v) l (nth 1 g 0).
Proof. exact rbf_dl_wrong. Qed.
Print Assumptions C36_rbf_length_refuted.
Theorem C36_periodic_length_refuted : forall s l p u v g, s <> 0 -> 0 < l -> length u = length v -> u <> v -> kgrad (Per s l p) u v = Ok g ->
  ~ is_derive (at_param (Per s l p) 1 u v) l (nth 1 g 0).
Proof. exact per_dl_wrong. Qed.
Print Assumptions C36_periodic_length_refuted.
Theorem C36_periodic_period_refuted : forall s l p u v g, s <> 0 -> l <> 0 -> p <> 0 -> length u = length v -> u <> v ->
  cos (PI * l1dist u v / p) <> 0 -> sin (PI * l1dist u v / p) <> 1 / 2 -> kgrad (Per s l p) u v = Ok g ->
  ~ is_derive (at_param (Per s l p) 2 u v) p (nth 2 g 0).
Proof. exact per_dp_wrong. Qed.
Print Assumptions C36_periodic_period_refuted.
Theorem C36_zeroed_refuted : forall s l n z u v, kgrad (ZRBF s l n z) u v = Raise TypeError.
Proof. exact zeroed_grad_raises. Qed.
Print Assumptions C36_zeroed_refuted.
Theorem C36_periodic_matrix_refuted : exists k X Y G g, kcov_grad k X Y = Ok (GTuple G) /\ kgrad k (pt X 0) (pt Y 0) = Ok g /\
  X <> nil /\ Y <> nil /\ entry (nth 0 G nil) 0 0 <> nth 0 g 0.
Proof. exact per_cov_grad_wrong. Qed.
Print Assumptions C36_periodic_matrix_refuted.
(** the covariance is 0 for every sigma, the code's derivative is -2 *)
Theorem C36_zeroed_matrix_refuted : exists G, kcov_grad (ZRBF 1 1 0 (Some (cons 0 nil))) two_pts two_pts = Ok (GTuple G) /\ entry (nth 0 G nil) 0 0 = -2 /\
  forall t, t <> 0 -> exists M, kcov (ZRBF t 1 0 (Some (cons 0 nil))) two_pts two_pts = Ok M /\ entry M 0 0 = 0.
Proof. exact zeroed_cov_grad_wrong. Qed.
Print Assumptions C36_zeroed_matrix_refuted.
Example C36_ex : is_derive (at_param ex_kern 2 (cons 1 nil) (cons 2 nil)) 1
  (nth 0 (lin_grad 1 1 0 (cons 1 nil) (cons 2 nil)) 0 * kcall (Per 1 2 3) (cons 1 nil) (cons 2 nil)).
Proof.
  destruct (C36_gradient_total ex_kern (cons 1 nil) (cons 2 nil)) as [g [E _]]; [simpl; auto|].
  assert (K := C36_gradient_partial 1 ex_kern (cons 1 nil) (cons 2 nil) g 2 ex_kern_valid E eq_refl). injection E as <-. exact K.
Qed.
Example C36_period_ex : forall g, kgrad (Per 1 1 4) (cons 0 nil) (cons 1 nil) = Ok g -> ~ is_derive (at_param (Per 1 1 4) 2 (cons 0 nil) (cons 1 nil)) 4 (nth 2 g 0).
Proof.
  intros g E. assert (D : l1dist (cons 0 nil) (cons 1 nil) = 1) by (rewrite l1dist_1, Rabs_minus_sym, Rminus_0_r; apply Rabs_R1).
  assert (P : PI * l1dist (cons 0 nil) (cons 1 nil) / 4 = PI / 4) by (rewrite D; field).
  assert (S2 := sqrt_lt_R0 2 ltac:(lra)). assert (S3 := sqrt_sqrt 2 ltac:(lra)).
  apply (C36_periodic_period_refuted 1 1 4 (cons 0 nil) (cons 1 nil) g); auto; try (apply Rgt_not_eq; lra).
  - intro H. injection H. lra.
  - rewrite P, cos_PI4. apply Rgt_not_eq. apply Rdiv_lt_0_compat; lra.
  - rewrite P, sin_PI4. intro H. assert (1 / sqrt 2 * sqrt 2 = 1) by (field; lra). rewrite H in H0. nra.
Qed.

(** C37 *)
Theorem C37_sums : forall k X Y, additive k -> exists G, kcov_grad k X Y = Ok (GTuple G) /\ length G = length (kparam k) /\
  forall q i j g, (q < length G)%nat -> (i < length X)%nat -> (j < length Y)%nat -> kgrad k (pt X i) (pt Y j) = Ok g ->
    entry (nth q G nil) i j = nth q g 0.
Proof. exact kcov_grad_spec. Qed.
Print Assumptions C37_sums.
(** a product never returns enough matrices *)
Theorem C37_products_refuted : forall a b X Y G, kcov_grad (KMul a b) X Y = Ok G -> (length (mats G) < length (kparam (KMul a b)))%nat.
Proof. exact product_grad_short. Qed.
Print Assumptions C37_products_refuted.
(** what a product of sums with equally many parameters returns instead: for every position, the derivatives with respect to the
    parameters at this position of both factors, added up *)
Theorem C37_products_mixed : forall a b X Y, X <> nil -> additive a -> additive b -> length (kparam a) = length (kparam b) ->
  exists A B G, kcov a X Y = Ok A /\ kcov b X Y = Ok B /\ kcov_grad (KMul a b) X Y = Ok G /\ length (mats G) = length (kparam a) /\
    forall q i j ga gb, (q < length (kparam a))%nat -> (i < length X)%nat -> (j < length Y)%nat ->
      kgrad a (pt X i) (pt Y j) = Ok ga -> kgrad b (pt X i) (pt Y j) = Ok gb ->
      entry (nth q (mats G) nil) i j = nth q ga 0 * entry B i j + nth q gb 0 * entry A i j.
Proof. exact product_grad. Qed.
Print Assumptions C37_products_mixed.
Example C37_products_mixed_ex : exists G, kcov_grad (KMul (RBF 1 1 0) (RBF 2 1 0)) two_pts two_pts = Ok G /\ entry (nth 0 (mats G) nil) 0 0 = 12.
Proof.
  destruct (C37_products_mixed (RBF 1 1 0) (RBF 2 1 0) two_pts two_pts) as (A & B & G & EA & EB & EG & _ & K);
    [discriminate|exact I|exact I|reflexivity|]. exists G. split; [exact EG|].
  rewrite (K 0%nat 0%nat 0%nat _ _ ltac:(simpl; lia) ltac:(simpl; lia) ltac:(simpl; lia) eq_refl eq_refl).
  destruct (kcov_spec (RBF 1 1 0) two_pts two_pts) as (A' & EA' & _ & KA); [discriminate|left; exact I|].
  destruct (kcov_spec (RBF 2 1 0) two_pts two_pts) as (B' & EB' & _ & KB); [discriminate|left; exact I|].
  rewrite EA in EA'. injection EA' as <-. rewrite EB in EB'. injection EB' as <-.
  rewrite KA, KB by (simpl; lia). unfold kentry, rbf_grad, pt, two_pts. cbn [nth]. rewrite !rbf_call_self, sqdist_self.
  replace (- 0 / (2 * 1 * 1)) with 0 by field. rewrite exp_0. 
  destruct (_ && _)%bool; lra.
Qed.
Example C37_ex : exists G, kcov_grad (KAdd (RBF 1 1 0) (Lin 1 1 0)) ex_pts ex_pts = Ok (GTuple G) /\ length G = 5%nat.
Proof. destruct (C37_sums (KAdd (RBF 1 1 0) (Lin 1 1 0)) ex_pts ex_pts) as [G [E [L _]]]; [simpl; auto|]. exists G. split; auto. Qed.
Example C37_products_ex : exists G, kcov_grad (KMul (Lin 1 1 0) (Per 1 1 1)) ex_pts ex_pts = Ok G /\ length (mats G) = 3%nat.
Proof. eexists. split; [reflexivity|]. reflexivity. Qed.
Example C37_products_raise_ex : kcov_grad (KMul (Lin 1 1 0) (KAdd (Lin 1 1 0) (Lin 1 1 0))) ex_pts ex_pts = Raise ValueError.
Proof. reflexivity. Qed.

(** C76 *)
Theorem C76_prior_gradient : forall g k i, (forall x, In x (kparam k) -> 1 / 1000000 < x) -> (i < length (kparam k))%nat ->
  is_derive (prior_at g k i) (nth i (kparam k) 0) (nth i (kprior_grad k) 0).
Proof. exact kprior_derive. Qed.
Print Assumptions C76_prior_gradient.
Theorem C76_parameters : forall k th, length th = length (kparam k) -> exists k', kset k th = Ok k' /\ kparam k' = th /\ klen k' = length th.
Proof. exact kset_len. Qed.
Print Assumptions C76_parameters.
Theorem C76_prior_defined : forall g k, (kprior g k = None <-> exists x, In x (kparam k) /\ x < 0).
Proof. exact kprior_none. Qed.
Print Assumptions C76_prior_defined.
Example C76_ex : is_derive (prior_at (fun _ => 1) (KAdd (RBF 1 2 0) (Lin 1 1 1)) 1) 2 (- (3 / 2)).
Proof.
  assert (K := C76_prior_gradient (fun _ => 1) (KAdd (RBF 1 2 0) (Lin 1 1 1)) 1).
  replace (- (3 / 2)) with (nth 1 (kprior_grad (KAdd (RBF 1 2 0) (Lin 1 1 1))) 0).
  - apply K; [|simpl; lia]. simpl. intros x H. intuition; lra.
  - cbn [kprior_grad nth app]. unfold d_log_pdf_gamma. rewrite P_Util.gamma_clip_id; lra.
Qed.
Example C76_set_ex : exists k', kset ex_kern (cons 1 (cons 2 (cons 3 (cons 4 (cons 5 (cons 6 (cons 7 (cons 8 nil)))))))) = Ok k' /\ klen k' = 8%nat.
Proof. edestruct (C76_parameters ex_kern) as [k' [E [_ L]]]; [|exists k'; split; [exact E|exact L]]. reflexivity. Qed.
