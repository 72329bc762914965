(** Positive semidefinite matrices: rank-one decomposition, Schur products, entrywise exponential, Schur complement. *)
From Verif Require Import S_Psd P_RBase.
From Coq Require Import Lra.
From Coquelicot Require Import Coquelicot.
Local Open Scope R_scope.

Lemma sumn_ext n f g : (forall i, (i < n)%nat -> f i = g i) -> sumn n f = sumn n g.
Proof. induction n as [|n IH]; intro H; simpl; auto. rewrite IH, H; auto. Qed.
Lemma sumn_plus n f g : sumn n (fun i => f i + g i) = sumn n f + sumn n g.
Proof. induction n as [|n IH]; simpl; [lra|]. rewrite IH. lra. Qed.
Lemma sumn_minus n f g : sumn n (fun i => f i - g i) = sumn n f - sumn n g.
Proof. induction n as [|n IH]; simpl; [lra|]. rewrite IH. lra. Qed.
Lemma sumn_scale n c f : sumn n (fun i => c * f i) = c * sumn n f.
Proof. induction n as [|n IH]; simpl; [lra|]. rewrite IH. lra. Qed.
Lemma sumn_scale_r n c f : sumn n (fun i => f i * c) = sumn n f * c.
Proof. induction n as [|n IH]; simpl; [lra|]. rewrite IH. lra. Qed.
Lemma sumn_0 n : sumn n (fun _ => 0) = 0.
Proof. induction n as [|n IH]; simpl; [lra|]. rewrite IH. lra. Qed.
Lemma sumn_zero n f : (forall i, (i < n)%nat -> f i = 0) -> sumn n f = 0.
Proof. intro H. rewrite (sumn_ext n f (fun _ => 0)); auto. apply sumn_0. Qed.
Lemma sumn_swap n m f : sumn n (fun i => sumn m (fun j => f i j)) = sumn m (fun j => sumn n (fun i => f i j)).
Proof.
  induction n as [|n IH]; simpl; [now rewrite sumn_0|]. rewrite IH, <- sumn_plus. reflexivity.
Qed.
Lemma sumn_nonneg n f : (forall i, (i < n)%nat -> 0 <= f i) -> 0 <= sumn n f.
Proof.
  induction n as [|n IH]; simpl; intro H; [lra|]. assert (0 <= sumn n f) by auto. assert (0 <= f n) by auto. lra.
Qed.
Lemma sumn_le n f g : (forall i, (i < n)%nat -> f i <= g i) -> sumn n f <= sumn n g.
Proof. intro H. assert (K := sumn_nonneg n (fun i => g i - f i)). rewrite sumn_minus in K. assert (0 <= sumn n g - sumn n f); [|lra]. apply K. intros i Hi. specialize (H i Hi). lra. Qed.
Lemma sumn_prod n m f g : sumn n f * sumn m g = sumn n (fun i => sumn m (fun j => f i * g j)).
Proof. rewrite <- sumn_scale_r. apply sumn_ext. intros i _. now rewrite sumn_scale. Qed.
Lemma sumn_first n f : sumn (S n) f = f 0%nat + sumn n (fun i => f (S i)).
Proof. induction n as [|n IH]; [simpl; lra|]. change (sumn (S (S n)) f) with (sumn (S n) f + f (S n)). rewrite IH. simpl. lra. Qed.
Lemma sumn_single n f k : (k < n)%nat -> (forall i, (i < n)%nat -> i <> k -> f i = 0) -> sumn n f = f k.
Proof.
  revert k. induction n as [|n IH]; intros k Hk H; [lia|]. simpl. destruct (Nat.eq_dec k n) as [->|Hn].
  - rewrite sumn_zero; [lra|]. intros i Hi. apply H; lia.
  - rewrite (IH k); [|lia|intros; apply H; lia]. rewrite (H n); [lra|lia|lia].
Qed.

Lemma qform_ext n A B c d : (forall i j, (i < n)%nat -> (j < n)%nat -> A i j = B i j) -> (forall i, (i < n)%nat -> c i = d i) ->
  qform n A c = qform n B d.
Proof.
  intros H K. unfold qform. apply sumn_ext. intros i Hi. apply sumn_ext. intros j Hj. now rewrite H, !K.
Qed.
Lemma psd_ext n A B : (forall i j, (i < n)%nat -> (j < n)%nat -> A i j = B i j) -> psd n A -> psd n B.
Proof. intros H P c. rewrite <- (qform_ext n A B c c H) by auto. apply P. Qed.
Lemma qform_plus n A B c : qform n (fun i j => A i j + B i j) c = qform n A c + qform n B c.
Proof.
  unfold qform. rewrite <- sumn_plus. apply sumn_ext. intros i _. rewrite <- sumn_plus. apply sumn_ext. intros j _. lra.
Qed.
Lemma psd_plus n A B : psd n A -> psd n B -> psd n (fun i j => A i j + B i j).
Proof. intros PA PB c. rewrite qform_plus. specialize (PA c). specialize (PB c). lra. Qed.
Lemma qform_scale n A a c : qform n (fun i j => a * A i j) c = a * qform n A c.
Proof.
  unfold qform. rewrite <- sumn_scale. apply sumn_ext. intros i _. rewrite <- sumn_scale. apply sumn_ext. intros j _. lra.
Qed.
Lemma psd_scale n A a : 0 <= a -> psd n A -> psd n (fun i j => a * A i j).
Proof. intros Ha PA c. rewrite qform_scale. specialize (PA c). nra. Qed.
Lemma qform_rank1 n v c : qform n (fun i j => v i * v j) c = (sumn n (fun i => c i * v i)) ^ 2.
Proof.
  unfold qform. replace (sumn n (fun i => c i * v i) ^ 2) with (sumn n (fun i => c i * v i) * sumn n (fun i => c i * v i)) by ring.
  rewrite sumn_prod. apply sumn_ext. intros i _. apply sumn_ext. intros j _. ring.
Qed.
Lemma psd_rank1 n v : psd n (fun i j => v i * v j).
Proof. intro c. rewrite qform_rank1. apply pow2_ge_0. Qed.
(** congruence by a diagonal matrix *)
Lemma psd_diag_congr n A v : psd n A -> psd n (fun i j => v i * v j * A i j).
Proof.
  intros PA c. specialize (PA (fun i => c i * v i)). unfold qform in *.
  erewrite sumn_ext; [exact PA|]. intros i _. apply sumn_ext. intros j _. simpl. ring.
Qed.
Lemma psd_sum n m A : (forall k, (k < m)%nat -> psd n (A k)) -> psd n (fun i j => sumn m (fun k => A k i j)).
Proof.
  induction m as [|m IH]; intro H.
  - intro c. unfold qform. rewrite sumn_zero; [lra|]. intros i _. apply sumn_zero. intros; simpl; lra.
  - simpl. apply psd_plus; auto.
Qed.
(** a non-negative diagonal *)
Lemma psd_diag n d : (forall i, (i < n)%nat -> 0 <= d i) -> psd n (fun i j => if Nat.eqb i j then d i else 0).
Proof.
  intros H c. unfold qform. apply sumn_nonneg. intros i Hi. rewrite (sumn_single n _ i Hi).
  - rewrite Nat.eqb_refl. specialize (H i Hi). nra.
  - intros j _ Hj. rewrite (proj2 (Nat.eqb_neq i j)); [lra|auto].
Qed.
(** restriction to a sub-family of points, possibly with repetitions: PSD is kept by re-indexing *)
Lemma psd_reindex n m A (s : nat -> nat) : (forall i, (i < m)%nat -> (s i < n)%nat) -> psd n A -> psd m (fun i j => A (s i) (s j)).
Proof.
  intros Hs PA c. set (d := fun k => sumn m (fun i => if Nat.eqb (s i) k then c i else 0)). specialize (PA d).
  replace (qform m (fun i j => A (s i) (s j)) c) with (qform n A d); [exact PA|]. unfold qform.
  transitivity (sumn n (fun k => sumn n (fun l => sumn m (fun i => sumn m (fun j =>
    (if Nat.eqb (s i) k then c i else 0) * (if Nat.eqb (s j) l then c j else 0) * A k l))))).
  { apply sumn_ext. intros k _. apply sumn_ext. intros l _. unfold d. rewrite sumn_prod, <- sumn_scale_r. apply sumn_ext. intros i _.
    rewrite <- sumn_scale_r. reflexivity. }
  transitivity (sumn m (fun i => sumn m (fun j => sumn n (fun k => sumn n (fun l =>
    (if Nat.eqb (s i) k then c i else 0) * (if Nat.eqb (s j) l then c j else 0) * A k l))))).
  { rewrite (sumn_ext n _ (fun k => sumn m (fun i => sumn m (fun j => sumn n (fun l =>
      (if Nat.eqb (s i) k then c i else 0) * (if Nat.eqb (s j) l then c j else 0) * A k l))))).
    - rewrite sumn_swap. apply sumn_ext. intros i _. rewrite sumn_swap. reflexivity.
    - intros k _. rewrite sumn_swap. apply sumn_ext. intros i _. rewrite sumn_swap. reflexivity. }
  apply sumn_ext. intros i Hi. apply sumn_ext. intros j Hj.
  rewrite (sumn_single n _ (s i) (Hs i Hi)).
  - rewrite (sumn_single n _ (s j) (Hs j Hj)); [now rewrite !Nat.eqb_refl|].
    intros l _ Hl. rewrite (proj2 (Nat.eqb_neq (s j) l)); [lra|auto].
  - intros k _ Hk. apply sumn_zero. intros l _. rewrite (proj2 (Nat.eqb_neq (s i) k)); [lra|auto].
Qed.

(** ---- rank-one decomposition ---- *)
Lemma qform_2 n A i j x y : (i < n)%nat -> (j < n)%nat -> i <> j ->
  qform n A (fun k => if Nat.eqb k i then x else if Nat.eqb k j then y else 0) =
  x * x * A i i + x * y * A i j + y * x * A j i + y * y * A j j.
Proof.
  intros Hi Hj Hij. set (c := fun k => if Nat.eqb k i then x else if Nat.eqb k j then y else 0).
  assert (Ci : c i = x) by (unfold c; now rewrite Nat.eqb_refl).
  assert (Cj : c j = y) by (unfold c; rewrite (proj2 (Nat.eqb_neq j i)) by auto; now rewrite Nat.eqb_refl).
  assert (C0 : forall k, k <> i -> k <> j -> c k = 0) by (intros k H1 H2; unfold c; rewrite (proj2 (Nat.eqb_neq k i)) by auto; now rewrite (proj2 (Nat.eqb_neq k j)) by auto).
  assert (S2 : forall f, (forall k, k <> i -> k <> j -> f k = 0) -> sumn n f = f i + f j).
  { intros f Hf.
    assert (E : sumn n f = sumn n (fun k => if Nat.eqb k i then f k else 0) + sumn n (fun k => if Nat.eqb k j then f k else 0)).
    { rewrite <- sumn_plus. apply sumn_ext. intros k _. destruct (Nat.eqb_spec k i), (Nat.eqb_spec k j); try congruence; try lra. rewrite Hf; auto; lra. }
    rewrite E, (sumn_single n _ i Hi), (sumn_single n _ j Hj), !Nat.eqb_refl; auto;
      intros k _ Hk; now rewrite (proj2 (Nat.eqb_neq _ _)) by auto. }
  unfold qform. rewrite S2.
  - rewrite !S2; [rewrite Ci, Cj; ring|..]; intros k H1 H2; rewrite (C0 k) by auto; ring.
  - intros k H1 H2. apply sumn_zero. intros l _. rewrite (C0 k) by auto. ring.
Qed.
Lemma psd_zero_row n A j : symmetric (S n) A -> psd (S n) A -> A n n = 0 -> (j < n)%nat -> A n j = 0.
Proof.
  intros HS HP H0 Hj. destruct (Req_dec (A n j) 0) as [E|E]; auto. exfalso.
  assert (Hs : A j n = A n j) by (apply HS; lia).
  assert (K : forall x y, 0 <= x * x * A n n + x * y * A n j + y * x * A j n + y * y * A j j).
  { intros x y. rewrite <- (qform_2 (S n) A n j x y) by lia. apply HP. }
  specialize (K (- (A j j + 1) / (2 * A n j)) 1). rewrite H0, Hs in K.
  assert (Hx : - (A j j + 1) / (2 * A n j) * 1 * A n j + 1 * (- (A j j + 1) / (2 * A n j)) * A n j = - (A j j + 1)) by (field; auto). lra.
Qed.
Lemma psd_head n A : psd (S n) A -> 0 <= A n n.
Proof.
  intro HP. specialize (HP (fun k => if Nat.eqb k n then 1 else 0)). unfold qform in HP. rewrite (sumn_single (S n) _ n) in HP by (try lia; intros i Hi Hn; apply sumn_zero; intros; rewrite (proj2 (Nat.eqb_neq i n)) by auto; ring).
  rewrite (sumn_single (S n) _ n) in HP; [rewrite Nat.eqb_refl in HP; lra|lia|]. intros i Hi Hn. rewrite (proj2 (Nat.eqb_neq i n)) by auto. ring.
Qed.
(** the Schur complement of the last point *)
Lemma psd_schur_complement n A : symmetric (S n) A -> psd (S n) A -> 0 < A n n -> psd n (fun i j => A i j - A i n * A n j / A n n).
Proof.
  intros HS HP Hpos c. set (s := sumn n (fun i => c i * A i n)).
  set (d := fun k => if Nat.eqb k n then - s / A n n else c k). specialize (HP d).
  replace (qform n (fun i j => A i j - A i n * A n j / A n n) c) with (qform (S n) A d); [exact HP|].
  assert (Dn : d n = - s / A n n) by (unfold d; now rewrite Nat.eqb_refl).
  assert (Di : forall i, (i < n)%nat -> d i = c i) by (intros i Hi; unfold d; now rewrite (proj2 (Nat.eqb_neq i n)) by lia).
  unfold qform. cbn [sumn].
  rewrite (sumn_ext n (fun i => sumn n (fun j => d i * d j * A i j) + d i * d n * A i n) (fun i => sumn n (fun j => c i * c j * A i j) + c i * A i n * d n)).
  2:{ intros i Hi. rewrite (Di i Hi). f_equal; [|ring]. apply sumn_ext. intros j Hj. now rewrite (Di j Hj). }
  rewrite sumn_plus, sumn_scale_r. fold s.
  rewrite (sumn_ext n (fun j => d n * d j * A n j) (fun j => d n * (c j * A j n))).
  2:{ intros j Hj. rewrite (Di j Hj), (HS n j) by lia. ring. }
  rewrite sumn_scale. fold s.
  assert (E : sumn n (fun i => sumn n (fun j => c i * c j * (A i j - A i n * A n j / A n n))) =
          sumn n (fun i => sumn n (fun j => c i * c j * A i j)) - s * s / A n n).
  { rewrite (sumn_ext n _ (fun i => sumn n (fun j => c i * c j * A i j) - c i * A i n * (s / A n n))).
    - rewrite sumn_minus, sumn_scale_r. fold s. field. lra.
    - intros i Hi. rewrite (sumn_ext n _ (fun j => c i * c j * A i j - (c i * A i n / A n n) * (c j * A j n))).
      + rewrite sumn_minus, sumn_scale. fold s. field. lra.
      + intros j Hj. rewrite (HS n j) by lia. field. lra. }
  rewrite E, Dn. field. lra.
Qed.
Lemma psd_decompose n : forall A, symmetric n A -> psd n A ->
  exists m (v : nat -> nat -> R), forall i j, (i < n)%nat -> (j < n)%nat -> A i j = sumn m (fun k => v k i * v k j).
Proof.
  induction n as [|n IH]; intros A HS HP.
  - exists 0%nat, (fun _ _ => 0). intros; lia.
  - assert (H0 := psd_head n A HP). destruct (Rle_lt_or_eq_dec _ _ H0) as [Hpos|Hz].
    + destruct (IH (fun i j => A i j - A i n * A n j / A n n)) as [m [v Hv]].
      * intros i j Hi Hj. rewrite (HS i j), (HS i n), (HS n j) by lia. unfold Rdiv. ring.
      * now apply psd_schur_complement.
      * set (w := fun i => A i n / sqrt (A n n)).
        exists (S m), (fun k i => if Nat.eqb k m then w i else if Nat.eqb i n then 0 else v k i).
        intros i j Hi Hj. cbn [sumn]. rewrite Nat.eqb_refl.
        assert (Q : sqrt (A n n) * sqrt (A n n) = A n n) by (apply sqrt_sqrt; lra).
        assert (Qp : 0 < sqrt (A n n)) by (now apply sqrt_lt_R0).
        assert (W : forall i j, (i < S n)%nat -> (j < S n)%nat -> w i * w j = A i n * A n j / A n n).
        { intros a b Ha Hb. unfold w. rewrite <- Q at 3. rewrite (HS n b) by lia. field. lra. }
        rewrite W by auto. destruct (Nat.eq_dec i n) as [->|Hin].
        { rewrite sumn_zero; [field; lra|]. intros k Hk. rewrite (proj2 (Nat.eqb_neq k m)) by lia. rewrite Nat.eqb_refl. ring. }
        destruct (Nat.eq_dec j n) as [->|Hjn].
        { rewrite sumn_zero; [field; lra|]. intros k Hk. rewrite (proj2 (Nat.eqb_neq k m)) by lia. rewrite Nat.eqb_refl. ring. }
        rewrite (sumn_ext m _ (fun k => v k i * v k j)); [rewrite <- Hv by lia; ring|].
        intros k Hk. rewrite (proj2 (Nat.eqb_neq k m)) by lia. rewrite (proj2 (Nat.eqb_neq i n)), (proj2 (Nat.eqb_neq j n)) by auto. reflexivity.
    + symmetry in Hz. destruct (IH A) as [m [v Hv]].
      * intros i j Hi Hj. apply HS; lia.
      * intro c. specialize (HP (fun k => if Nat.eqb k n then 0 else c k)). unfold qform in *. cbn [sumn] in HP. rewrite Nat.eqb_refl in HP.
        rewrite (sumn_ext n (fun i => sumn n (fun j => c i * c j * A i j)) (fun i => sumn n (fun j => (if Nat.eqb i n then 0 else c i) * (if Nat.eqb j n then 0 else c j) * A i j) + (if Nat.eqb i n then 0 else c i) * 0 * A i n)).
        -- rewrite (sumn_zero n (fun j => 0 * (if Nat.eqb j n then 0 else c j) * A n j)) in HP by (intros; ring). lra.
        -- intros i Hi. rewrite (proj2 (Nat.eqb_neq i n)) by lia. rewrite Rmult_0_r, Rmult_0_l, Rplus_0_r. apply sumn_ext. intros j Hj. now rewrite (proj2 (Nat.eqb_neq j n)) by lia.
      * exists m, (fun k i => if Nat.eqb i n then 0 else v k i). intros i j Hi Hj.
        destruct (Nat.eq_dec i n) as [->|Hin]; [|destruct (Nat.eq_dec j n) as [->|Hjn]].
        -- rewrite sumn_zero by (intros; rewrite Nat.eqb_refl; ring). destruct (Nat.eq_dec j n) as [->|Hjn]; [auto|]. apply psd_zero_row with (n := n); auto. lia.
        -- rewrite sumn_zero by (intros; rewrite Nat.eqb_refl; ring). rewrite (HS i n) by lia. apply psd_zero_row with (n := n); auto. lia.
        -- rewrite Hv by lia. apply sumn_ext. intros k _. now rewrite (proj2 (Nat.eqb_neq i n)), (proj2 (Nat.eqb_neq j n)) by auto.
Qed.
(** Schur product theorem *)
Lemma psd_schur_product n A B : symmetric n A -> psd n A -> psd n B -> psd n (fun i j => A i j * B i j).
Proof.
  intros HS HA HB. destruct (psd_decompose n A HS HA) as [m [v Hv]].
  apply (psd_ext n (fun i j => sumn m (fun k => v k i * v k j * B i j))).
  - intros i j Hi Hj. rewrite Hv by auto. now rewrite sumn_scale_r.
  - apply psd_sum. intros k _. now apply psd_diag_congr.
Qed.
Lemma psd_pow n A k : symmetric n A -> psd n A -> psd n (fun i j => A i j ^ k).
Proof.
  intros HS HA. induction k as [|k IH]; simpl.
  - apply (psd_ext n (fun i j => (fun _ => 1) i * (fun _ => 1) j)); [intros; ring|apply psd_rank1].
  - apply (psd_schur_product n A (fun i j => A i j ^ k)); auto.
Qed.
(** limits *)
Lemma is_lim_seq_sumn n (f : nat -> nat -> R) (l : nat -> R) : (forall i, (i < n)%nat -> is_lim_seq (fun k => f k i) (l i)) ->
  is_lim_seq (fun k => sumn n (f k)) (sumn n l).
Proof.
  induction n as [|n IH]; intro H; simpl; [apply is_lim_seq_const|].
  apply is_lim_seq_plus'; [apply IH; auto|apply H; auto].
Qed.
Lemma psd_limit n (A : nat -> nat -> nat -> R) (B : nat -> nat -> R) : (forall k, psd n (A k)) ->
  (forall i j, (i < n)%nat -> (j < n)%nat -> is_lim_seq (fun k => A k i j) (B i j)) -> psd n B.
Proof.
  intros HA HL c. assert (L : is_lim_seq (fun k => qform n (A k) c) (qform n B c)).
  { unfold qform. apply is_lim_seq_sumn. intros i Hi. apply is_lim_seq_sumn. intros j Hj.
    apply (is_lim_seq_scal_l (fun k => A k i j) (c i * c j) (B i j)). auto. }
  assert (K := is_lim_seq_le (fun _ => 0) (fun k => qform n (A k) c) 0 (qform n B c) (fun k => HA k c) (is_lim_seq_const 0) L). exact K.
Qed.
Lemma exp_lim x : is_lim_seq (fun k => sumn k (fun r => / INR (fact r) * x ^ r)) (exp x).
Proof.
  assert (H := is_exp_Reals x). unfold is_pseries in H. unfold is_series in H.
  apply (is_lim_seq_incr_1 (fun k => sumn k (fun r => / INR (fact r) * x ^ r))).
  apply (is_lim_seq_ext (fun n => sum_n (fun k => scal (pow_n x k) (/ INR (fact k))) n)); [|exact H].
  intro n. induction n as [|n IH].
  - rewrite sum_O. change (1 * / INR 1 = 0 + / INR 1 * 1). ring.
  - rewrite sum_Sn, IH. change (sumn (S n) (fun r => / INR (fact r) * x ^ r) + pow_n x (S n) * / INR (fact (S n)) =
      sumn (S n) (fun r => / INR (fact r) * x ^ r) + / INR (fact (S n)) * x ^ S n). rewrite pow_n_pow. ring.
Qed.
Lemma psd_exp n A : symmetric n A -> psd n A -> psd n (fun i j => exp (A i j)).
Proof.
  intros HS HA. apply (psd_limit n (fun k i j => sumn k (fun r => / INR (fact r) * A i j ^ r))).
  - intro k. apply (psd_sum n k (fun r i j => / INR (fact r) * A i j ^ r)). intros r _. apply psd_scale; [|now apply psd_pow].
    left. apply Rinv_0_lt_compat. apply INR_fact_lt_0.
  - intros i j _ _. apply exp_lim.
Qed.
