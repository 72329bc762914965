(** Lemmas about the common vocabulary. *)
From Verif Require Import M_Base.
From Coq Require Import Permutation Sorted.

Lemma Qlt_bool_iff x y : Qlt_bool x y = true <-> (x < y)%Q.
Proof.
  unfold Qlt_bool. rewrite negb_true_iff. split.
  - intro H. apply Qnot_le_lt. intro L. apply Qle_bool_iff in L. congruence.
  - intro H. apply Bool.not_true_iff_false. intro L. apply Qle_bool_iff in L.
    exact (Qlt_not_le _ _ H L).
Qed.
Lemma Qlt_bool_false x y : Qlt_bool x y = false <-> (y <= x)%Q.
Proof.
  unfold Qlt_bool. rewrite negb_false_iff. apply Qle_bool_iff.
Qed.

Lemma mem_In x l : mem x l = true <-> In x l.
Proof.
  unfold mem. rewrite existsb_exists. split.
  - intros [y [H E]]. apply Nat.eqb_eq in E. subst. exact H.
  - intro H. exists x. split; [exact H | apply Nat.eqb_refl].
Qed.
Lemma mem_false x l : mem x l = false <-> ~ In x l.
Proof.
  rewrite <- mem_In. destruct (mem x l); split; congruence.
Qed.

Lemma enumerate_from_nth {A} (l : list A) s i x :
  In (i, x) (enumerate_from s l) <-> s <= i /\ nth_error l (i - s) = Some x.
Proof.
  revert s. induction l as [|y l IH]; intros s; simpl.
  - split; [tauto|]. intros [_ H]. destruct (i - s); discriminate.
  - rewrite IH. split.
    + intros [E|[Hs Hn]].
      * inversion E; subst. rewrite Nat.sub_diag. split; auto.
      * split; [lia|]. replace (i - s) with (S (i - S s)) by lia. exact Hn.
    + intros [Hs Hn]. destruct (Nat.eq_dec i s) as [->|Hne].
      * rewrite Nat.sub_diag in Hn. simpl in Hn. inversion Hn. left. reflexivity.
      * right. split; [lia|]. replace (i - s) with (S (i - S s)) in Hn by lia. exact Hn.
Qed.
Lemma enumerate_nth {A} (l : list A) i x :
  In (i, x) (enumerate l) <-> nth_error l i = Some x.
Proof.
  unfold enumerate. rewrite enumerate_from_nth, Nat.sub_0_r. split; [tauto|]. intro; split; [lia|assumption].
Qed.
Lemma enumerate_from_fst {A} (l : list A) s : map fst (enumerate_from s l) = seq s (length l).
Proof. revert s; induction l as [|x l IH]; intro s; simpl; [reflexivity|]. now rewrite IH. Qed.
Lemma enumerate_from_length {A} (l : list A) s : length (enumerate_from s l) = length l.
Proof. revert s; induction l as [|x l IH]; intro s; simpl; [reflexivity|]. now rewrite IH. Qed.

Lemma mapM_ok {A B} (f : A -> result B) l ys :
  mapM f l = Ok ys <-> Forall2 (fun x y => f x = Ok y) l ys.
Proof.
  revert ys. induction l as [|x l IH]; intros ys; simpl.
  - split; intro H; [inversion H; constructor | inversion H; reflexivity].
  - destruct (f x) as [y|e] eqn:E; simpl.
    + destruct (mapM f l) as [ys'|e'] eqn:E'; simpl.
      * split; intro H.
        -- inversion H; subst. constructor; [exact E| now apply IH].
        -- inversion H as [|? y0 ? ys0 Hy Hl]; subst. apply IH in Hl. congruence.
      * split; intro H; [discriminate|]. inversion H as [|? y0 ? ys0 Hy Hl]; subst. apply IH in Hl. congruence.
    + split; intro H; [discriminate|]. inversion H as [|? y0 ? ys0 Hy Hl]; subst. congruence.
Qed.
Lemma mapM_In {A B} (f : A -> result B) l ys y :
  mapM f l = Ok ys -> In y ys -> exists x, In x l /\ f x = Ok y.
Proof.
  intros H. apply mapM_ok in H. induction H as [|a b l ys Hf H IH]; simpl; [tauto|].
  intros [->|Hin]; [exists a; auto|]. destruct (IH Hin) as [x [? ?]]. exists x; auto.
Qed.

Lemma set_nth_length {A} i (x : A) l : length (set_nth i x l) = length l.
Proof. revert i; induction l as [|y l IH]; intros [|i]; simpl; auto. Qed.
Lemma set_nth_app {A} (x y : A) l1 l2 : set_nth (length l1) x (l1 ++ y :: l2) = l1 ++ x :: l2.
Proof. induction l1 as [|z l1 IH]; simpl; [reflexivity | now rewrite IH]. Qed.
Lemma nth_error_set_nth_eq {A} i (x : A) l : i < length l -> nth_error (set_nth i x l) i = Some x.
Proof. revert i; induction l as [|y l IH]; intros [|i]; simpl; intro H; try lia; auto. apply IH; lia. Qed.
Lemma nth_error_set_nth_neq {A} i j (x : A) l : i <> j -> nth_error (set_nth i x l) j = nth_error l j.
Proof. revert i j; induction l as [|y l IH]; intros [|i] [|j]; simpl; intro H; try congruence; auto. Qed.
Lemma mask_filter_app {A} m1 m2 (l1 l2 : list A) :
  length m1 = length l1 -> mask_filter (m1 ++ m2) (l1 ++ l2) = mask_filter m1 l1 ++ mask_filter m2 l2.
Proof.
  revert l1; induction m1 as [|b m1 IH]; intros [|x l1]; simpl; intro H; try lia; auto.
  destruct b; simpl; rewrite IH; auto.
Qed.
Lemma mask_filter_map {A} (f : A -> bool) l : mask_filter (map f l) l = filter f l.
Proof. induction l as [|x l IH]; simpl; auto. destruct (f x); now rewrite IH. Qed.
Lemma mask_filter_fmap {A B} (f : A -> B) m l : mask_filter m (map f l) = map f (mask_filter m l).
Proof.
  revert l; induction m as [|b m IH]; intros [|x l]; simpl; auto. destruct b; simpl; now rewrite IH.
Qed.
Lemma count_true_map {A} (f : A -> bool) l : count_true (map f l) = length (filter f l).
Proof. induction l as [|x l IH]; simpl; auto. rewrite IH. destruct (f x); reflexivity. Qed.

Lemma nth_error_ext_eq {A} (l1 l2 : list A) :
  (forall i, nth_error l1 i = nth_error l2 i) -> l1 = l2.
Proof.
  revert l2. induction l1 as [|x l1 IH]; intros [|y l2] H; auto.
  - specialize (H 0); discriminate.
  - specialize (H 0); discriminate.
  - assert (x = y) by (specialize (H 0); simpl in H; congruence). subst. f_equal.
    apply IH. intro i. exact (H (S i)).
Qed.

Lemma remove_first_In x y l : In y (remove_first x l) -> In y l.
Proof.
  induction l as [|z l IH]; simpl; auto. destruct (Nat.eqb_spec x z); simpl; intuition.
Qed.
Lemma remove_first_perm x l : In x l -> Permutation l (x :: remove_first x l).
Proof.
  induction l as [|z l IH]; simpl; [tauto|]. intros H.
  destruct (Nat.eqb_spec x z) as [->|Hne]; [reflexivity|].
  destruct H as [->|H]; [congruence|]. rewrite (IH H) at 1. apply perm_swap.
Qed.
Lemma remove_first_length x l : In x l -> length l = S (length (remove_first x l)).
Proof. intro H. apply remove_first_perm in H. apply Permutation_length in H. exact H. Qed.
Lemma remove_first_notin x l : ~ In x l -> remove_first x l = l.
Proof.
  induction l as [|z l IH]; simpl; auto. intro H. destruct (Nat.eqb_spec x z) as [->|Hne]; [tauto|].
  rewrite IH; tauto.
Qed.
Lemma remove_first_NoDup x l : NoDup l -> NoDup (remove_first x l).
Proof.
  induction 1 as [|z l Hz H IH]; simpl; [constructor|]. destruct (Nat.eqb_spec x z); auto.
  constructor; auto. intro Hin. apply remove_first_In in Hin. tauto.
Qed.
Lemma remove_first_In_iff x y l : NoDup l -> (In y (remove_first x l) <-> In y l /\ y <> x).
Proof.
  intro H. induction H as [|z l Hz H IH]; simpl; [tauto|].
  destruct (Nat.eqb_spec x z) as [->|Hne]; simpl.
  - split; [intro Hy; split; [auto| intros ->; tauto] | intros [[->|Hy] Hne]; congruence || auto].
  - rewrite IH. intuition congruence.
Qed.
Lemma filter_length_le {A} (f : A -> bool) l : length (filter f l) <= length l.
Proof. induction l as [|x l IH]; simpl; auto. destruct (f x); simpl; lia. Qed.
Lemma NoDup_app_l {A} (l1 l2 : list A) : NoDup (l1 ++ l2) -> NoDup l1.
Proof.
  induction l1 as [|x l1 IH]; simpl; intro H; [constructor|]. inversion H as [|? ? Hx Hl]; subst.
  constructor; auto. intro K. apply Hx. apply in_or_app; auto.
Qed.
Lemma NoDup_app_r {A} (l1 l2 : list A) : NoDup (l1 ++ l2) -> NoDup l2.
Proof. induction l1 as [|x l1 IH]; simpl; intro H; auto. inversion H; auto. Qed.
Lemma NoDup_app_disj {A} (l1 l2 : list A) x : NoDup (l1 ++ l2) -> In x l1 -> In x l2 -> False.
Proof.
  induction l1 as [|y l1 IH]; simpl; intros H H1 H2; [tauto|]. inversion H as [|? ? Hy Hl]; subst.
  destruct H1 as [->|H1]; eauto. apply Hy. apply in_or_app; auto.
Qed.
