(** Sorting lemmas for the model's insertion sort and argmin. *)
From Verif Require Import M_Base P_Base.
From Coq Require Import Permutation Sorted.

Lemma insert_nat_perm x l : Permutation (insert_nat x l) (x :: l).
Proof.
  induction l as [|y l IH]; simpl; [reflexivity|]. destruct (x <=? y); [reflexivity|].
  rewrite IH. apply perm_swap.
Qed.
Lemma sort_nat_perm l : Permutation (sort_nat l) l.
Proof. induction l as [|x l IH]; simpl; [reflexivity|]. rewrite insert_nat_perm. now constructor. Qed.
Lemma insert_nat_sorted x l : StronglySorted le l -> StronglySorted le (insert_nat x l).
Proof.
  induction 1 as [|y l Hs IH Hf]; simpl; [repeat constructor|].
  destruct (Nat.leb_spec x y).
  - constructor; [now constructor|]. constructor; auto. eapply Forall_impl; [|exact Hf]. intros; lia.
  - constructor; auto. eapply Permutation_Forall; [symmetry; apply insert_nat_perm|]. constructor; [lia|auto].
Qed.
Lemma sort_nat_sorted l : StronglySorted le (sort_nat l).
Proof. induction l as [|x l IH]; simpl; [constructor | now apply insert_nat_sorted]. Qed.
Lemma sorted_le_NoDup_lt l : StronglySorted le l -> NoDup l -> StronglySorted lt l.
Proof.
  induction 1 as [|y l Hs IH Hf]; intro Hn; constructor; inversion Hn as [|? ? Hy Hl]; subst; auto.
  rewrite Forall_forall in *. intros x Hx. specialize (Hf x Hx). assert (x <> y) by congruence. lia.
Qed.
Lemma sort_nat_NoDup_lt l : NoDup l -> StronglySorted lt (sort_nat l).
Proof.
  intro H. apply sorted_le_NoDup_lt; [apply sort_nat_sorted|].
  eapply Permutation_NoDup; [symmetry; apply sort_nat_perm | exact H].
Qed.
Lemma sort_nat_length l : length (sort_nat l) = length l.
Proof. apply Permutation_length, sort_nat_perm. Qed.

Lemma argmin_from_spec l : forall best besti i,
  (exists m, (argmin_from best besti i l = besti /\ m = best \/
              exists j, argmin_from best besti i l = i + j /\ nth_error l j = Some m)
   /\ m <= best /\ (forall x, In x l -> m <= x)).
Proof.
  induction l as [|x l IH]; intros best besti i; simpl.
  - exists best. split; auto. split; auto. tauto.
  - destruct (Nat.ltb_spec x best) as [L|L].
    + destruct (IH x i (S i)) as [m [H [Hm Hl]]]. exists m. split.
      * destruct H as [[-> ->]|[j [-> Hj]]]; right; [exists 0|exists (S j)]; simpl; split; auto; lia.
      * split; [lia|]. intros z [->|Hz]; auto.
    + destruct (IH best besti (S i)) as [m [H [Hm Hl]]]. exists m. split.
      * destruct H as [[-> ->]|[j [-> Hj]]]; [left; auto|right; exists (S j); simpl; split; auto; lia].
      * split; auto. intros z [->|Hz]; auto. lia.
Qed.
Lemma argmin_nat_spec l : l <> [] ->
  exists m, nth_error l (argmin_nat l) = Some m /\ (forall x, In x l -> m <= x).
Proof.
  destruct l as [|x l]; [congruence|]. intros _. unfold argmin_nat.
  destruct (argmin_from_spec l x 0 1) as [m [H [Hm Hl]]]. exists m. split.
  - destruct H as [[-> ->]|[j [-> Hj]]]; simpl; auto.
  - intros z [<-|Hz]; auto.
Qed.

Lemma nth_error_split2 {A} (l : list A) i x : nth_error l i = Some x ->
  exists l1 l2, l = l1 ++ x :: l2 /\ length l1 = i /\ forall y, set_nth i y l = l1 ++ y :: l2.
Proof.
  intro H. destruct (nth_error_split l i H) as [l1 [l2 [E L]]]. exists l1, l2. split; auto. split; auto.
  intro y. subst. apply set_nth_app.
Qed.
