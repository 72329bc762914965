(** Lemmas about vectors of reals. *)
From Verif Require Import M_RBase.
From Coq Require Import Lra Permutation.
Local Open Scope R_scope.

Lemma Rltb_true x y : Rltb x y = true <-> x < y.
Proof. unfold Rltb. destruct (Rlt_dec x y); split; intro; auto; try discriminate; lra. Qed.
Lemma Rltb_false x y : Rltb x y = false <-> y <= x.
Proof. unfold Rltb. destruct (Rlt_dec x y); split; intro; auto; try discriminate; lra. Qed.
Lemma Rleb_true x y : Rleb x y = true <-> x <= y.
Proof. unfold Rleb. destruct (Rle_dec x y); split; intro; auto; try discriminate; lra. Qed.
Lemma Rleb_false x y : Rleb x y = false <-> y < x.
Proof. unfold Rleb. destruct (Rle_dec x y); split; intro; auto; try discriminate; lra. Qed.

Lemma rsum_app a b : rsum (a ++ b) = rsum a + rsum b.
Proof. induction a as [|x a IH]; simpl; [lra|]. rewrite IH. lra. Qed.
Lemma rsum_nonneg l : (forall x, In x l -> 0 <= x) -> 0 <= rsum l.
Proof.
  induction l as [|x l IH]; simpl; intro H; [lra|]. assert (0 <= x) by auto. assert (0 <= rsum l) by auto. lra.
Qed.
Lemma rsum_pos l : l <> [] -> (forall x, In x l -> 0 < x) -> 0 < rsum l.
Proof.
  destruct l as [|x l]; [congruence|]. intros _ H. simpl. assert (0 < x) by (apply H; now left).
  assert (0 <= rsum l); [|lra]. apply rsum_nonneg. intros y Hy. left. apply H. now right.
Qed.
Lemma rsum_scale c l : rsum (map (fun x => c * x) l) = c * rsum l.
Proof. induction l as [|x l IH]; simpl; [lra|]. rewrite IH. lra. Qed.
Lemma rsum_div c l : rsum (map (fun x => x / c) l) = rsum l / c.
Proof. induction l as [|x l IH]; simpl; [unfold Rdiv; lra|]. rewrite IH. unfold Rdiv. lra. Qed.
Lemma rsum_ext {A} (f g : A -> R) l : (forall x, In x l -> f x = g x) -> rsum (map f l) = rsum (map g l).
Proof. intro H. f_equal. now apply map_ext_in. Qed.
Lemma rsum_perm a b : Permutation a b -> rsum a = rsum b.
Proof. induction 1; simpl; lra. Qed.
Lemma rsum_le {A} (f g : A -> R) l : (forall x, In x l -> f x <= g x) -> rsum (map f l) <= rsum (map g l).
Proof. induction l as [|x l IH]; simpl; intro H; [lra|]. assert (f x <= g x) by auto. assert (rsum (map f l) <= rsum (map g l)) by auto. lra. Qed.
Lemma rsum_plus {A} (f g : A -> R) l : rsum (map (fun x => f x + g x) l) = rsum (map f l) + rsum (map g l).
Proof. induction l as [|x l IH]; simpl; [lra|]. rewrite IH. lra. Qed.
Lemma rsum_minus {A} (f g : A -> R) l : rsum (map (fun x => f x - g x) l) = rsum (map f l) - rsum (map g l).
Proof. induction l as [|x l IH]; simpl; [lra|]. rewrite IH. lra. Qed.
Lemma rsum_map_scale {A} c (f : A -> R) l : rsum (map (fun x => c * f x) l) = c * rsum (map f l).
Proof. induction l as [|x l IH]; simpl; [lra|]. rewrite IH. lra. Qed.
Lemma rsum_const {A} c (l : list A) : rsum (map (fun _ => c) l) = INR (length l) * c.
Proof. induction l as [|x l IH]; [simpl; lra|]. cbn [map rsum length]. rewrite IH, S_INR. lra. Qed.
Lemma rsum_swap {A B} (f : A -> B -> R) l m :
  rsum (map (fun x => rsum (map (fun y => f x y) m)) l) = rsum (map (fun y => rsum (map (fun x => f x y) l)) m).
Proof.
  induction l as [|x l IH]; simpl.
  - rewrite (rsum_const 0 m). lra.
  - rewrite IH, <- rsum_plus. reflexivity.
Qed.

Lemma rmax1_ge l : forall x, x <= rmax1 x l /\ forall y, In y l -> y <= rmax1 x l.
Proof.
  unfold rmax1. induction l as [|z l IH]; intro x; simpl; [split; [lra|tauto]|].
  destruct (IH (Rmax x z)) as [H1 H2]. assert (M1 := Rmax_l x z). assert (M2 := Rmax_r x z). split; [lra|].
  intros y [<-|H]; [lra|auto].
Qed.
Lemma rmax1_in l : forall x, In (rmax1 x l) (x :: l).
Proof.
  unfold rmax1. induction l as [|z l IH]; intro x; [simpl; auto|]. simpl fold_left.
  destruct (IH (Rmax x z)) as [H|H]; [|right; now right].
  rewrite <- H. unfold Rmax. destruct (Rle_dec x z); [right; now left|now left].
Qed.
Lemma rmin1_le l : forall x, rmin1 x l <= x /\ forall y, In y l -> rmin1 x l <= y.
Proof.
  unfold rmin1. induction l as [|z l IH]; intro x; simpl; [split; [lra|tauto]|].
  destruct (IH (Rmin x z)) as [H1 H2]. assert (M1 := Rmin_l x z). assert (M2 := Rmin_r x z). split; [lra|].
  intros y [<-|H]; [lra|auto].
Qed.
Lemma rmin1_in l : forall x, In (rmin1 x l) (x :: l).
Proof.
  unfold rmin1. induction l as [|z l IH]; intro x; [simpl; auto|]. simpl fold_left.
  destruct (IH (Rmin x z)) as [H|H]; [|right; now right].
  rewrite <- H. unfold Rmin. destruct (Rle_dec x z); [now left|right; now left].
Qed.
Lemma np_max_ok l : l <> [] -> exists m, np_max l = Ok m /\ In m l /\ forall y, In y l -> y <= m.
Proof.
  destruct l as [|x l]; [congruence|]. intros _. exists (rmax1 x l). split; [reflexivity|]. split; [apply rmax1_in|].
  destruct (rmax1_ge l x) as [H1 H2]. intros y [<-|H]; auto.
Qed.
Lemma np_min_ok l : l <> [] -> exists m, np_min l = Ok m /\ In m l /\ forall y, In y l -> m <= y.
Proof.
  destruct l as [|x l]; [congruence|]. intros _. exists (rmin1 x l). split; [reflexivity|]. split; [apply rmin1_in|].
  destruct (rmin1_le l x) as [H1 H2]. intros y [<-|H]; auto.
Qed.

Lemma cumsum_length l : forall acc, length (cumsum acc l) = length l.
Proof. induction l as [|x l IH]; intro acc; simpl; auto. Qed.
Lemma cumsum_nth l : forall acc i, (i < length l)%nat -> nth_error (cumsum acc l) i = Some (acc + rsum (firstn (S i) l)).
Proof.
  induction l as [|x l IH]; intros acc i H; simpl in H; [lia|]. destruct i as [|i].
  - simpl. f_equal. lra.
  - cbn [cumsum nth_error]. rewrite IH by lia. cbn [firstn rsum]. f_equal. lra.
Qed.
Lemma last_cumsum l : forall acc d, l <> [] -> last (cumsum acc l) d = acc + rsum l.
Proof.
  induction l as [|x l IH]; intros acc d H; [congruence|]. destruct l as [|y l]; [simpl; lra|].
  cbn [cumsum]. change (last (cumsum (acc + x) (y :: l)) d = acc + rsum (x :: y :: l)). rewrite IH by discriminate. simpl. lra.
Qed.
Lemma firstn_rsum_le l i j : (forall x, In x l -> 0 <= x) -> (i <= j)%nat -> rsum (firstn i l) <= rsum (firstn j l).
Proof.
  revert i j. induction l as [|x l IH]; intros i j H Hij; [rewrite !firstn_nil; lra|].
  destruct i as [|i]; [|destruct j as [|j]; [lia|]].
  - apply (rsum_nonneg (firstn j (x :: l))). intros y Hy. apply H. rewrite <- (firstn_skipn j (x :: l)), in_app_iff. auto.
  - simpl. assert (rsum (firstn i l) <= rsum (firstn j l)); [apply IH; [intros; apply H; now right|lia]|lra].
Qed.
