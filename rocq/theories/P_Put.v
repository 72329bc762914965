(** Lemmas on indexed assignment and on derivatives of sums over labelled points. *)
From Verif Require Export M_OrdProbit S_PrefProbit P_PrefProbit.
From Coquelicot Require Import Coquelicot.
From Coq Require Import Reals Lra Lia.
From Verif Require Import M_OrdProbit S_PrefProbit P_RBase P_PrefProbit.
Local Open Scope R_scope.

Lemma put_vec_notin idx a : forall v M, ~ In a idx -> put_vec idx v M a = M a.
Proof.
  unfold put_vec. induction idx as [|i idx IH]; intros [|x v] M H; auto. cbn [combine fold_left]. rewrite IH by (intro; apply H; now right). unfold put. cbn [fst snd].
  destruct (Nat.eqb a i) eqn:E; auto. apply Nat.eqb_eq in E. exfalso. apply H. now left.
Qed.
Lemma put_vec_sum {A} (y : list (A * nat)) (f : A * nat -> R) a : NoDup (map snd y) -> forall M, M a = 0 ->
  put_vec (map snd y) (map f y) M a = rsum (map (fun p => if Nat.eqb a (snd p) then f p else 0) y).
Proof.
  induction y as [|p y IH]; intros N M H; [exact H|]. cbn [map] in *. inversion N as [|? ? N1 N2]; subst. unfold put_vec. cbn [combine fold_left]. change (fold_left put (combine (map snd y) (map f y)) (put M (snd p, f p)) a) with (put_vec (map snd y) (map f y) (put M (snd p, f p)) a).
  change (rsum (?h :: ?t)) with (h + rsum t). destruct (Nat.eqb a (snd p)) eqn:E.
  - apply Nat.eqb_eq in E. subst a. rewrite put_vec_notin by auto. unfold put. cbn [fst snd]. rewrite Nat.eqb_refl.
    rewrite (rsum_ext _ (fun _ => 0)); [rewrite rsum_const; ring|]. intros q Hq. destruct (Nat.eqb (snd p) (snd q)) eqn:E; auto. apply Nat.eqb_eq in E. exfalso. apply N1. rewrite E. now apply in_map.
  - rewrite IH; [ring|auto|]. unfold put. cbn [fst snd]. now rewrite E.
Qed.
Lemma put_diag_sum {A} (y : list (A * nat)) (f : A * nat -> R) a b : NoDup (map snd y) ->
  put_diag (map snd y) (map f y) a b = rsum (map (fun p => if Nat.eqb a (snd p) && Nat.eqb b (snd p) then f p else 0) y).
Proof.
  intro N. unfold put_diag. destruct (Nat.eqb a b) eqn:E.
  - apply Nat.eqb_eq in E. subst b. rewrite (put_vec_sum y f a N) by auto. apply rsum_ext. intros p _. destruct (Nat.eqb a (snd p)); auto.
  - rewrite (rsum_ext _ (fun _ => 0)); [rewrite rsum_const; ring|]. intros p _. destruct (Nat.eqb a (snd p)) eqn:E1; auto. destruct (Nat.eqb b (snd p)) eqn:E2; auto. apply Nat.eqb_eq in E1, E2. subst. rewrite Nat.eqb_refl in E. discriminate.
Qed.

(** log likelihood of labelled points *)
Definition LLsum {A} (L : A -> R -> R) (y : list (A * nat)) (F : vec) : R := rsum (map (fun p => L (fst p) (F (snd p))) y).
Lemma upd_at F a t : upd F a t a = t.
Proof. unfold upd. now rewrite Nat.eqb_refl. Qed.
Lemma upd_other F a b t : b <> a -> upd F a t b = F b.
Proof. intro H. unfold upd. apply Nat.eqb_neq in H. now rewrite H. Qed.
Lemma label_derive {A} (L : A -> R -> R) (x : A) (u : nat) (F : vec) a l : is_derive (L x) (F u) l ->
  is_derive (fun t : R => L x (upd F a t u)) (F a) (if Nat.eqb a u then l else 0).
Proof.
  intro D. destruct (Nat.eqb a u) eqn:E.
  - apply Nat.eqb_eq in E. subst u. apply (is_derive_ext (L x)); [intro t; now rewrite upd_at|exact D].
  - apply Nat.eqb_neq in E. apply (is_derive_ext (fun _ : R => L x (F u))); [intro t; rewrite upd_other; auto|]. exact (is_derive_const (K := R_AbsRing) (V := R_NormedModule) _ _).
Qed.
Lemma LLsum_partial {A} (L dL : A -> R -> R) (y : list (A * nat)) F a : NoDup (map snd y) -> (forall p, In p y -> is_derive (L (fst p)) (F (snd p)) (dL (fst p) (F (snd p)))) ->
  has_partial (LLsum L y) a F (put_vec (map snd y) (map (fun p => dL (fst p) (F (snd p))) y) (fun _ => 0) a).
Proof.
  intros N D. rewrite (put_vec_sum y (fun p => dL (fst p) (F (snd p)))) by auto. unfold has_partial, LLsum.
  apply (is_derive_rsum (fun p t => L (fst p) (upd F a t (snd p)))). intros p Hp. apply (label_derive L (fst p) (snd p)). now apply D.
Qed.
Lemma upd_locally (P : R -> Prop) F b u : locally (F u : R) P -> locally (F b : R) (fun t : R => P (upd F b t u)).
Proof.
  intro H. destruct (Nat.eq_dec u b) as [-> |N].
  - revert H. apply filter_imp. intros t Ht. now rewrite upd_at.
  - apply filter_forall. intro t. rewrite upd_other by auto. now apply locally_singleton in H.
Qed.
Lemma locally_all {A} (y : list A) (x : R) (P : A -> R -> Prop) : (forall p, In p y -> locally x (P p)) -> locally x (fun t : R => forall p, In p y -> P p t).
Proof.
  induction y as [|p y IH]; intro H.
  - apply filter_forall. intros t q [].
  - generalize (filter_and (F := locally (T := R_UniformSpace) x) _ _ (H p ltac:(now left)) (IH ltac:(intros; apply H; now right))). apply filter_imp. intros t [H1 H2] q [<- |Hq]; auto.
Qed.
Lemma LLsum_hessian {A} (L dL ddL : A -> R -> R) (y : list (A * nat)) F a b : NoDup (map snd y) ->
  (forall p, In p y -> locally (F (snd p) : R) (fun t : R => is_derive (L (fst p)) t (dL (fst p) t))) -> (forall p, In p y -> is_derive (dL (fst p)) (F (snd p)) (ddL (fst p) (F (snd p)))) ->
  has_partial (partial a (LLsum L y)) b F (put_diag (map snd y) (map (fun p => ddL (fst p) (F (snd p))) y) a b).
Proof.
  intros N D1 D2. unfold has_partial.
  apply (is_derive_ext_loc (fun t : R => rsum (map (fun p => if Nat.eqb a (snd p) then dL (fst p) (upd F b t (snd p)) else 0) y))).
  - assert (K := locally_all y (F b) (fun p t => is_derive (L (fst p)) (upd F b t (snd p)) (dL (fst p) (upd F b t (snd p)))) ltac:(intros p Hp; apply (upd_locally (fun t => is_derive (L (fst p)) t (dL (fst p) t))); auto)).
    revert K. apply filter_imp. intros t Ht. symmetry. apply is_derive_unique. rewrite <- (put_vec_sum y (fun p => dL (fst p) (upd F b t (snd p))) a N (fun _ => 0) eq_refl). exact (LLsum_partial L dL y (upd F b t) a N Ht).
  - rewrite (put_diag_sum y (fun p => ddL (fst p) (F (snd p)))) by auto. apply (is_derive_rsum (fun p t => if Nat.eqb a (snd p) then dL (fst p) (upd F b t (snd p)) else 0)). intros p Hp. destruct (Nat.eqb a (snd p)); cbn [andb].
    + apply (label_derive dL (fst p) (snd p)). now apply D2.
    + exact (is_derive_const (K := R_AbsRing) (V := R_NormedModule) _ _).
Qed.
(** the last label of a point wins *)
Lemma put_vec_last idx v a x M : length idx = length v -> put_vec (idx ++ a :: nil) (v ++ x :: nil) M a = x.
Proof.
  unfold put_vec. revert v M. induction idx as [|i idx IH]; intros [|w v] M H; try discriminate.
  - cbn. unfold put. cbn. now rewrite Nat.eqb_refl.
  - cbn [app combine fold_left]. apply IH. cbn in H. lia.
Qed.
