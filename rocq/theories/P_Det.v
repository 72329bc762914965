(** Determinants: rows, derivative, Cramer's rule. *)
From Verif Require Import M_Acq P_Acq M_HyperGrad S_Psd P_Psd.
From Coquelicot Require Import Coquelicot.
From Coq Require Import Reals Lra Lia List.
From Verif Require Import M_RBase M_HyperGrad S_GP S_Psd P_Psd.
Local Open Scope R_scope.

Definition minor (j : nat) (A : nat -> nat -> R) : nat -> nat -> R := fun r c => A (S r) (skip j c).
Lemma det_S n A : det (S n) A = sumn (S n) (fun j => (-1) ^ j * A O j * det n (minor j A)).
Proof. cbn [det]. rewrite sum_to_sumn. reflexivity. Qed.
Lemma skip_lt n j c : (j < S n)%nat -> (c < n)%nat -> (skip j c < S n)%nat.
Proof. unfold skip. intros. destruct (Nat.ltb_spec c j); lia. Qed.
Lemma det_ext n : forall A B, (forall i j, (i < n)%nat -> (j < n)%nat -> A i j = B i j) -> det n A = det n B.
Proof.
  induction n as [|n IH]; intros A B H; [reflexivity|]. rewrite !det_S. apply sumn_ext. intros j Hj. rewrite (H O j) by lia. f_equal.
  apply IH. intros r c Hr Hc. unfold minor. apply H; [lia|]. now apply skip_lt.
Qed.

(** the matrix with row [i] replaced *)
Definition row_set (A : nat -> nat -> R) (i : nat) (v : nat -> R) : nat -> nat -> R := fun r c => if Nat.eqb r i then v c else A r c.
Lemma minor_row_set j A i v : minor j (row_set A (S i) v) = row_set (minor j A) i (fun c => v (skip j c)).
Proof. reflexivity. Qed.
Lemma det_row_0 n A v : det (S n) (row_set A 0 v) = sumn (S n) (fun j => (-1) ^ j * v j * det n (minor j A)).
Proof. rewrite det_S. reflexivity. Qed.
Lemma det_row_S n A i v : det (S n) (row_set A (S i) v) = sumn (S n) (fun j => (-1) ^ j * A O j * det n (row_set (minor j A) i (fun c => v (skip j c)))).
Proof. rewrite det_S. apply sumn_ext. intros j _. rewrite minor_row_set. reflexivity. Qed.
Lemma det_linear n : forall A i a u v, (i < n)%nat ->
  det n (row_set A i (fun c => a * u c + v c)) = a * det n (row_set A i u) + det n (row_set A i v).
Proof.
  induction n as [|n IH]; intros A i a u v Hi; [lia|]. destruct i as [|i].
  - rewrite !det_row_0, <- sumn_scale, <- sumn_plus. apply sumn_ext. intros j _. ring.
  - rewrite !det_row_S, <- sumn_scale, <- sumn_plus. apply sumn_ext. intros j _. rewrite (IH (minor j A) i a (fun c => u (skip j c)) (fun c => v (skip j c))) by lia. ring.
Qed.
Lemma det_row_ext n A i u v : (forall c, (c < n)%nat -> u c = v c) -> det n (row_set A i u) = det n (row_set A i v).
Proof. intros H. apply det_ext. intros r c _ Hc. unfold row_set. destruct (Nat.eqb r i); auto. Qed.
Lemma row_set_same n A i : det n (row_set A i (A i)) = det n A.
Proof. apply det_ext. intros r c _ _. unfold row_set. destruct (Nat.eqb_spec r i); congruence. Qed.
Lemma det_row_zero n A i : (i < n)%nat -> det n (row_set A i (fun _ => 0)) = 0.
Proof. intros Hi. assert (E := det_linear n A i 1 (fun _ => 0) (fun _ => 0) Hi). cbn in E. rewrite (det_row_ext n A i (fun _ => 1 * 0 + 0) (fun _ => 0)) in E by (intros; ring). lra. Qed.
Lemma det_row_sum n A i m a u : (i < n)%nat -> det n (row_set A i (fun c => sumn m (fun k => a k * u k c))) = sumn m (fun k => a k * det n (row_set A i (u k))).
Proof.
  intros Hi. induction m as [|m IH]; cbn [sumn]; [now apply det_row_zero|].
  rewrite (det_row_ext n A i _ (fun c => a m * u m c + sumn m (fun k => a k * u k c))) by (intros; ring). rewrite det_linear, IH by auto. ring.
Qed.

(** two equal rows *)
Lemma skip_skip j k c : (j <= k)%nat -> skip j (skip k c) = skip (S k) (skip j c).
Proof. intros H. unfold skip. repeat match goal with |- context [Nat.ltb ?a ?b] => destruct (Nat.ltb_spec a b) end; lia. Qed.
Lemma triangle_sum n (f : nat -> nat -> R) :
  sumn (S n) (fun j => sumn n (fun k => f j k)) = sumn n (fun k => sumn (S k) (fun j => f j k + f (S k) j)).
Proof.
  induction n as [|n IH]; [cbn; ring|].
  change (sumn (S (S n)) (fun j => sumn (S n) (fun k => f j k))) with (sumn (S n) (fun j => sumn (S n) (fun k => f j k)) + sumn (S n) (fun k => f (S n) k)).
  rewrite (sumn_ext (S n) (fun j => sumn (S n) (fun k => f j k)) (fun j => sumn n (fun k => f j k) + f j n)) by reflexivity.
  rewrite sumn_plus, IH. change (sumn (S n) (fun k => sumn (S k) (fun j => f j k + f (S k) j))) with
    (sumn n (fun k => sumn (S k) (fun j => f j k + f (S k) j)) + sumn (S n) (fun j => f j n + f (S n) j)).
  rewrite (sumn_plus (S n) (fun j => f j n) (fun j => f (S n) j)). ring.
Qed.
Lemma det_first_two n A : (forall c, A O c = A 1%nat c) -> det (S (S n)) A = 0.
Proof.
  intros H. rewrite det_S. rewrite (sumn_ext _ _ (fun j => sumn (S n) (fun k => (-1) ^ j * A O j * ((-1) ^ k * A 1%nat (skip j k) * det n (minor k (minor j A)))))).
  2:{ intros j _. rewrite det_S, <- sumn_scale. apply sumn_ext. intros k _. unfold minor at 1. ring. }
  rewrite triangle_sum. apply sumn_zero. intros k Hk. apply sumn_zero. intros j Hj.
  rewrite (det_ext n (minor k (minor j A)) (minor j (minor (S k) A))).
  2:{ intros r c _ _. unfold minor. rewrite skip_skip by lia. reflexivity. }
  unfold skip. destruct (Nat.ltb_spec k j); [lia|]. destruct (Nat.ltb_spec j (S k)); [|lia]. rewrite (H j), (H (S k)). cbn [pow]. ring.
Qed.
Lemma row_set_twice A i j u v : i <> j -> row_set (row_set A i u) j v = fun r c => if Nat.eqb r j then v c else if Nat.eqb r i then u c else A r c.
Proof. reflexivity. Qed.
Lemma det_equal_rows n : forall A i j, (i < j)%nat -> (j < n)%nat -> (forall c, A i c = A j c) -> det n A = 0.
Proof.
  induction n as [|n IH]; intros A i j Hij Hj H; [lia|]. destruct i as [|i].
  - destruct j as [|[|j]]; [lia| |].
    + destruct n as [|n]; [lia|]. now apply det_first_two.
    + (* rows 1 and j+2 can be exchanged *)
      set (D := fun u v : nat -> R => det (S n) (row_set (row_set A 1 u) (S (S j)) v)).
      assert (Z : forall u, D u u = 0).
      { intros u. unfold D. rewrite det_S. apply sumn_zero. intros k _. rewrite (IH (minor k (row_set (row_set A 1 u) (S (S j)) u)) O (S j)); [ring|lia|lia|].
        intros c. unfold minor, row_set. rewrite !Nat.eqb_refl. reflexivity. }
      assert (L : forall a b, D a b = - D b a).
      { intros a b. assert (E := Z (fun c => 1 * a c + b c)). unfold D in E. rewrite det_linear in E by lia.
        assert (X : forall w, det (S n) (row_set (row_set A 1 (fun c => 1 * a c + b c)) (S (S j)) w) = D a w + D b w).
        { intros w. unfold D. rewrite (det_ext (S n) (row_set (row_set A 1 (fun c => 1 * a c + b c)) (S (S j)) w) (row_set (row_set A (S (S j)) w) 1 (fun c => 1 * a c + b c))).
          2:{ intros r c _ _. unfold row_set. destruct (Nat.eqb_spec r (S (S j))), (Nat.eqb_spec r 1); try reflexivity; lia. }
          rewrite det_linear by lia. rewrite Rmult_1_l. f_equal; apply det_ext; intros r c _ _; unfold row_set; destruct (Nat.eqb_spec r (S (S j))), (Nat.eqb_spec r 1); try reflexivity; lia. }
        rewrite !X, !Z in E. lra. }
      assert (E : det (S n) A = D (A 1%nat) (A (S (S j)))).
      { apply det_ext. intros r c _ _. unfold row_set. destruct (Nat.eqb_spec r (S (S j))) as [->|]; [reflexivity|]. destruct (Nat.eqb_spec r 1) as [->|]; reflexivity. }
      rewrite E, L. unfold D. destruct n as [|n]; [lia|]. rewrite det_first_two; [ring|]. intros c. unfold row_set. cbn. apply H.
  - destruct j as [|j]; [lia|]. rewrite det_S. apply sumn_zero. intros k _. rewrite (IH (minor k A) i j); [ring|lia|lia|]. intros c. apply H.
Qed.
Lemma det_row_copy n A i k : (i < n)%nat -> (k < n)%nat -> det n (row_set A i (A k)) = if Nat.eqb i k then det n A else 0.
Proof.
  intros Hi Hk. destruct (Nat.eqb_spec i k) as [->|N]; [apply row_set_same|].
  destruct (Nat.lt_ge_cases i k); [apply (det_equal_rows n _ i k)|apply (det_equal_rows n _ k i)]; try lia; intros c; unfold row_set; rewrite Nat.eqb_refl;
    destruct (Nat.eqb_spec k i); congruence.
Qed.
(** Cramer's rule: a row that is a combination of the rows *)
Lemma det_row_comb n A i a : (i < n)%nat -> det n (row_set A i (fun c => sumn n (fun k => a k * A k c))) = a i * det n A.
Proof.
  intros Hi. rewrite det_row_sum by auto. rewrite (sumn_single n _ i); [rewrite det_row_copy, Nat.eqb_refl by auto; reflexivity|auto|].
  intros k Hk N. rewrite det_row_copy by auto. destruct (Nat.eqb_spec i k); [congruence|ring].
Qed.
Lemma det_id n : det n (fun i j => if Nat.eqb i j then 1 else 0) = 1.
Proof.
  induction n as [|n IH]; [reflexivity|]. rewrite det_S. rewrite (sumn_single (S n) _ O); [|lia|].
  - rewrite (det_ext n (minor 0 _) (fun i j => if Nat.eqb i j then 1 else 0)); [rewrite IH; cbn; ring|]. intros; reflexivity.
  - intros j Hj N. destruct j; [lia|]. cbn. ring.
Qed.

(** derivative *)
Lemma is_derive_sumn n (f : nat -> R -> R) (f' : nat -> R) x : (forall i, (i < n)%nat -> is_derive (f i) x (f' i)) -> is_derive (fun t => sumn n (fun i => f i t)) x (sumn n f').
Proof.
  induction n as [|n IH]; intros H; cbn [sumn]; [apply (is_derive_const (0 : R))|]. apply (is_derive_plus (fun t => sumn n (fun i => f i t)) (f n)); [|apply H; lia].
  apply IH. intros. apply H. lia.
Qed.
Lemma det_derive n : forall (A : R -> nat -> nat -> R) (A' : nat -> nat -> R) x, (forall i j, (i < n)%nat -> (j < n)%nat -> is_derive (fun t => A t i j) x (A' i j)) ->
  is_derive (fun t => det n (A t)) x (sumn n (fun i => det n (row_set (A x) i (A' i)))).
Proof.
  induction n as [|n IH]; intros A A' x H; [cbn; apply (is_derive_const (1 : R))|].
  apply (is_derive_ext (fun t => sumn (S n) (fun j => (-1) ^ j * A t O j * det n (minor j (A t))))); [intros t; now rewrite det_S|].
  evar_last.
  - apply (is_derive_sumn (S n) (fun j t => (-1) ^ j * A t O j * det n (minor j (A t)))
             (fun j => (-1) ^ j * A' O j * det n (minor j (A x)) + (-1) ^ j * A x O j * sumn n (fun i => det n (row_set (minor j (A x)) i (minor j A' i))))).
    intros j Hj. apply (is_derive_mult (fun t => (-1) ^ j * A t O j) (fun t => det n (minor j (A t)))).
    + apply (is_derive_scal (fun t => A t O j)). apply H; lia.
    + apply (IH (fun t => minor j (A t)) (minor j A')). intros r c Hr Hc. unfold minor. apply H; [lia|]. now apply skip_lt.
    + intros; apply Rmult_comm.
  - rewrite sumn_plus, (sumn_first n (fun i => det (S n) (row_set (A x) i (A' i)))), det_row_0. f_equal.
    rewrite (sumn_ext n (fun i => det (S n) (row_set (A x) (S i) (A' (S i)))) (fun i => sumn (S n) (fun j => (-1) ^ j * A x O j * det n (row_set (minor j (A x)) i (minor j A' i))))).
    2:{ intros i _. rewrite det_row_S. reflexivity. }
    rewrite sumn_swap. apply sumn_ext. intros j _. now rewrite sumn_scale.
Qed.
(** Jacobi's formula, with a left inverse [B] of the matrix *)
Lemma jacobi n (A : R -> nat -> nat -> R) (A' B : nat -> nat -> R) x : right_inverse n B (A x) ->
  (forall i j, (i < n)%nat -> (j < n)%nat -> is_derive (fun t => A t i j) x (A' i j)) ->
  is_derive (fun t => det n (A t)) x (det n (A x) * sumn n (fun i => sumn n (fun j => A' i j * B j i))).
Proof.
  intros HB H. evar_last; [apply (det_derive n A A' x H)|]. rewrite <- sumn_scale. apply sumn_ext. intros i Hi.
  rewrite (det_row_ext n (A x) i _ (fun c => sumn n (fun k => sumn n (fun j => A' i j * B j k) * A x k c))).
  - rewrite det_row_comb by auto. cbn. ring.
  - intros c Hc. rewrite (sumn_ext n _ (fun k => sumn n (fun j => A' i j * (B j k * A x k c)))) by (intros k _; rewrite <- sumn_scale_r; apply sumn_ext; intros; ring).
    rewrite sumn_swap. rewrite (sumn_ext n _ (fun j => A' i j * (if Nat.eqb j c then 1 else 0))) by (intros j Hj; rewrite sumn_scale, (HB j c) by auto; reflexivity).
    rewrite (sumn_single n _ c); [rewrite Nat.eqb_refl; ring|auto|]. intros j Hj N. destruct (Nat.eqb_spec j c); [congruence|ring].
Qed.
