(** Determinant of a positive definite matrix, and the derivative of the solution of linear equations. *)
From Verif Require Import M_Acq P_Acq M_HyperGrad S_Psd P_Psd P_Det.
From Coquelicot Require Import Coquelicot.
From Coq Require Import Reals Lra Lia List.
From Verif Require Import M_RBase M_HyperGrad S_GP S_Psd P_Psd P_Chol P_GP P_GP3 P_Det P_Det2.
Local Open Scope R_scope.

Lemma det_col_zero n : forall A, (0 < n)%nat -> (forall r, (r < n)%nat -> A r O = 0) -> det n A = 0.
Proof.
  induction n as [|n IH]; intros A Hn H; [lia|]. rewrite det_S. apply sumn_zero. intros j Hj. destruct j as [|j]; [rewrite (H O) by lia; ring|].
  rewrite (IH (minor (S j) A)); [ring|lia|]. intros r Hr. unfold minor. change (skip (S j) 0) with O. apply H. lia.
Qed.
Lemma det_row_add n A i k c : (i < n)%nat -> (k < n)%nat -> i <> k -> det n (row_set A i (fun x => A i x + c * A k x)) = det n A.
Proof.
  intros Hi Hk N. rewrite (det_row_ext n A i _ (fun x => c * A k x + A i x)) by (intros; ring). rewrite det_linear, det_row_copy, row_set_same by auto.
  destruct (Nat.eqb_spec i k); [congruence|ring].
Qed.
Lemma det_clear n A f m : (m <= n)%nat ->
  det (S n) (fun r c => if Nat.ltb 0 r && Nat.leb r m then A r c + f r * A O c else A r c) = det (S n) A.
Proof.
  induction m as [|m IH]; intros Hm.
  - apply det_ext. intros r c _ _. destruct r; reflexivity.
  - rewrite <- (IH ltac:(lia)). set (M := fun r c => if Nat.ltb 0 r && Nat.leb r m then A r c + f r * A O c else A r c).
    rewrite <- (det_row_add (S n) M (S m) O (f (S m))) by lia. apply det_ext. intros r c _ _. unfold row_set, M. cbn [Nat.ltb andb].
    destruct (Nat.eqb_spec r (S m)) as [->|N].
    + change (0 <? S m)%nat with true. cbn [andb]. rewrite Nat.leb_refl. destruct (Nat.leb_spec (S m) m); [lia|]. reflexivity.
    + destruct r as [|r]; [reflexivity|]. change (0 <? S r)%nat with true. cbn [andb]. destruct (Nat.leb_spec (S r) (S m)), (Nat.leb_spec (S r) m); try reflexivity; lia.
Qed.
Lemma det_schur n A : A O O <> 0 -> det (S n) A = A O O * det n (fun i j => A (S i) (S j) - A (S i) O * A O (S j) / A O O).
Proof.
  intros H0. rewrite <- (det_clear n A (fun r => - (A r O / A O O)) n (Nat.le_refl n)). rewrite det_S. rewrite (sumn_single (S n) _ O); [|lia|].
  - rewrite (det_ext n (minor 0 _) (fun i j => A (S i) (S j) - A (S i) O * A O (S j) / A O O)).
    + cbn. ring.
    + intros r c Hr _. unfold minor. change (skip 0 c) with (S c). change (0 <? S r)%nat with true. cbn [andb]. destruct (Nat.leb_spec (S r) n); [|lia]. field. auto.
  - intros j Hj N. destruct j as [|j]; [congruence|]. rewrite det_col_zero; [ring|lia|]. intros r Hr. unfold minor. change (skip (S j) 0) with O.
    change (0 <? S r)%nat with true. cbn [andb]. destruct (Nat.leb_spec (S r) n); [|lia]. field. auto.
Qed.
Lemma pd_det n : forall A, symmetric n A -> pd n A -> 0 < det n A.
Proof.
  induction n as [|n IH]; intros A SA PA; [cbn; lra|]. assert (H0 := pd_head n A PA). rewrite det_schur by lra. apply Rmult_lt_0_compat; [auto|].
  rewrite (det_ext n _ (schur A)); [apply IH; [now apply schur_sym|now apply schur_pd]|]. intros i j Hi Hj. unfold schur. rewrite (SA O (S j)) by lia. reflexivity.
Qed.
(** Cramer's rule for symmetric equations *)
Lemma cramer n A b x i : symmetric n A -> pd n A -> solves n A b x -> (i < n)%nat -> x i = det n (row_set A i b) / det n A.
Proof.
  intros SA PA H Hi. assert (D := pd_det n A SA PA). rewrite (det_row_ext n A i b (fun c => sumn n (fun k => x k * A k c))).
  - rewrite det_row_comb by auto. field. lra.
  - intros c Hc. rewrite <- (H c Hc). apply sumn_ext. intros k Hk. rewrite (SA c k) by auto. ring.
Qed.
(** derivative of [b A^-1 b] when [A] moves *)
Lemma quad_derive n (A : R -> nat -> nat -> R) (A' : nat -> nat -> R) b (x : R -> nat -> R) t0 :
  locally t0 (fun t => symmetric n (A t) /\ pd n (A t) /\ solves n (A t) b (x t)) ->
  (forall i j, (i < n)%nat -> (j < n)%nat -> is_derive (fun t => A t i j) t0 (A' i j)) ->
  is_derive (fun t => sumn n (fun i => b i * x t i)) t0 (- sumn n (fun i => sumn n (fun j => x t0 i * A' i j * x t0 j))).
Proof.
  intros L D. assert (L0 := locally_singleton _ _ L). destruct L0 as [S0 [P0 X0]].
  assert (EX : forall i, (i < n)%nat -> ex_derive (fun t => x t i) t0).
  { intros i Hi. apply (ex_derive_ext_loc (fun t => det n (row_set (A t) i b) / det n (A t))).
    - revert L. apply filter_imp. intros t [S1 [P1 X1]]. symmetry. now apply (cramer n (A t) b (x t) i).
    - apply ex_derive_div.
      + eexists. apply (det_derive n (fun t => row_set (A t) i b) (fun r c => if Nat.eqb r i then 0 else A' r c)). intros r c Hr Hc. unfold row_set.
        destruct (Nat.eqb r i); [apply (is_derive_const (b c))|now apply D].
      + eexists. apply (det_derive n A A' t0 D).
      + assert (Z := pd_det n (A t0) S0 P0). lra. }
  set (x' := fun i => Derive (fun t => x t i) t0). assert (DX : forall i, (i < n)%nat -> is_derive (fun t => x t i) t0 (x' i)) by (intros i Hi; apply Derive_correct; auto).
  assert (EQ : forall i, (i < n)%nat -> sumn n (fun j => A' i j * x t0 j + A t0 i j * x' j) = 0).
  { intros i Hi. assert (Y : is_derive (fun t => sumn n (fun j => A t i j * x t j)) t0 (sumn n (fun j => A' i j * x t0 j + A t0 i j * x' j))).
    { apply (is_derive_sumn n (fun j t => A t i j * x t j)). intros j Hj. apply (is_derive_mult (fun t => A t i j) (fun t => x t j)); [now apply D|now apply DX|intros; apply Rmult_comm]. }
    assert (Z : is_derive (fun t => sumn n (fun j => A t i j * x t j)) t0 0).
    { apply (is_derive_ext_loc (fun _ => b i)); [|apply (is_derive_const (b i))]. revert L. apply filter_imp. intros t [_ [_ X1]]. symmetry. now apply X1. }
    rewrite <- (is_derive_unique _ _ _ Y). apply (is_derive_unique _ _ _ Z). }
  evar_last.
  - apply (is_derive_sumn n (fun i t => b i * x t i) (fun i => b i * x' i)). intros i Hi. apply (is_derive_scal (fun t => x t i)). now apply DX.
  - rewrite (sumn_ext n _ (fun i => sumn n (fun j => x t0 j * (A t0 j i * x' i)))).
    2:{ intros i Hi. rewrite <- (X0 i Hi), <- sumn_scale_r. apply sumn_ext. intros j Hj. rewrite (S0 i j) by auto. ring. }
    rewrite sumn_swap. rewrite (sumn_ext n _ (fun j => - sumn n (fun i => x t0 j * A' j i * x t0 i))).
    2:{ intros j Hj. rewrite sumn_scale. assert (E := EQ j Hj). rewrite sumn_plus in E. rewrite (sumn_ext n (fun i => x t0 j * A' j i * x t0 i) (fun i => x t0 j * (A' j i * x t0 i))) by (intros; ring).
        rewrite sumn_scale. replace (sumn n (fun j0 => A t0 j j0 * x' j0)) with (- sumn n (fun j0 => A' j j0 * x t0 j0)) by lra. ring. }
    rewrite (sumn_ext n _ (fun j => -1 * sumn n (fun i => x t0 j * A' j i * x t0 i))) by (intros; ring). rewrite sumn_scale. match goal with |- ?a = ?b => change (@eq R a b) end. ring.
Qed.
