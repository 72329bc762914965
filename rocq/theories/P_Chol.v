(** Cholesky decomposition and triangular solves. *)
From Coq Require Import Lra.
From Verif Require Import M_RBase P_RBase S_Psd P_Psd M_Acq P_Acq M_GP S_GP.
From Coq Require Import Reals Lra Lia List.
From Verif Require Import S_Psd P_Psd.
Import ListNotations.
Local Open Scope R_scope.

Definition shifted (A : mat) : mat := fun i j => A (S i) (S j).
Definition schur (A : mat) : mat := fun i j => A (S i) (S j) - A (S i) 0%nat * A (S j) 0%nat / A 0%nat 0%nat.
Lemma qform_first n A d : qform (S n) A d = d 0%nat * d 0%nat * A 0%nat 0%nat + d 0%nat * sumn n (fun i => d (S i) * A 0%nat (S i))
  + d 0%nat * sumn n (fun i => d (S i) * A (S i) 0%nat) + qform n (shifted A) (fun i => d (S i)).
Proof.
  unfold qform. rewrite sumn_first, sumn_first.
  rewrite (sumn_ext n (fun i => sumn (S n) (fun j => d (S i) * d j * A (S i) j)) (fun i => d 0%nat * (d (S i) * A (S i) 0%nat) + sumn n (fun j => d (S i) * d (S j) * A (S i) (S j)))).
  - rewrite sumn_plus, sumn_scale. rewrite (sumn_ext n (fun i => d 0%nat * d (S i) * A 0%nat (S i)) (fun i => d 0%nat * (d (S i) * A 0%nat (S i)))) by (intros; ring).
    rewrite sumn_scale. unfold shifted. ring.
  - intros i _. rewrite sumn_first. ring.
Qed.
Lemma schur_identity n A d : symmetric (S n) A -> A 0%nat 0%nat <> 0 ->
  qform (S n) A d = qform n (schur A) (fun i => d (S i))
    + A 0%nat 0%nat * (d 0%nat + sumn n (fun i => d (S i) * A (S i) 0%nat) / A 0%nat 0%nat) ^ 2.
Proof.
  intros HS Ha. rewrite qform_first. set (a := A 0%nat 0%nat) in *. set (s := sumn n (fun i => d (S i) * A (S i) 0%nat)).
  rewrite (sumn_ext n (fun i => d (S i) * A 0%nat (S i)) (fun i => d (S i) * A (S i) 0%nat)) by (intros i Hi; f_equal; apply HS; lia). fold s.
  assert (E : qform n (schur A) (fun i => d (S i)) = qform n (shifted A) (fun i => d (S i)) - s * s / a).
  { unfold qform, s. unfold Rdiv. rewrite sumn_prod, <- sumn_scale_r, <- sumn_minus. apply sumn_ext. intros i _. rewrite <- sumn_scale_r, <- sumn_minus. apply sumn_ext.
    intros j _. unfold schur, shifted. fold a. unfold Rdiv. ring. }
  rewrite E. field. exact Ha.
Qed.
Lemma zero_or_not n (c : nat -> R) : (exists i, (i < n)%nat /\ c i <> 0) \/ (forall i, (i < n)%nat -> c i = 0).
Proof.
  induction n as [|n [[i [Hi Hc]] | IH]]; [right; intros; lia|left; exists i; split; [lia|auto]|].
  destruct (Req_dec (c n) 0) as [E | E]; [right|left; exists n; split; [lia|auto]].
  intros i Hi. destruct (Nat.eq_dec i n) as [-> | Hn]; auto. apply IH. lia.
Qed.
Lemma pd_psd n A : pd n A -> psd n A.
Proof.
  intros H c. destruct (zero_or_not n c) as [K | K].
  - left. now apply H.
  - unfold qform. rewrite sumn_zero; [lra|]. intros i Hi. apply sumn_zero. intros j _. rewrite (K i Hi). ring.
Qed.
Lemma pd_head n A : pd (S n) A -> 0 < A 0%nat 0%nat.
Proof.
  intro H. specialize (H (fun k => if Nat.eqb k 0 then 1 else 0)). rewrite qform_first in H. cbn [Nat.eqb] in H.
  rewrite !sumn_zero in H by (intros; ring). assert (Z : qform n (shifted A) (fun _ => 0) = 0).
  { unfold qform. apply sumn_zero. intros. apply sumn_zero. intros. ring. }
  cbn in H. rewrite Z in H. assert (K := H). cut (0 < 1 * 1 * A 0%nat 0%nat + 1 * 0 + 1 * 0 + 0); [lra|]. apply K. exists 0%nat. split; [lia|]. cbn. lra.
Qed.
Lemma schur_sym n A : symmetric (S n) A -> symmetric n (schur A).
Proof. intros H i j Hi Hj. unfold schur. rewrite (H (S i) (S j)) by lia. unfold Rdiv. ring. Qed.
Lemma schur_pd n A : symmetric (S n) A -> pd (S n) A -> pd n (schur A).
Proof.
  intros HS HP c [i [Hi Hc]]. assert (Ha := pd_head n A HP).
  set (s := sumn n (fun i => c i * A (S i) 0%nat)). set (d := fun k => match k with O => - s / A 0%nat 0%nat | S k' => c k' end).
  assert (K : 0 < qform (S n) A d) by (apply HP; exists (S i); split; [lia|exact Hc]).
  rewrite schur_identity in K by (auto; lra). cbn [d] in K. fold s in K.
  replace (A 0%nat 0%nat * (- s / A 0%nat 0%nat + s / A 0%nat 0%nat) ^ 2) with 0 in K by (field; lra). rewrite Rplus_0_r in K. exact K.
Qed.
(** the decomposition exists exactly for positive definite matrices *)
Lemma chol_complete n : forall A, symmetric n A -> pd n A -> exists L, chol n A = Some L.
Proof.
  induction n as [|n IH]; intros A HS HP; [eexists; reflexivity|]. cbn [chol]. assert (Ha := pd_head n A HP).
  replace (Rltb 0 (A 0%nat 0%nat)) with true by (symmetry; now apply Rltb_true).
  destruct (IH (schur A) (schur_sym n A HS) (schur_pd n A HS HP)) as [L E]. unfold schur in E. rewrite E. eexists. reflexivity.
Qed.
Lemma chol_pd n : forall A L, symmetric n A -> chol n A = Some L -> pd n A.
Proof.
  induction n as [|n IH]; intros A L HS H c [i [Hi Hc]]; [lia|]. cbn [chol] in H. destruct (Rltb 0 (A 0%nat 0%nat)) eqn:Ha; [|discriminate]. apply Rltb_true in Ha.
  destruct (chol n _) as [L'|] eqn:E; [|discriminate]. fold (schur A) in E. assert (P := IH (schur A) L' (schur_sym n A HS) E).
  rewrite schur_identity by (auto; lra). set (t := c 0%nat + _ / _). destruct (zero_or_not n (fun i => c (S i))) as [K | K].
  - specialize (P (fun i => c (S i)) K). assert (Q : 0 <= t ^ 2) by apply pow2_ge_0. nra.
  - assert (Z : qform n (schur A) (fun i => c (S i)) = 0).
    { unfold qform. apply sumn_zero. intros u Hu. apply sumn_zero. intros. rewrite (K u Hu). ring. }
    rewrite Z. assert (T : t = c 0%nat). { unfold t. rewrite sumn_zero; [unfold Rdiv; ring|]. intros u Hu. rewrite (K u Hu). ring. }
    rewrite T. assert (C0 : c 0%nat <> 0). { destruct i as [|i]; auto. exfalso. apply Hc. apply K. lia. }
    assert (0 < c 0%nat ^ 2) by (rewrite <- Rsqr_pow2; now apply Rlt_0_sqr). nra.
Qed.
(** lower triangular with positive diagonal *)
Definition triangular (n : nat) (L : mat) : Prop := forall i, (i < n)%nat -> 0 < L i i /\ forall j, (i < j)%nat -> (j < n)%nat -> L i j = 0.
Lemma chol_spec n : forall A L, symmetric n A -> chol n A = Some L ->
  triangular n L /\ forall i j, (i < n)%nat -> (j < n)%nat -> sumn n (fun k => L i k * L j k) = A i j.
Proof.
  induction n as [|n IH]; intros A L HS H; [split; [intros i Hi; lia|intros; lia]|]. cbn [chol] in H. destruct (Rltb 0 (A 0%nat 0%nat)) eqn:Ha; [|discriminate]. apply Rltb_true in Ha.
  destruct (chol n _) as [L'|] eqn:E; [|discriminate]. fold (schur A) in E. destruct (IH (schur A) L' (schur_sym n A HS) E) as [T SP]. injection H as <-.
  assert (Q := sqrt_lt_R0 _ Ha). assert (QQ := sqrt_sqrt _ (Rlt_le _ _ Ha)). split.
  - intros [|i] Hi.
    + split; [exact Q|]. intros [|j] Hij Hj; [lia|reflexivity].
    + destruct (T i ltac:(lia)) as [T1 T2]. split; [exact T1|]. intros [|j] Hij Hj; [lia|]. apply T2; lia.
  - intros i j Hi Hj. rewrite sumn_first. destruct i as [|i], j as [|j].
    + rewrite sumn_zero by (intros; ring). lra.
    + rewrite sumn_zero by (intros; ring). rewrite (HS 0%nat (S j)) by lia. field. lra.
    + rewrite sumn_zero by (intros; ring). field. lra.
    + rewrite (SP i j) by lia. unfold schur. rewrite <- QQ at 3. field. lra.
Qed.
Lemma fwd_spec n : forall L b, triangular n L -> forall i, (i < n)%nat -> sumn n (fun j => L i j * fwd n L b j) = b i.
Proof.
  induction n as [|n IH]; intros L b T i Hi; [lia|]. cbn [fwd]. rewrite sumn_first. destruct (T 0%nat ltac:(lia)) as [P0 Z0].
  assert (T' : triangular n (fun i j => L (S i) (S j))).
  { intros u Hu. destruct (T (S u) ltac:(lia)) as [P Z]. split; [exact P|]. intros v Hv Hv'. apply Z; lia. }
  destruct i as [|i].
  - rewrite sumn_zero; [field; lra|]. intros j Hj. rewrite (Z0 (S j)) by lia. ring.
  - rewrite (IH (fun i j => L (S i) (S j)) (fun i => b (S i) - L (S i) 0%nat * (b 0%nat / L 0%nat 0%nat)) T' i) by lia. ring.
Qed.
Lemma bwd_spec n : forall L y, triangular n L -> forall i, (i < n)%nat -> sumn n (fun j => L j i * bwd n L y j) = y i.
Proof.
  induction n as [|n IH]; intros L y T i Hi; [lia|]. cbn [bwd]. rewrite sumn_first. destruct (T 0%nat ltac:(lia)) as [P0 Z0].
  assert (T' : triangular n (fun i j => L (S i) (S j))).
  { intros u Hu. destruct (T (S u) ltac:(lia)) as [P Z]. split; [exact P|]. intros v Hv Hv'. apply Z; lia. }
  destruct i as [|i].
  - rewrite sum_to_sumn. field. lra.
  - rewrite (Z0 (S i)) by lia. rewrite Rmult_0_l, Rplus_0_l. apply (IH (fun i j => L (S i) (S j)) (fun i => y (S i)) T' i). lia.
Qed.
Lemma cho_solve_spec n A L b : symmetric n A -> chol n A = Some L -> solves n A b (cho_solve n L b).
Proof.
  intros HS H i Hi. destruct (chol_spec n A L HS H) as [T E]. unfold cho_solve. set (y := fwd n L b). set (x := bwd n L y).
  rewrite (sumn_ext n (fun j => A i j * x j) (fun j => sumn n (fun k => L i k * (L j k * x j)))).
  - rewrite sumn_swap. rewrite (sumn_ext n _ (fun k => L i k * y k)).
    + apply fwd_spec; auto.
    + intros k Hk. rewrite sumn_scale. f_equal. apply bwd_spec; auto.
  - intros j Hj. rewrite <- (E i j) by auto. rewrite <- sumn_scale_r. apply sumn_ext. intros; ring.
Qed.
Lemma solves_unique n A b x x' : pd n A -> solves n A b x -> solves n A b x' -> forall i, (i < n)%nat -> x i = x' i.
Proof.
  intros HP Hx Hx' i Hi. set (d := fun j => x j - x' j). destruct (zero_or_not n d) as [K | K]; [|assert (Z := K i Hi); unfold d in Z; lra].
  exfalso. assert (P := HP d K). assert (Z : qform n A d = 0); [|lra]. unfold qform. apply sumn_zero. intros u Hu.
  rewrite (sumn_ext n _ (fun j => d u * (A u j * x j - A u j * x' j))) by (intros; unfold d; ring). rewrite sumn_scale, sumn_minus, (Hx u Hu), (Hx' u Hu). ring.
Qed.
