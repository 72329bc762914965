(** Lemmas about ratings computed from utilities. *)
From Coq Require Import Reals Lra Lia List ZArith.
From Verif Require Import M_Base M_RBase M_RateScore S_RateScore P_RBase.
Import ListNotations.
Local Open Scope R_scope.

Lemma last_range y pts : forall i idx, (-1 <= idx < i)%Z -> (idx <= last_below y i pts idx < i + Z.of_nat (length pts))%Z.
Proof.
  induction pts as [|p pts IH]; intros i idx H; cbn [last_below length]; [lia|].
  destruct (Rltb p y); [specialize (IH (i + 1)%Z i ltac:(lia))|specialize (IH (i + 1)%Z idx ltac:(lia))]; lia.
Qed.
Lemma last_mono y y' pts : y <= y' -> forall i idx idx', (idx <= idx' < i)%Z -> (last_below y i pts idx <= last_below y' i pts idx')%Z.
Proof.
  intro L. induction pts as [|p pts IH]; intros i idx idx' H; cbn [last_below]; [lia|].
  destruct (Rltb p y) eqn:E, (Rltb p y') eqn:E'; try (apply IH; lia).
  apply Rltb_true in E. apply Rltb_false in E'. lra.
Qed.
Lemma scores_ok lo hi ys : lo <> hi -> exists f, rating_scores lo hi ys = Ok (map f ys) /\
  (forall y, exists k, (k <= 5)%nat /\ f y = (2 * INR k - 1) / 10) /\ (forall y y', y <= y' -> f y <= f y').
Proof.
  intro H. exists (fun y => IZR (last_below y 0 (0 :: map (fun i => lo + INR i * ((hi - lo) / 5)) (seq 1 4)) (-1)) / 5 + 1 / 10). split; [|split].
  - unfold rating_scores, decision_pts. destruct (Req_EM_T lo hi); [contradiction|]. reflexivity.
  - intro y. pose proof (last_range y (0 :: map (fun i => lo + INR i * ((hi - lo) / 5)) (seq 1 4)) 0 (-1) ltac:(lia)) as B.
    set (z := last_below _ _ _ _) in *. cbn [length map seq] in B. exists (Z.to_nat (z + 1)). split; [lia|].
    rewrite INR_IZR_INZ, Z2Nat.id, plus_IZR by lia. lra.
  - intros y y' L. pose proof (last_mono y y' (0 :: map (fun i => lo + INR i * ((hi - lo) / 5)) (seq 1 4)) L 0 (-1) (-1) ltac:(lia)) as M. apply IZR_le in M. lra.
Qed.
Ltac rb := repeat match goal with |- context[Rltb ?a ?b] => destruct (Rltb a b) eqn:?; [match goal with H : Rltb _ _ = true |- _ => apply Rltb_true in H end|match goal with H : Rltb _ _ = false |- _ => apply Rltb_false in H end] end.
Lemma scores_bin lo hi k y : 0 <= lo -> lo < hi -> in_bin lo hi k y -> (k <= 4)%nat -> rating_scores lo hi [y] = Ok [(2 * INR k + 1) / 10].
Proof.
  intros H0 H [B1 B2] K. unfold rating_scores, decision_pts. destruct (Req_EM_T lo hi); [lra|]. cbn [bind map seq]. do 2 f_equal.
  assert (E : last_below y 0 (0 :: map (fun i => lo + INR i * ((hi - lo) / 5)) (seq 1 4)) (-1) = Z.of_nat k).
  { cbn [last_below map seq Z.add Pos.add].
    assert (K' : (k = 0 \/ k = 1 \/ k = 2 \/ k = 3 \/ k = 4)%nat) by lia.
    destruct K' as [->|[->|[->|[->| ->]]]]; cbn [bin_start INR Z.of_nat Pos.of_succ_nat Pos.succ] in *; (destruct B2 as [B2|[_ B2]]; [try discriminate B2|]);
      rb; cbn [INR] in *; try reflexivity; exfalso; cbn in *; lra || lia. }
  cbn [map seq] in E. rewrite E. rewrite <- INR_IZR_INZ. lra.
Qed.
Lemma scores_low lo hi y : lo < hi -> y <= 0 -> y <= lo + (hi - lo) / 5 -> rating_scores lo hi [y] = Ok [- (1 / 10)].
Proof.
  intros H H0 H1. unfold rating_scores, decision_pts. destruct (Req_EM_T lo hi); [lra|]. cbn [bind map seq last_below INR].
  rb; cbn [INR] in *; try (exfalso; lra). do 2 f_equal. cbn [Z.add]. lra.
Qed.
Lemma scores_negative lo hi : lo < 0 -> lo < hi -> exists y, lo < y < hi /\ rating_scores lo hi [y] = Ok [- (1 / 10)].
Proof.
  intros H0 H. destruct (Rle_dec 0 (lo + (hi - lo) / 5)) as [L|L].
  - exists (lo / 2 + Rmin 0 hi / 2). assert (Rmin 0 hi <= 0) by apply Rmin_l. assert (Rmin 0 hi <= hi) by apply Rmin_r. assert (lo < Rmin 0 hi) by (apply Rmin_glb_lt; lra).
    split; [lra|]. apply scores_low; lra.
  - exists (lo + (hi - lo) / 10). split; [lra|]. apply scores_low; lra.
Qed.
