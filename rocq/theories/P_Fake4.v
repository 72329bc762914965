(** Lemmas: the reward functions of M_Fake2. *)
From Verif Require Import M_Base M_RBase M_Fake2 S_Psd P_Psd.
From Coq Require Import Reals Lra Lia List.
Local Open Scope R_scope.

Definition cell_sum (f : R -> R -> R) (i j : nat) : R := sumn i (fun a => sumn j (fun b => f (tick (S a)) (tick (S b)))).
Lemma vals_0l f j : integrate_vals f 0 j = 0.
Proof. reflexivity. Qed.
Lemma vals_0r f i : integrate_vals f i 0 = 0.
Proof. destruct i; reflexivity. Qed.
Lemma vals_S f i j : integrate_vals f (S i) (S j) =
  integrate_vals f i (S j) + integrate_vals f (S i) j - integrate_vals f i j + f (tick (S i)) (tick (S j)) * grid_size.
Proof. reflexivity. Qed.
Lemma vals_sum f i : forall j, integrate_vals f i j = cell_sum f i j * grid_size.
Proof.
  induction i as [|i IHi]; intro j. { rewrite vals_0l. unfold cell_sum. simpl. ring. }
  induction j as [|j IHj].
  - rewrite vals_0r. unfold cell_sum. rewrite sumn_zero; [ring|]. intros; reflexivity.
  - rewrite vals_S, IHj, !IHi. unfold cell_sum. cbn [sumn]. rewrite sumn_plus. ring.
Qed.
Lemma static_sin_8 : static_sin 8 = 2 * exp (- (198 / 100)).
Proof. unfold static_sin. cbn zeta. replace (PI * (10 - 8 - 2) / 3) with 0 by field. rewrite cos_0. replace (99 / 100 * (10 - 8)) with (198 / 100) by field. ring. Qed.
Lemma static_sin_10 : static_sin 10 = -1.
Proof.
  unfold static_sin. cbn zeta. replace (PI * (10 - 10 - 2) / 3) with (- (2 * (PI / 3))) by field. rewrite cos_neg, cos_2PI3.
  replace (- (99 / 100 * (10 - 10))) with 0 by field. rewrite exp_0. field.
Qed.
Lemma sin_exp_bound w k ph x : Rabs (sin_exp w k ph x) <= exp (- rsum (map (fun ab : R * R => fst ab * snd ab) (combine x w))).
Proof.
  unfold sin_exp. cbn zeta. rewrite Rabs_mult. rewrite (Rabs_right (exp _)) by (left; apply exp_pos). rewrite <- (Rmult_1_l (exp _)) at 2.
  apply Rmult_le_compat_r; [left; apply exp_pos|]. apply Rabs_le. apply SIN_bound.
Qed.
Lemma integrate_sums f i j vals : integrate_init TwoD f = Ok vals ->
  vals i j = sumn i (fun a => sumn j (fun b => f (INR (S a) * (5 / 100)) (INR (S b) * (5 / 100)))) * (5 / 100).
Proof. intro H. injection H as <-. apply vals_sum. Qed.
Lemma integrate_area i j vals : (0 < i)%nat -> (0 < j)%nat -> integrate_init TwoD (fun _ _ => 1) = Ok vals ->
  vals i j = 20 * (tick i * tick j) /\ vals i j <> tick i * tick j.
Proof.
  intros Hi Hj H. injection H as <-. rewrite vals_sum. unfold cell_sum.
  assert (C : forall n c, sumn n (fun _ => c) = INR n * c). { induction n as [|n IH]; intro c; [simpl; ring|]. cbn [sumn]. rewrite IH, S_INR. ring. }
  rewrite (sumn_ext i _ (fun _ => INR j * 1)) by (intros; apply C). rewrite C. apply lt_0_INR in Hi, Hj. unfold tick, grid_size. split; [field|].
  assert (0 < INR i * INR j) by now apply Rmult_lt_0_compat. nra.
Qed.
Lemma static_decreases : static_sin 10 < static_sin 8.
Proof. rewrite static_sin_8, static_sin_10. assert (H := exp_pos (- (198 / 100))). lra. Qed.
