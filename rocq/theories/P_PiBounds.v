(** Decimal bounds for pi, from the alternating series of the standard library. *)
From Coq Require Import Reals Machin Lra Lia QArith Qpower Qreals.
Local Open Scope R_scope.

Definition qpow (q : Q) (n : nat) : Q := Qred (Qpower q (Z.of_nat n)).
Definition qterm (n : nat) : Q :=
  Qred ((if Nat.even n then 1 else -1) * ((2 * qpow (1 # 3) (2 * n + 1) + qpow (1 # 7) (2 * n + 1)) * (1 # Pos.of_nat (2 * n + 1))))%Q.
Fixpoint qsum (n : nat) : Q := match n with O => qterm 0 | S m => Qred (qsum m + qterm (S m))%Q end.

Lemma qpow_R q n : ~ (q == 0)%Q -> Q2R (qpow q n) = Q2R q ^ n.
Proof.
  intro E. unfold qpow. rewrite (Qeq_eqR _ _ (Qred_correct _)). induction n as [|n IH].
  - change (Q2R 1 = 1). unfold Q2R. cbn. lra.
  - replace (Z.of_nat (S n)) with (1 + Z.of_nat n)%Z by lia.
    rewrite (Qeq_eqR _ _ (Qpower_plus q 1 (Z.of_nat n) E)), Q2R_mult, IH. cbn [Qpower Qpower_positive pow]. reflexivity.
Qed.
Lemma qterm_R n : Q2R (qterm n) = tg_alt PI_2_3_7_tg n.
Proof.
  unfold qterm, tg_alt, PI_2_3_7_tg, Ratan_seq. rewrite (Qeq_eqR _ _ (Qred_correct _)), !Q2R_mult, Q2R_plus, Q2R_mult, !qpow_R by discriminate.
  assert (S : Q2R (if Nat.even n then 1 else -1) = (-1) ^ n).
  { destruct (Nat.even n) eqn:E.
    - apply Nat.even_spec in E. destruct E as [m ->]. rewrite pow_1_even. unfold Q2R. cbn. lra.
    - assert (O : Nat.odd n = true) by (rewrite <- Nat.negb_even, E; reflexivity). apply Nat.odd_spec in O. destruct O as [m ->]. replace (2 * m + 1)%nat with (S (2 * m)) by lia. rewrite pow_1_odd. unfold Q2R. cbn. lra. }
  rewrite S. assert (T : Q2R (1 # 3) = / 3) by (unfold Q2R; cbn; lra). assert (V : Q2R (1 # 7) = / 7) by (unfold Q2R; cbn; lra). rewrite T, V.
  assert (I : Q2R (1 # Pos.of_nat (2 * n + 1)) = / INR (2 * n + 1)).
  { unfold Q2R. cbn [Qnum Qden]. rewrite INR_IZR_INZ. replace (Zpos (Pos.of_nat (2 * n + 1))) with (Z.of_nat (2 * n + 1)); [lra|].
    rewrite <- positive_nat_Z. f_equal. rewrite Nat2Pos.id by lia. reflexivity. }
  rewrite I. assert (W : Q2R 2 = 2) by (unfold Q2R; cbn; lra). rewrite W. unfold Rdiv. ring.
Qed.
Lemma qsum_R n : Q2R (qsum n) = sum_f_R0 (tg_alt PI_2_3_7_tg) n.
Proof. induction n as [|n IH]; cbn [qsum sum_f_R0]; [apply qterm_R|]. rewrite (Qeq_eqR _ _ (Qred_correct _)), Q2R_plus, IH, qterm_R. reflexivity. Qed.
Lemma pi_bounds : 3141592653589793238 / 1000000000000000000 <= PI <= 3141592653589793239 / 1000000000000000000.
Proof.
  destruct (PI_2_3_7_ineq 10) as [A B]. rewrite <- qsum_R in A, B. change (S (2 * 10)) with 21%nat in A. change (2 * 10)%nat with 20%nat in B.
  assert (L : Q2R (3141592653589793238 # 4000000000000000000) <= Q2R (qsum 21)) by (apply Qle_Rle, Qle_bool_iff; vm_compute; reflexivity).
  assert (U : Q2R (qsum 20) <= Q2R (3141592653589793239 # 4000000000000000000)) by (apply Qle_Rle, Qle_bool_iff; vm_compute; reflexivity).
  revert A B L U. generalize (Q2R (qsum 21)) (Q2R (qsum 20)). intros x y A B L U. unfold Q2R in L, U. cbn [Qnum Qden] in L, U. lra.
Qed.
