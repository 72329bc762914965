(** Likelihood and derivatives of ordinal labels in double precision. *)
From Coquelicot Require Import Coquelicot.
From Coq Require Import Reals ZArith Lra Lia List Bool Permutation.
From Flocq Require Import Core.
From Verif Require Import M_Base M_RBase M_Normal M_Hyper M_OrdProbit M_Float M_FloatProbit M_FloatOrd S_Float S_FloatProbit S_FloatOrd P_RBase P_Normal P_Float P_FloatProbit P_FloatOrd T_Float.
Import ListNotations.
Local Open Scope R_scope.

(** every label of the probit has a likelihood, a number between -1 and 1; that of the lowest category is positive *)
Theorem C169_label (o : ord_probit) (f : nat -> R) (y : nat * nat) : ordinary o f -> (1 <= fst y <= o_n o)%nat ->
  exists x, like_one_fl b64 o f y = Ok (Fin x) /\ -1 <= x <= 1 /\ (fst y = 1%nat -> bpow radix2 (-1074) <= x).
Proof. exact (like_label o f y). Qed.
(** where the likelihood is not below the threshold, both derivatives are numbers *)
Theorem C169_likely (o : ord_probit) (f : nat -> R) (eps : R) (k i : nat) (x : R) : ordinary o f -> bpow radix2 (-40) <= eps -> eps <= x ->
  finite (fst (ord_derv_fl b64 o eps k (f i) (Fin x))) /\ finite (snd (ord_derv_fl b64 o eps k (f i) (Fin x))).
Proof. exact (derv_likely o f eps k i x). Qed.
(** for the lowest and the highest category they always are *)
Theorem C169_ends (o : ord_probit) (f : nat -> R) (eps : R) (k i : nat) (x : R) : ordinary o f -> bpow radix2 (-40) <= eps -> k = 1%nat \/ k = o_n o ->
  finite (fst (ord_derv_fl b64 o eps k (f i) (Fin x))) /\ finite (snd (ord_derv_fl b64 o eps k (f i) (Fin x))).
Proof. exact (derv_ends o f eps k i x). Qed.
(** for the categories between, an unlikely label has no gradient *)
Theorem C169_middle_refuted (eps : R) (k : nat) (m : Z) : 0 < eps -> (2 <= k <= 4)%nat -> (1100 <= m <= 2 ^ 20)%Z ->
  exists l, like_one_fl b64 (mkOrd 5 1 [0; 1; 2; 3]) (fun _ => IZR m) (k, 0%nat) = Ok l /\ fst (ord_derv_fl b64 (mkOrd 5 1 [0; 1; 2; 3]) eps k (IZR m) l) = NaN.
Proof. exact (middle_nan eps k m). Qed.
(** one label of the lowest category has a log likelihood *)
Theorem C169_bottom (pr : list fval -> fval) (o : ord_probit) (f : nat -> R) (i : nat) : products b64 pr -> ordinary o f ->
  exists x, ord_loglik_fl b64 pr o [(1%nat, i)] f = Ok (Fin x) /\ -1074 <= x <= 0.
Proof. exact (bottom_loglik pr o f i). Qed.
(** a label of the highest category far above the value makes that of the whole data minus infinity *)
Theorem C169_top_refuted (pr : list fval -> fval) (o : ord_probit) (f : nat -> R) (y : list (nat * nat)) (i : nat) : products b64 pr -> ordinary o f -> labelled o y ->
  In (o_n o, i) y -> 96 * o_sigma o <= breakpoint o (o_n o - 1) - f i -> ord_loglik_fl b64 pr o y f = Ok NInf.
Proof. exact (top_loglik pr o f y i). Qed.
(** few labels, none too unlikely, have a log likelihood *)
Theorem C169_few (pr : list fval -> fval) (o : ord_probit) (f : nat -> R) (y : list (nat * nat)) (l : list fval) (k : Z) : products b64 pr -> like_each_fl b64 o y f = Ok l -> l <> [] ->
  (0 <= k)%Z -> (k * Z.of_nat (length l) <= 1074)%Z -> (forall v, In v l -> exists x, v = Fin x /\ bpow radix2 (- k) <= x <= 1) ->
  exists x, ord_loglik_fl b64 pr o y f = Ok (Fin x) /\ - IZR (k * Z.of_nat (length l)) <= x <= 0.
Proof. exact (few_loglik pr o f y l k). Qed.
(** 1076 labels of likelihood one half or less have none, in whatever order they are multiplied *)
Theorem C169_many_refuted (pr : list fval -> fval) (o : ord_probit) (f : nat -> R) (y : list (nat * nat)) (l : list fval) : products b64 pr -> like_each_fl b64 o y f = Ok l ->
  (1076 <= Z.of_nat (length y))%Z -> (forall v, In v l -> exists x, v = Fin x /\ 0 <= x <= 1 / 2) -> ord_loglik_fl b64 pr o y f = Ok NInf.
Proof. exact (many_loglik pr o f y l). Qed.
(** the sum of the logarithms, which [derivatives] returns, is a number for all these data *)
Theorem C169_sum (sm : list fval -> fval) (o : ord_probit) (f : nat -> R) (y : list (nat * nat)) (l : list fval) : sums b64 sm -> like_each_fl b64 o y f = Ok l -> l <> [] ->
  (Z.of_nat (length l) <= 2 ^ 40)%Z -> (forall v, In v l -> exists x, v = Fin x /\ bpow radix2 (-512) <= x <= 1) ->
  exists x, ord_sum_fl b64 sm o y f = Ok (Fin x) /\ - (512 * IZR (Z.of_nat (length l))) <= x <= 0.
Proof. exact (sum_finite sm o f y l). Qed.

(** ---- Examples ---- *)
Definition seq_prod (l : list fval) : fval := match l with [] => Fin 1 | x :: l' => fold_left (fmul b64) l' x end.
Lemma fold_mults l : forall l0 a, multiplies b64 l0 a -> multiplies b64 (l0 ++ l) (fold_left (fmul b64) l a).
Proof.
  induction l as [|x l IH]; intros l0 a H; cbn; [now rewrite app_nil_r|]. replace (l0 ++ x :: l) with ((l0 ++ [x]) ++ l) by now rewrite <- app_assoc. apply IH. eapply mult_two; [exact H|apply mult_one|reflexivity].
Qed.
Example C169_products_example : products b64 seq_prod.
Proof. intros [|x l] N; [contradiction|]. exact (fold_mults l [x] x (mult_one b64 x)). Qed.
Definition o5 : ord_probit := mkOrd 5 1 [0; 1; 2; 3].
Lemma pow100 : 1024 <= bpow radix2 100.
Proof. change 1024 with (bpow radix2 10). apply bpow_le. lia. Qed.
Lemma breakpoints5 k : 0 <= breakpoint o5 k <= 3.
Proof. unfold breakpoint. cbn [o5 o_b]. destruct k as [|[|[|[|[|[|k]]]]]]; cbn; try lra; destruct k; cbn; lra. Qed.
Lemma o5_ordinary f : (forall i, Rabs (f i) <= 1024) -> ordinary o5 f.
Proof.
  intro B. assert (P := pow100). split; [cbn; lia|]. split; [cbn [o5 o_sigma]; split; [change 1 with (bpow radix2 0); apply bpow_le; lia|lra]|]. split; [intro k; assert (K := breakpoints5 k); rewrite Rabs_right; lra|]. intro i. specialize (B i). lra.
Qed.
Example C169_label_example : ordinary o5 (fun _ => 0) /\ (1 <= fst (1%nat, 0%nat) <= o_n o5)%nat.
Proof. split; [apply o5_ordinary; intro; rewrite Rabs_R0; lra|cbn; lia]. Qed.
Example C169_likely_example : bpow radix2 (-40) <= / 2 /\ / 2 <= 3 / 4 /\ finite (fst (ord_derv_fl b64 o5 (/ 2) 3 0 (Fin (3 / 4)))) /\ finite (fst (ord_derv_fl b64 o5 (/ 2) 1 0 (Fin (1 / 4)))).
Proof.
  assert (E : bpow radix2 (-40) <= / 2) by (change (/ 2) with (bpow radix2 (-1)); apply bpow_le; lia). split; [exact E|]. split; [lra|]. split.
  - apply (C169_likely o5 (fun _ => 0) (/ 2) 3 0 (3 / 4)); [apply C169_label_example|exact E|lra].
  - apply (C169_ends o5 (fun _ => 0) (/ 2) 1 0 (1 / 4)); [apply C169_label_example|exact E|now left].
Qed.
Example C169_middle_example : exists l, like_one_fl b64 o5 (fun _ => 2000) (3%nat, 0%nat) = Ok l /\ fst (ord_derv_fl b64 o5 (/ 1000) 3 2000 l) = NaN.
Proof. apply (C169_middle_refuted (/ 1000) 3 2000); [lra|lia|lia]. Qed.
(** a rating of 5 for a value 100 below the last breakpoint, beside a rating of 1 *)
Example C169_top_example : ord_loglik_fl b64 seq_prod o5 [(1%nat, 0%nat); (5%nat, 0%nat)] (fun _ => -97) = Ok NInf /\ exists x, ord_loglik_fl b64 seq_prod o5 [(1%nat, 0%nat)] (fun _ => -97) = Ok (Fin x).
Proof.
  assert (Oo : ordinary o5 (fun _ => -97)) by (apply o5_ordinary; intro; rewrite Rabs_left; lra). split.
  - apply (C169_top_refuted seq_prod o5 _ _ 0 C169_products_example Oo); [intros k u [I|[I|[]]]; injection I as <- <-; cbn; lia|right; now left|]. unfold breakpoint. cbn. lra.
  - destruct (C169_bottom seq_prod o5 (fun _ => -97) 0 C169_products_example Oo) as (x & -> & _). now exists x.
Qed.
(** ratings of 1 at the first breakpoint have likelihood one half *)
Lemma half_like : like_one_fl b64 o5 (fun _ => 0) (1%nat, 0%nat) = Ok (Fin (1 / 2)).
Proof.
  unfold like_one_fl. cbn [fst snd Nat.sub]. unfold norm_cdf_fl. cbn [o5 o_n Nat.eqb Nat.ltb Nat.leb]. fold o5. assert (Z := int_oz 1 0 ltac:(lia) ltac:(lia)). change int_ord with o5 in Z. rewrite Z. cbn [bind]. unfold cdf_fl. cbn [fclip Z.of_nat Z.sub Z.add Z.opp Pos.of_succ_nat Z.pos_sub]. rewrite rclip_id by lra. rewrite ndtr_0.
  assert (H : rd b64 (1 / 2) = 1 / 2). { replace (1 / 2) with (IZR 1 * bpow radix2 (-1)) by (change (bpow radix2 (-1)) with (/ 2); lra). apply rd_scaled; lia. }
  assert (H2 : rnd b64 (1 / 2) = Fin (1 / 2)) by (destruct (rnd_unit b64 b64_rounding (1 / 2) ltac:(lra)) as [-> _]; now rewrite H). rewrite H2. unfold fsub. cbn [fneg fadd]. replace (1 / 2 + - 0) with (1 / 2) by lra. now rewrite H2.
Qed.
Lemma half_each n : like_each_fl b64 o5 (repeat (1%nat, 0%nat) n) (fun _ => 0) = Ok (repeat (Fin (1 / 2)) n).
Proof.
  unfold like_each_fl. assert (E : existsb (fun ku => Nat.eqb (fst ku) 0) (repeat (1%nat, 0%nat) n) = false) by (induction n; auto). rewrite E. clear E. induction n as [|n IH]; [reflexivity|]. cbn [repeat mapM]. rewrite half_like, IH. reflexivity.
Qed.
Example C169_many_example : ord_loglik_fl b64 seq_prod o5 (repeat (1%nat, 0%nat) (Z.to_nat 1076)) (fun _ => 0) = Ok NInf.
Proof.
  apply (C169_many_refuted _ _ _ _ _ C169_products_example (half_each _)); [rewrite repeat_length, Z2Nat.id; lia|]. intros v I. apply repeat_spec in I. subst v. exists (1 / 2). split; [reflexivity|lra].
Qed.
Example C169_few_example : exists x, ord_loglik_fl b64 seq_prod o5 (repeat (1%nat, 0%nat) (Z.to_nat 1074)) (fun _ => 0) = Ok (Fin x).
Proof.
  destruct (C169_few _ _ _ _ _ 1 C169_products_example (half_each (Z.to_nat 1074))) as (x & -> & _); [change (Z.to_nat 1074) with (S (Z.to_nat 1073)); discriminate|lia|rewrite repeat_length, Z2Nat.id; lia| |now exists x].
  intros v I. apply repeat_spec in I. subst v. exists (1 / 2). split; [reflexivity|]. change (bpow radix2 (- (1))) with (/ 2). lra.
Qed.
Example C169_sum_example : exists x, ord_sum_fl b64 right_sum o5 (repeat (1%nat, 0%nat) (Z.to_nat 1076)) (fun _ => 0) = Ok (Fin x).
Proof.
  destruct (C169_sum _ _ _ _ _ C152_sums_example (half_each (Z.to_nat 1076))) as (x & -> & _); [change (Z.to_nat 1076) with (S (Z.to_nat 1075)); discriminate|rewrite repeat_length, Z2Nat.id; lia| |now exists x].
  intros v I. apply repeat_spec in I. subst v. exists (1 / 2). split; [reflexivity|]. split; [|lra]. replace (1 / 2) with (bpow radix2 (-1)) by (change (bpow radix2 (-1)) with (/ 2); lra). apply bpow_le. lia.
Qed.
Print Assumptions C169_label.
Print Assumptions C169_likely.
Print Assumptions C169_ends.
Print Assumptions C169_middle_refuted.
Print Assumptions C169_bottom.
Print Assumptions C169_top_refuted.
Print Assumptions C169_few.
Print Assumptions C169_many_refuted.
Print Assumptions C169_sum.
