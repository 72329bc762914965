(** Lemmas about expected alignment. *)
From Coq Require Import Lra.
From Verif Require Import M_RBase P_RBase S_Psd P_Psd M_Fake M_OrdProbit M_Select M_Info P_Info P_Info2 P_Info3 M_Acq S_Acq.
From Coq Require Import Reals Lra Lia List.
Import ListNotations.
Local Open Scope R_scope.

Lemma sum_to_sumn n g : sum_to n g = sumn n g.
Proof.
  unfold sum_to. induction n as [|n IH]; [reflexivity|]. rewrite seq_S, map_app, rsum_app, IH. cbn. ring.
Qed.
Lemma fold_sum {A} (g : A -> R) l : forall s, fold_left (fun s i => s + g i) l s = s + rsum (map g l).
Proof. induction l as [|x l IH]; intro s; cbn; [ring|]. rewrite IH. ring. Qed.
Lemma fold_sum2 {A B} (g : A -> B -> R) l m : forall s,
  fold_left (fun s i => fold_left (fun s j => s + g i j) m s) l s = s + rsum (map (fun i => rsum (map (g i) m)) l).
Proof. induction l as [|x l IH]; intro s; cbn; [ring|]. rewrite IH, fold_sum. ring. Qed.
Lemma quick_expand M f p a b : quick_sum M f p a b = expand_sum M f p a b.
Proof.
  unfold quick_sum, expand_sum. rewrite (fold_sum2 (fun i j => f i j * p i a b * p j a b)). unfold sum_to. rewrite Rplus_0_l.
  apply rsum_ext. intros i _. apply rsum_ext. intros j _. ring.
Qed.
Definition ratio (M : nat) (f : nat -> nat -> R) (x : nat -> R) : R := qform M f x / (INR M * INR M) / (sumn M x / INR M).
Lemma expand_qform M f (x : nat -> R) : sum_to M (fun i => sum_to M (fun j => x j * x i * f i j)) = qform M f x.
Proof.
  rewrite sum_to_sumn. unfold qform. apply sumn_ext. intros i _. rewrite sum_to_sumn. apply sumn_ext. intros j _. ring.
Qed.
Lemma pair_E_ratio M n f p a b : pair_E M n f p a b = ratio M f (fun k => p k a b).
Proof.
  unfold pair_E, ratio. rewrite quick_expand. replace (if (1000 <? Z.of_nat (M * M * n * n))%Z then expand_sum M f p a b else expand_sum M f p a b) with (expand_sum M f p a b) by now destruct (_ <? _)%Z.
  unfold expand_sum. rewrite (expand_qform M f (fun k => p k a b)), sum_to_sumn. reflexivity.
Qed.
Lemma pair_align_ratio M n f p a b : pair_align M n f p a b = ratio M f (fun k => p k a b) + ratio M f (fun k => p k b a).
Proof. unfold pair_align. now rewrite !pair_E_ratio. Qed.
Lemma pair_align_size M n n' f p a b : pair_align M n f p a b = pair_align M n' f p a b.
Proof. now rewrite !pair_align_ratio. Qed.

Lemma INR_pos M : (0 < M)%nat -> 0 < INR M.
Proof. intro H. now apply lt_0_INR. Qed.
Lemma sumn_pos n x : (0 < n)%nat -> (forall k, (k < n)%nat -> 0 < x k) -> 0 < sumn n x.
Proof.
  intros Hn H. destruct n; [lia|]. cbn [sumn]. assert (0 <= sumn n x) by (apply sumn_nonneg; intros; apply Rlt_le, H; lia).
  assert (0 < x n) by (apply H; lia). lra.
Qed.
Lemma sumn_const n c : sumn n (fun _ => c) = INR n * c.
Proof. induction n as [|n IH]; [cbn; ring|]. cbn [sumn]. rewrite IH, S_INR. ring. Qed.
Lemma qform_bounds M f lo hi x : (forall i j, (i < M)%nat -> (j < M)%nat -> lo <= f i j <= hi) -> (forall k, (k < M)%nat -> 0 <= x k) ->
  lo * (sumn M x * sumn M x) <= qform M f x <= hi * (sumn M x * sumn M x).
Proof.
  intros Hf Hx. rewrite sumn_prod. unfold qform. rewrite <- !sumn_scale. split; apply sumn_le; intros i Hi; rewrite <- sumn_scale;
    apply sumn_le; intros j Hj; specialize (Hf i j Hi Hj); assert (T : 0 <= x i * x j) by (apply Rmult_le_pos; auto);
    set (t := x i * x j) in *; nra.
Qed.
Lemma ratio_bounds M f lo hi x : (0 < M)%nat -> (forall i j, (i < M)%nat -> (j < M)%nat -> lo <= f i j <= hi) ->
  (forall k, (k < M)%nat -> 0 < x k) -> lo * (sumn M x / INR M) <= ratio M f x <= hi * (sumn M x / INR M).
Proof.
  intros HM Hf Hx. assert (P := INR_pos M HM). assert (S := sumn_pos M x HM Hx).
  destruct (qform_bounds M f lo hi x Hf (fun k Hk => Rlt_le _ _ (Hx k Hk))) as [L U]. unfold ratio.
  assert (E : qform M f x / (INR M * INR M) / (sumn M x / INR M) = qform M f x / (INR M * sumn M x)) by (field; lra). rewrite E.
  assert (D : 0 < INR M * sumn M x) by now apply Rmult_lt_0_compat.
  split; apply (Rmult_le_reg_r (INR M * sumn M x)); auto; field_simplify; lra.
Qed.
(** the score of a pair is an average of alignments *)
Lemma pair_align_range M n f p a b lo hi : (0 < M)%nat -> (forall i j, (i < M)%nat -> (j < M)%nat -> lo <= f i j <= hi) ->
  answer_probabilities M p a b -> lo <= pair_align M n f p a b <= hi.
Proof.
  intros HM Hf Hp. rewrite pair_align_ratio. assert (P := INR_pos M HM).
  assert (A := ratio_bounds M f lo hi (fun k => p k a b) HM Hf (fun k Hk => proj1 (Hp k Hk))).
  assert (B := ratio_bounds M f lo hi (fun k => p k b a) HM Hf (fun k Hk => proj1 (proj2 (Hp k Hk)))).
  assert (E : sumn M (fun k => p k a b) / INR M + sumn M (fun k => p k b a) / INR M = 1).
  { unfold Rdiv. rewrite <- Rmult_plus_distr_r, <- sumn_plus. rewrite (sumn_ext M _ (fun _ => 1)) by (intros k Hk; apply Hp; auto).
    rewrite sumn_const. field. lra. }
  set (u := sumn M (fun k => p k a b) / INR M) in *. set (v := sumn M (fun k => p k b a) / INR M) in *.
  replace v with (1 - u) in * by lra. nra.
Qed.

(** splitting the samples by an answer never loses alignment *)
Lemma qform_sum n F x y : qform n F (fun i => x i + y i) = qform n F x + qform n F y + sumn n (fun i => sumn n (fun j => (x i * y j + y i * x j) * F i j)).
Proof.
  unfold qform. rewrite <- !sumn_plus. apply sumn_ext. intros i _. rewrite <- !sumn_plus. apply sumn_ext. intros j _. ring.
Qed.
Lemma qform_comb n F x y a b : qform n F (fun i => b * x i - a * y i) =
  b * b * qform n F x + a * a * qform n F y - a * b * sumn n (fun i => sumn n (fun j => (x i * y j + y i * x j) * F i j)).
Proof.
  unfold qform. rewrite <- !sumn_scale. rewrite <- sumn_plus, <- sumn_minus. apply sumn_ext. intros i _. rewrite <- !sumn_scale.
  rewrite <- sumn_plus, <- sumn_minus. apply sumn_ext. intros j _. ring.
Qed.
Lemma ratio_split n F x y : (0 < n)%nat -> conditionally_psd n F -> 0 < sumn n x -> 0 < sumn n y ->
  ratio n F (fun i => x i + y i) <= ratio n F x + ratio n F y.
Proof.
  intros Hn HF Hx Hy. assert (P := INR_pos n Hn). set (a := sumn n x) in *. set (b := sumn n y) in *.
  assert (K : 0 <= qform n F (fun i => b * x i - a * y i)).
  { apply HF. rewrite sumn_minus, !sumn_scale. fold a b. ring. }
  rewrite qform_comb in K. unfold ratio. rewrite qform_sum, sumn_plus. fold a b.
  set (C := sumn n (fun i => sumn n (fun j => (x i * y j + y i * x j) * F i j))) in *.
  set (X := qform n F x) in *. set (Y := qform n F y) in *.
  assert (D : 0 <= (b * b * X + a * a * Y - a * b * C) / (INR n * (a * b * (a + b)))).
  { apply Rmult_le_pos; [exact K|]. apply Rlt_le, Rinv_0_lt_compat. apply Rmult_lt_0_compat; auto. apply Rmult_lt_0_compat; [now apply Rmult_lt_0_compat|lra]. }
  match goal with |- ?u <= ?v => assert (E : (b * b * X + a * a * Y - a * b * C) / (INR n * (a * b * (a + b))) = v - u) by (field; lra) end.
  rewrite E in D. lra.
Qed.
Lemma ratio_ext n F x y : (forall i, (i < n)%nat -> x i = y i) -> ratio n F x = ratio n F y.
Proof. intro H. unfold ratio. rewrite (qform_ext n F F x y), (sumn_ext n x y); auto. Qed.
Lemma ratio_one n F : (0 < n)%nat -> ratio n F (fun _ => 1) = mean_entry n F.
Proof.
  intro Hn. assert (P := INR_pos n Hn). unfold ratio, mean_entry, qform. rewrite sumn_const.
  rewrite (sumn_ext n (fun i => sumn n (fun j => 1 * 1 * F i j)) (fun i => sumn n (F i))); [field; lra|].
  intros i _. apply sumn_ext. intros; ring.
Qed.
Lemma pair_align_gain M n f p a b : (0 < M)%nat -> conditionally_psd M f -> answer_probabilities M p a b ->
  mean_entry M f <= pair_align M n f p a b.
Proof.
  intros HM Hf Hp. rewrite pair_align_ratio, <- ratio_one by auto.
  rewrite <- (ratio_ext M f (fun k => p k a b + p k b a)) by (intros k Hk; apply Hp; auto).
  apply ratio_split; auto; apply sumn_pos; auto; intros k Hk; apply Hp; auto.
Qed.
(** equality for a query whose answer all samples predict alike *)
Lemma pair_align_uninformative M n f p a b c : (0 < M)%nat -> answer_probabilities M p a b -> (forall k, (k < M)%nat -> p k a b = c) ->
  pair_align M n f p a b = mean_entry M f.
Proof.
  intros HM Hp Hc. assert (P := INR_pos M HM). rewrite pair_align_ratio.
  assert (C0 := Hp 0%nat HM). rewrite (Hc 0%nat HM) in C0. destruct C0 as [C1 [C2 C3]].
  assert (Hd : forall k, (k < M)%nat -> p k b a = 1 - c) by (intros k Hk; specialize (Hp k Hk); rewrite (Hc k Hk) in Hp; lra).
  rewrite (Hd 0%nat HM) in C2.
  rewrite (ratio_ext M f (fun k => p k a b) (fun _ => c)) by auto. rewrite (ratio_ext M f (fun k => p k b a) (fun _ => 1 - c)) by auto.
  assert (R1 : forall d, 0 < d -> ratio M f (fun _ => d) = d * mean_entry M f).
  { intros d Hd'. unfold ratio, mean_entry, qform. rewrite sumn_const.
    assert (E : sumn M (fun i => sumn M (fun j => d * d * f i j)) = d * d * sumn M (fun i => sumn M (f i))).
    { rewrite <- sumn_scale. apply sumn_ext. intros i _. now rewrite sumn_scale. }
    rewrite E. field. lra. }
  rewrite !R1 by auto. ring.
Qed.

(** * greedy selection *)
Lemma nth_last {A} (l : list A) x d : nth (length l) (l ++ [x]) d = x.
Proof. rewrite app_nth2, Nat.sub_diag by auto. reflexivity. Qed.
Lemma greedy_p_length P prev c : length (greedy_p P prev c) = S (length prev).
Proof. unfold greedy_p. rewrite map_length, app_length, map_length, seq_length. cbn. lia. Qed.
Lemma greedy_p_pos P prev c : (forall a b, 0 < P a b) -> (forall x, In x (greedy_p P prev c) -> 0 < x) /\ rsum (greedy_p P prev c) = 1.
Proof.
  intro HP. unfold greedy_p. set (p0 := _ ++ _).
  assert (Hp0 : forall x, In x p0 -> 0 < x).
  { intros x Hx. apply in_app_or in Hx. destruct Hx as [Hx | [<- | []]].
    - apply in_map_iff in Hx. destruct Hx as [i [<- _]]. apply Rmult_lt_0_compat; auto. destruct (Nat.ltb 1 (length prev)); [|lra].
      apply rprod_pos. intros y Hy. apply in_map_iff in Hy. destruct Hy as [z [<- _]]. auto.
    - apply rprod_pos. intros y Hy. apply in_map_iff in Hy. destruct Hy as [z [<- _]]. auto. }
  assert (S0 : 0 < rsum p0). { apply rsum_pos; auto. unfold p0. destruct (map _ _); discriminate. }
  split; [|rewrite rsum_div; field; lra]. intros x Hx. apply in_map_iff in Hx. destruct Hx as [y [<- Hy]]. apply Rdiv_lt_0_compat; auto.
Qed.
Lemma greedy_align_ratio M f P prev c : greedy_align M f P prev c = sumn (S (length prev)) (fun q => ratio M f (fun k => nth q (greedy_p (P k) prev c) 0)).
Proof.
  unfold greedy_align. rewrite sum_to_sumn. apply sumn_ext. intros q _. cbn zeta.
  rewrite (expand_qform M f (fun k => nth q (greedy_p (P k) prev c) 0)), sum_to_sumn. reflexivity.
Qed.
Lemma sumn_nth l : sumn (length l) (fun q => nth q l 0) = rsum l.
Proof. rewrite <- sum_to_sumn. unfold sum_to. symmetry. rewrite <- (map_id l) at 1. rewrite (rsum_nth (fun x => x) 0 l). reflexivity. Qed.
Lemma greedy_sum P prev c : (forall a b, 0 < P a b) -> sumn (S (length prev)) (fun q => nth q (greedy_p P prev c) 0) = 1.
Proof. intro HP. rewrite <- (greedy_p_length P prev c), sumn_nth. now apply greedy_p_pos. Qed.
Lemma greedy_nth_pos P prev c q : (forall a b, 0 < P a b) -> (q < S (length prev))%nat -> 0 < nth q (greedy_p P prev c) 0.
Proof. intros HP Hq. apply (proj1 (greedy_p_pos P prev c HP)). apply nth_In. now rewrite greedy_p_length. Qed.
Lemma greedy_align_range M f P prev c lo hi : (0 < M)%nat -> (forall i j, (i < M)%nat -> (j < M)%nat -> lo <= f i j <= hi) ->
  (forall k a b, 0 < P k a b) -> lo <= greedy_align M f P prev c <= hi.
Proof.
  intros HM Hf HP. rewrite greedy_align_ratio. assert (PM := INR_pos M HM). set (s := S (length prev)).
  set (x := fun q k => nth q (greedy_p (P k) prev c) 0).
  assert (B : forall q, (q < s)%nat -> lo * (sumn M (x q) / INR M) <= ratio M f (x q) <= hi * (sumn M (x q) / INR M)).
  { intros q Hq. apply ratio_bounds; auto. intros k _. now apply greedy_nth_pos. }
  assert (E : sumn s (fun q => sumn M (x q) / INR M) = 1).
  { unfold Rdiv. rewrite sumn_scale_r, sumn_swap. rewrite (sumn_ext M _ (fun _ => 1)) by (intros k _; now apply greedy_sum).
    rewrite sumn_const. field. lra. }
  split.
  - rewrite <- (Rmult_1_r lo), <- E, <- sumn_scale. apply sumn_le. intros q Hq. now apply B.
  - rewrite <- (Rmult_1_r hi), <- E, <- sumn_scale. apply sumn_le. intros q Hq. now apply B.
Qed.
Lemma ratio_splits n F s : forall x : nat -> nat -> R, (0 < n)%nat -> (0 < s)%nat -> conditionally_psd n F -> (forall q, (q < s)%nat -> 0 < sumn n (x q)) ->
  0 < sumn n (fun k => sumn s (fun q => x q k)) /\
  ratio n F (fun k => sumn s (fun q => x q k)) <= sumn s (fun q => ratio n F (x q)).
Proof.
  induction s as [|s IH]; intros x Hn Hs HF Hx; [lia|]. destruct s as [|s].
  - cbn [sumn]. rewrite (ratio_ext n F _ (x 0%nat)) by (intros; ring). rewrite (sumn_ext n _ (x 0%nat)) by (intros; ring). split; [apply Hx; lia|lra].
  - destruct (IH x Hn ltac:(lia) HF) as [S1 R1]; [intros; apply Hx; lia|]. assert (S2 := Hx (S s) ltac:(lia)).
    change (sumn (S (S s)) (fun q => ratio n F (x q))) with (sumn (S s) (fun q => ratio n F (x q)) + ratio n F (x (S s))).
    split.
    + rewrite (sumn_ext n _ (fun k => sumn (S s) (fun q => x q k) + x (S s) k)) by reflexivity. rewrite sumn_plus. lra.
    + rewrite (ratio_ext n F _ (fun k => sumn (S s) (fun q => x q k) + x (S s) k)) by reflexivity.
      eapply Rle_trans; [apply ratio_split; auto|]. lra.
Qed.
Lemma greedy_align_gain M f P prev c : (0 < M)%nat -> conditionally_psd M f -> (forall k a b, 0 < P k a b) ->
  mean_entry M f <= greedy_align M f P prev c.
Proof.
  intros HM Hf HP. rewrite greedy_align_ratio, <- ratio_one by auto. set (x := fun q k => nth q (greedy_p (P k) prev c) 0).
  rewrite <- (ratio_ext M f (fun k => sumn (S (length prev)) (fun q => x q k))) by (intros k _; now apply greedy_sum).
  apply ratio_splits; auto; [lia|]. intros q Hq. apply sumn_pos; auto. intros k _. now apply greedy_nth_pos.
Qed.
(** a greedy query of two alternatives has the score of the pair *)
Lemma greedy_pair M n f P a c : (0 < M)%nat -> answer_probabilities M P a c -> greedy_align M f P [a] c = pair_align M n f P a c.
Proof.
  intros HM HP. rewrite greedy_align_ratio, pair_align_ratio. cbn [length sumn]. rewrite Rplus_0_l.
  assert (E : forall k, (k < M)%nat -> greedy_p (P k) [a] c = [P k a c; P k c a]).
  { intros k Hk. destruct (HP k Hk) as (_ & _ & S). unfold greedy_p. cbn. replace (1 * P k a c + (P k c a * 1 + 0)) with 1 by lra.
    f_equal; [field|f_equal; field]. }
  f_equal; apply ratio_ext; intros k Hk; rewrite E by auto; reflexivity.
Qed.
(** greedy selection returns a candidate with the largest score *)
Lemma acq_greedy_best M f P indicies prev d : indicies <> [] -> prev <> [] ->
  exists i v, acq_greedy true M f P indicies prev d = Ok (i, v) /\ In i indicies /\ v = greedy_align M f P prev i /\
    forall j, In j indicies -> greedy_align M f P prev j <= v.
Proof.
  intros Hi Hp. destruct (pick_best (fun i => Ok (greedy_align M f P prev i)) indicies Hi) as (i & v & E & Hin & Ev & Hb); [eauto|].
  exists i, v. split; [|split; [auto|split; [congruence|intros j Hj; now apply (Hb j)]]].
  unfold acq_greedy. destruct prev as [|q prev]; [congruence|]. cbn [negb].
  assert (Em : forall l, mapM (fun i => Ok (greedy_align M f P (q :: prev) i)) l = Ok (map (greedy_align M f P (q :: prev)) l)).
  { induction l as [|z l IH]; [reflexivity|]. cbn [mapM map]. rewrite IH. reflexivity. }
  rewrite Em in E. exact E.
Qed.
Lemma acq_greedy_first t M f P i0 ls d : acq_greedy t M f P (i0 :: ls) [] d = Raise IndexError.
Proof. reflexivity. Qed.

(** * the integrand of AbsAcquisition *)
Lemma integrand_ratio M f p : (0 < M)%nat -> (forall k, (k < M)%nat -> 0 < p k) -> pq_integrand M f p = ratio M f p.
Proof.
  intros HM Hp. assert (PM := INR_pos M HM). assert (Sp := sumn_pos M p HM Hp). unfold pq_integrand, fast_sum.
  rewrite (fold_sum2 (fun i j => f i j * p i * p j / (sum_to M p / INR M))). rewrite sum_to_sumn, Rplus_0_l.
  assert (E : rsum (map (fun i => rsum (map (fun j => f i j * p i * p j / (sumn M p / INR M)) (seq 0 M))) (seq 0 M)) = qform M f p / (sumn M p / INR M)).
  { rewrite <- expand_qform. unfold sum_to, Rdiv. rewrite (Rmult_comm (rsum _) (/ (sumn M p * / INR M))), <- rsum_map_scale. apply rsum_ext. intros i _.
    rewrite <- rsum_map_scale. apply rsum_ext. intros j _. ring. }
  rewrite E. unfold ratio. field. lra.
Qed.
Lemma integrand_bounds M f p lo hi : (0 < M)%nat -> (forall k, (k < M)%nat -> 0 < p k) ->
  (forall i j, (i < M)%nat -> (j < M)%nat -> lo <= f i j <= hi) ->
  lo * (sumn M p / INR M) <= pq_integrand M f p <= hi * (sumn M p / INR M).
Proof. intros HM Hp Hf. rewrite integrand_ratio by auto. now apply ratio_bounds. Qed.
