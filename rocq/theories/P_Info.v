(** Lemmas about mutual information. *)
From Coq Require Import Lra.
From Verif Require Import M_RBase P_RBase M_Util S_Util P_Util M_Select M_Fake S_Fake P_Fake2 M_Info S_Info.
Local Open Scope R_scope.

Lemma ln_le_sub1 x : 0 < x -> ln x <= x - 1.
Proof.
  intro Hx. destruct (Req_dec x 1) as [-> | Hn]; [rewrite ln_1; lra|].
  assert (K : exp (ln x) = x) by now apply exp_ln. assert (K2 : 1 + ln x <= exp (ln x)) by (apply exp_ineq1_le). lra.
Qed.
Lemma ln_lt_sub1 x : 0 < x -> x <> 1 -> ln x < x - 1.
Proof.
  intros Hx Hn. assert (K : exp (ln x) = x) by now apply exp_ln.
  assert (K2 : 1 + ln x < exp (ln x)). { apply exp_ineq1. intro E. apply Hn. rewrite <- K, E. apply exp_0. } lra.
Qed.
Lemma ln2_pos : 0 < ln 2.
Proof. rewrite <- ln_1. apply ln_increasing; lra. Qed.
(** one term of a relative entropy *)
Lemma kl_term p q : 0 < p -> 0 < q -> p - q <= p * ln (p / q).
Proof.
  intros Hp Hq. assert (K := ln_le_sub1 (q / p) (Rdiv_lt_0_compat _ _ Hq Hp)).
  replace (p / q) with (/ (q / p)) by (field; lra). rewrite ln_Rinv by (apply Rdiv_lt_0_compat; lra).
  assert (p * ln (q / p) <= p * (q / p - 1)) by (apply Rmult_le_compat_l; lra).
  replace (p * (q / p - 1)) with (q - p) in H by (field; lra). lra.
Qed.
Lemma kl_term_eq p q : 0 < p -> 0 < q -> p * ln (p / q) <= p - q -> p = q.
Proof.
  intros Hp Hq K. destruct (Req_dec p q) as [E | Hn]; auto. exfalso.
  assert (K2 : ln (q / p) < q / p - 1).
  { apply ln_lt_sub1; [now apply Rdiv_lt_0_compat|]. intro E. apply Hn. apply (f_equal (Rmult p)) in E. field_simplify in E; lra. }
  replace (p / q) with (/ (q / p)) in K by (field; lra). rewrite ln_Rinv in K by (apply Rdiv_lt_0_compat; lra).
  assert (p * ln (q / p) < p * (q / p - 1)) by (apply Rmult_lt_compat_l; lra).
  replace (p * (q / p - 1)) with (q - p) in H by (field; lra). lra.
Qed.
Lemma kl_nonneg {A} (p q : A -> R) l : (forall x, In x l -> 0 < p x /\ 0 < q x) -> rsum (map q l) <= rsum (map p l) ->
  0 <= rsum (map (fun x => p x * ln (p x / q x)) l).
Proof.
  intros Hp Hs. assert (K : rsum (map (fun x => p x - q x) l) <= rsum (map (fun x => p x * ln (p x / q x)) l)).
  { apply rsum_le. intros x Hx. apply kl_term; now apply Hp. }
  rewrite rsum_minus in K. lra.
Qed.
Lemma rsum_le_eq {A} (f g : A -> R) l : (forall x, In x l -> f x <= g x) -> rsum (map g l) <= rsum (map f l) ->
  forall x, In x l -> f x = g x.
Proof.
  induction l as [|y l IH]; [contradiction|]. cbn [map rsum]. intros Hle Hs x Hx.
  assert (H1 := Hle y (or_introl eq_refl)).
  assert (H2 : rsum (map f l) <= rsum (map g l)) by (apply rsum_le; intros; apply Hle; now right).
  destruct Hx as [<- | Hx]; [lra|]. apply IH; auto; [intros; apply Hle; now right|lra].
Qed.
Lemma kl_zero {A} (p q : A -> R) l : (forall x, In x l -> 0 < p x /\ 0 < q x) -> rsum (map q l) = rsum (map p l) ->
  rsum (map (fun x => p x * ln (p x / q x)) l) <= 0 -> forall x, In x l -> p x = q x.
Proof.
  intros Hp Hs H0 x Hx. apply kl_term_eq; try now apply Hp.
  assert (E : forall x, In x l -> p x - q x = p x * ln (p x / q x)).
  { apply (rsum_le_eq (fun x => p x - q x) (fun x => p x * ln (p x / q x)) l); [intros; apply kl_term; now apply Hp|].
    rewrite rsum_minus. lra. }
  rewrite <- E by auto. lra.
Qed.
(** sums over positions *)
Lemma rsum_nth {B} (h : B -> R) d l : rsum (map h l) = rsum (map (fun i => h (nth i l d)) (seq 0 (length l))).
Proof.
  induction l as [|x l IH]; [reflexivity|]. cbn [length map rsum]. rewrite IH. cbn [seq map rsum nth]. f_equal.
  rewrite <- seq_shift, map_map. reflexivity.
Qed.
Lemma rsum_zipw_nth (f : R -> R -> R) x : forall w, length x = length w ->
  rsum (zipw f x w) = rsum (map (fun i => f (nth i x 0) (nth i w 0)) (seq 0 (length x))).
Proof.
  induction x as [|a x IH]; intros [|b w] H; try discriminate; [reflexivity|]. cbn [length zipw rsum seq map nth]. f_equal.
  rewrite IH by now inversion H. rewrite <- seq_shift, map_map. reflexivity.
Qed.
Lemma nth_map_seq {B} (g : nat -> B) d n i : (i < n)%nat -> nth i (map g (seq 0 n)) d = g i.
Proof.
  intro H. rewrite (nth_indep _ d (g 0%nat)) by (rewrite map_length, seq_length; auto).
  rewrite (map_nth g). now rewrite seq_nth.
Qed.
Lemma col_sums_length n p : length (col_sums n p) = n.
Proof. unfold col_sums. now rewrite map_length, seq_length. Qed.
Lemma in_seq0 i n : In i (seq 0 n) <-> (i < n)%nat.
Proof. rewrite in_seq. lia. Qed.

Section mi.
Context (n : nat) (ps : list (list R)) (Hn : (0 < n)%nat) (Hne : ps <> []).
Hypothesis Hps : forall p, In p ps -> length p = n /\ distribution p.
Let M := INR (length ps).
Let x (p : list R) (i : nat) := nth i p 0.
Let m i := rsum (map (fun p => x p i) ps) / M.
Let sc := seq 0 n.

Lemma M_pos : 0 < M.
Proof. unfold M. apply lt_0_INR. destruct ps; [congruence|simpl; lia]. Qed.
Lemma x_pos p i : In p ps -> (i < n)%nat -> 0 < x p i.
Proof. intros Hp Hi. apply (Hps p Hp). apply nth_In. now rewrite (proj1 (Hps p Hp)). Qed.
Lemma x_sum p : In p ps -> rsum (map (x p) sc) = 1.
Proof. intro Hp. destruct (Hps p Hp) as [Hl [_ Hs]]. rewrite <- Hs. rewrite <- (map_id p) at 2. rewrite (rsum_nth (fun y => y) 0 p), Hl. reflexivity. Qed.
Lemma x_le1 p i : In p ps -> (i < n)%nat -> x p i <= 1.
Proof.
  intros Hp Hi. rewrite <- (x_sum p Hp).
  apply in_le_rsum; [apply Forall_forall; intros y Hy; apply in_map_iff in Hy; destruct Hy as [j [<- Hj]]; left; apply x_pos; auto; now apply in_seq0 in Hj|].
  apply in_map. now apply in_seq0.
Qed.
Lemma m_pos i : (i < n)%nat -> 0 < m i.
Proof.
  intro Hi. apply Rdiv_lt_0_compat; [|apply M_pos]. apply rsum_pos; [now apply map_nonempty|].
  intros y Hy. apply in_map_iff in Hy. destruct Hy as [p [<- Hp]]. now apply x_pos.
Qed.
Lemma m_sum : rsum (map m sc) = 1.
Proof.
  unfold m. rewrite <- (rsum_ext (fun i => / M * rsum (map (fun p => x p i) ps)) _ sc) by (intros; unfold Rdiv; ring).
  rewrite rsum_map_scale, rsum_swap. rewrite (rsum_ext _ (fun _ => 1) ps) by (intros p Hp; now apply x_sum).
  rewrite rsum_const. fold M. field. assert (K := M_pos). lra.
Qed.
Lemma m_le1 i : (i < n)%nat -> m i <= 1.
Proof.
  intro Hi. rewrite <- m_sum.
  apply in_le_rsum; [apply Forall_forall; intros y Hy; apply in_map_iff in Hy; destruct Hy as [j [<- Hj]]; left; apply m_pos; now apply in_seq0 in Hj|].
  apply in_map. now apply in_seq0.
Qed.
Lemma x_le_Mm p i : In p ps -> (i < n)%nat -> x p i <= M * m i.
Proof.
  intros Hp Hi. unfold m. replace (M * (rsum (map (fun p0 => x p0 i) ps) / M)) with (rsum (map (fun p0 => x p0 i) ps)) by (field; assert (K := M_pos); lra).
  apply in_le_rsum; [apply Forall_forall; intros y Hy; apply in_map_iff in Hy; destruct Hy as [q [<- Hq]]; left; now apply x_pos|].
  apply (in_map (fun q => x q i)). exact Hp.
Qed.
Definition kl p := rsum (map (fun i => x p i * ln (x p i / m i)) sc).
Definition gain := rsum (map kl ps) / (M * ln 2).

Lemma gain_code : rsum (map (fun row => rsum (zipw (fun y s => y * log2 (M * y / s)) row (col_sums n ps))) ps) / M = gain.
Proof.
  unfold gain. assert (K := M_pos). assert (K2 := ln2_pos).
  rewrite (rsum_ext _ (fun row => / ln 2 * kl row) ps).
  - rewrite rsum_map_scale. field. lra.
  - intros p Hp. destruct (Hps p Hp) as [Hl _]. rewrite rsum_zipw_nth by (now rewrite col_sums_length).
    unfold kl. rewrite <- rsum_map_scale, Hl. apply rsum_ext. intros i Hi. apply in_seq0 in Hi.
    unfold col_sums. rewrite nth_map_seq by auto. fold (x p i). unfold log2.
    replace (M * x p i / rsum (map (fun r => nth i r 0) ps)) with (x p i / m i); [field; lra|].
    change (rsum (map (fun r => nth i r 0) ps)) with (rsum (map (fun p0 => x p0 i) ps)).
    unfold m. assert (K3 := m_pos i Hi). unfold m in K3. set (T := rsum (map (fun p0 => x p0 i) ps)) in *. assert (HT : T <> 0) by (intro E; rewrite E in K3; unfold Rdiv in K3; lra). field; lra.
Qed.
Lemma entropy_row p : In p ps -> entropy_bits p = - rsum (map (fun i => x p i * ln (x p i)) sc) / ln 2.
Proof.
  intro Hp. unfold entropy_bits. rewrite (rsum_nth _ 0 p). rewrite (proj1 (Hps p Hp)). fold sc. assert (K := ln2_pos).
  rewrite (rsum_ext _ (fun i => / ln 2 * (x p i * ln (x p i))) sc) by (intros; unfold x; field; lra).
  rewrite rsum_map_scale. field. lra.
Qed.
Lemma entropy_mean : entropy_bits (mean_vec n ps) = - rsum (map (fun i => m i * ln (m i)) sc) / ln 2.
Proof.
  unfold entropy_bits, mean_vec. rewrite map_map. fold sc. assert (K := ln2_pos).
  rewrite (rsum_ext _ (fun i => / ln 2 * (m i * ln (m i))) sc).
  - rewrite rsum_map_scale. field. lra.
  - intros i _. assert (Em : mean (map (fun p => nth i p 0) ps) = m i) by (unfold mean; rewrite map_length; reflexivity). rewrite Em. field. lra.
Qed.
Lemma gain_mi : gain = mutual_information n ps.
Proof.
  unfold gain, mutual_information, mean. rewrite map_length. fold M. rewrite entropy_mean.
  assert (K := ln2_pos). assert (K2 := M_pos).
  rewrite (rsum_ext entropy_bits (fun p => - / ln 2 * rsum (map (fun i => x p i * ln (x p i)) sc)) ps)
    by (intros p Hp; rewrite entropy_row by auto; field; lra).
  rewrite rsum_map_scale.
  assert (E : rsum (map kl ps) = rsum (map (fun p => rsum (map (fun i => x p i * ln (x p i)) sc)) ps) - M * rsum (map (fun i => m i * ln (m i)) sc)).
  { transitivity (rsum (map (fun p => rsum (map (fun i => x p i * ln (x p i)) sc) - rsum (map (fun i => x p i * ln (m i)) sc)) ps)).
    - apply rsum_ext. intros p Hp. unfold kl. rewrite <- rsum_minus. apply rsum_ext. intros i Hi. apply in_seq0 in Hi.
      unfold Rdiv. rewrite ln_mult, ln_Rinv; [ring|now apply m_pos|now apply x_pos|apply Rinv_0_lt_compat; now apply m_pos].
    - rewrite rsum_minus. f_equal. rewrite rsum_swap. rewrite <- rsum_map_scale. apply rsum_ext. intros i Hi. apply in_seq0 in Hi.
      rewrite (rsum_ext _ (fun p => ln (m i) * x p i) ps) by (intros; ring). rewrite rsum_map_scale. unfold m at 2. field. lra. }
  rewrite E. field. lra.
Qed.
Lemma kl_ge0 p : In p ps -> 0 <= kl p.
Proof.
  intro Hp. apply kl_nonneg; [|rewrite x_sum, m_sum by auto; lra].
  intros i Hi. apply in_seq0 in Hi. split; [now apply x_pos|now apply m_pos].
Qed.
Lemma gain_ge0 : 0 <= gain.
Proof.
  unfold gain. assert (K := ln2_pos). assert (K2 := M_pos). apply Rmult_le_pos; [|left; apply Rinv_0_lt_compat; apply Rmult_lt_0_compat; auto].
  apply rsum_nonneg. intros y Hy. apply in_map_iff in Hy. destruct Hy as [p [<- Hp]]. now apply kl_ge0.
Qed.
Lemma xlnx_le0 y : 0 < y -> y <= 1 -> y * ln y <= 0.
Proof. intros H H1. assert (K := ln_le_sub1 y H). replace 0 with (y * 0) by ring. apply Rmult_le_compat_l; lra. Qed.
Lemma div_ln2_le a b : a <= b -> a / ln 2 <= b / ln 2.
Proof. intro H. assert (K := ln2_pos). unfold Rdiv. apply Rmult_le_compat_r; [left; now apply Rinv_0_lt_compat|auto]. Qed.
Lemma gain_le_n : gain <= log2 (INR n).
Proof.
  rewrite gain_mi. unfold mutual_information. assert (K := ln2_pos). assert (K2 := M_pos).
  assert (Hn' : 0 < INR n) by now apply lt_0_INR.
  assert (H1 : 0 <= mean (map entropy_bits ps)).
  { unfold mean. rewrite map_length. fold M. apply Rmult_le_pos; [|left; now apply Rinv_0_lt_compat].
    apply rsum_nonneg. intros y Hy. apply in_map_iff in Hy. destruct Hy as [p [<- Hp]]. rewrite entropy_row by auto.
    apply Rmult_le_pos; [|left; now apply Rinv_0_lt_compat]. apply Ropp_0_ge_le_contravar. apply Rle_ge.
    replace 0 with (rsum (map (fun _ : nat => 0) sc)) by (rewrite rsum_const; ring). apply rsum_le. intros i Hi. apply in_seq0 in Hi.
    apply xlnx_le0; [now apply x_pos|now apply x_le1]. }
  assert (H2 : entropy_bits (mean_vec n ps) <= log2 (INR n)).
  { rewrite entropy_mean. unfold log2. apply div_ln2_le.
    assert (Kl : 0 <= rsum (map (fun i => m i * ln (m i / / INR n)) sc)).
    { apply kl_nonneg; [intros i Hi; apply in_seq0 in Hi; split; [now apply m_pos|now apply Rinv_0_lt_compat]|].
      rewrite m_sum, rsum_const. unfold sc. rewrite seq_length. right. field. lra. }
    rewrite (rsum_ext _ (fun i => m i * ln (m i) + ln (INR n) * m i) sc) in Kl.
    - rewrite rsum_plus, rsum_map_scale, m_sum in Kl. lra.
    - intros i Hi. apply in_seq0 in Hi. unfold Rdiv. rewrite Rinv_inv, ln_mult; [ring|now apply m_pos|auto]. }
  lra.
Qed.
Lemma gain_le_M : gain <= log2 M.
Proof.
  unfold gain, log2. assert (K := ln2_pos). assert (K2 := M_pos).
  replace (rsum (map kl ps) / (M * ln 2)) with (rsum (map kl ps) / M / ln 2) by (field; lra). apply div_ln2_le.
  apply Rmult_le_reg_r with M; auto. replace (rsum (map kl ps) / M * M) with (rsum (map kl ps)) by (field; lra).
  replace (ln M * M) with (rsum (map (fun _ : list R => ln M) ps)) by (rewrite rsum_const; unfold M; ring).
  apply rsum_le. intros p Hp. unfold kl.
  replace (ln M) with (rsum (map (fun i => ln M * x p i) sc)) by (rewrite rsum_map_scale, x_sum by auto; ring).
  apply rsum_le. intros i Hi. apply in_seq0 in Hi. rewrite Rmult_comm. apply Rmult_le_compat_r; [left; now apply x_pos|].
  assert (P1 := x_pos p i Hp Hi). assert (P2 := m_pos i Hi). assert (P3 := x_le_Mm p i Hp Hi).
  assert (Q1 : x p i / m i <= M) by (apply Rmult_le_reg_r with (m i); auto; unfold Rdiv; rewrite Rmult_assoc, Rinv_l by lra; lra).
  destruct Q1 as [Q1|Q1]; [left; apply ln_increasing; auto; now apply Rdiv_lt_0_compat|rewrite Q1; lra].
Qed.
Lemma gain_zero : gain = 0 <-> forall p q, In p ps -> In q ps -> p = q.
Proof.
  assert (K := ln2_pos). assert (K2 := M_pos). split.
  - intros E. assert (E2 : rsum (map kl ps) = 0).
    { unfold gain in E. apply (Rmult_eq_compat_r (M * ln 2)) in E. unfold Rdiv in E. rewrite Rmult_assoc, Rinv_l, Rmult_0_l in E; [lra|].
      apply Rmult_integral_contrapositive_currified; lra. }
    assert (Z : forall p, In p ps -> 0 = kl p).
    { apply (rsum_le_eq (fun _ => 0) kl ps); [intros; now apply kl_ge0|]. rewrite E2, rsum_const. lra. }
    assert (Z2 : forall p i, In p ps -> (i < n)%nat -> x p i = m i).
    { intros p i Hp Hi. apply (kl_zero (x p) m sc); [|rewrite m_sum, x_sum by auto; auto|fold (kl p); rewrite <- Z by auto; lra|now apply in_seq0].
      intros j Hj. apply in_seq0 in Hj. split; [now apply x_pos|now apply m_pos]. }
    intros p q Hp Hq. destruct (Hps p Hp) as [Lp _]. destruct (Hps q Hq) as [Lq _]. apply (nth_ext p q 0 0); [congruence|].
    intros i Hi. rewrite Lp in Hi. change (x p i = x q i). rewrite !Z2; auto.
  - intros E. unfold gain. replace (rsum (map kl ps)) with 0; [unfold Rdiv; ring|].
    rewrite (rsum_ext kl (fun _ => 0) ps); [rewrite rsum_const; ring|]. intros p Hp. unfold kl.
    rewrite (rsum_ext _ (fun _ => 0) sc); [rewrite rsum_const; ring|]. intros i Hi. apply in_seq0 in Hi.
    assert (Em : m i = x p i).
    { unfold m. rewrite (rsum_ext _ (fun _ => x p i) ps) by (intros q Hq; now rewrite (E q p Hq Hp)). rewrite rsum_const. fold M. field. lra. }
    rewrite Em. assert (P1 := x_pos p i Hp Hi). unfold Rdiv. rewrite Rinv_r, ln_1 by lra. ring.
Qed.
End mi.
