(** Conditionally positive alignment matrices. *)
From Coquelicot Require Import Coquelicot.
From Coq Require Import Reals Lra Lia List.
From Verif Require Import M_RBase P_RBase S_Psd P_Psd M_Fake M_OrdProbit M_Select M_Info P_Info M_Acq S_Acq P_Acq P_Acq2 M_Normal M_PrefProbit P_Normal.
From Coq Require Import Reals Lra Lia List.
From Verif Require Import S_Psd P_Psd.
Local Open Scope R_scope.

Lemma cpsd_ext n A B : (forall i j, (i < n)%nat -> (j < n)%nat -> A i j = B i j) -> conditionally_psd n A -> conditionally_psd n B.
Proof. intros H P c Hc. rewrite <- (qform_ext n A B c c H) by auto. now apply P. Qed.
Lemma cpsd_limit n (A : nat -> nat -> nat -> R) (B : nat -> nat -> R) : (forall k, conditionally_psd n (A k)) ->
  (forall i j, (i < n)%nat -> (j < n)%nat -> is_lim_seq (fun k => A k i j) (B i j)) -> conditionally_psd n B.
Proof.
  intros HA HL c Hc. assert (L : is_lim_seq (fun k => qform n (A k) c) (qform n B c)).
  { unfold qform. apply (is_lim_seq_sumn n (fun k i => sumn n (fun j => c i * c j * A k i j)) (fun i => sumn n (fun j => c i * c j * B i j))).
    intros i Hi. apply (is_lim_seq_sumn n (fun k j => c i * c j * A k i j) (fun j => c i * c j * B i j)). intros j Hj.
    apply (is_lim_seq_scal_l (fun k => A k i j) (c i * c j) (B i j)). now apply HL. }
  apply (is_lim_seq_le (fun _ => 0) (fun k => qform n (A k) c) 0 (qform n B c)); auto; [intro k; now apply HA|apply is_lim_seq_const].
Qed.
Lemma cpsd_scale n A a : 0 <= a -> conditionally_psd n A -> conditionally_psd n (fun i j => a * A i j).
Proof. intros Ha HA c Hc. rewrite qform_scale. specialize (HA c Hc). nra. Qed.
Lemma psd_cpsd n A : psd n A -> conditionally_psd n A.
Proof. intros H c _. apply H. Qed.
Lemma cpsd_shift n A d : psd n A -> conditionally_psd n (fun i j => A i j - d).
Proof.
  intros H c Hc. replace (qform n (fun i j => A i j - d) c) with (qform n A c - d * (sumn n c * sumn n c)).
  - rewrite Hc. specialize (H c). lra.
  - unfold qform. rewrite sumn_prod, <- sumn_scale, <- sumn_minus. apply sumn_ext. intros i _. rewrite <- sumn_scale, <- sumn_minus. apply sumn_ext. intros; ring.
Qed.

(** 1 - sqrt (1 - s) as a limit of polynomials with positive coefficients *)
Fixpoint sq_iter (n : nat) (s : R) : R := match n with 0%nat => 0 | S n' => (s + sq_iter n' s * sq_iter n' s) / 2 end.
Lemma sq_iter_range n s : Rabs s <= 1 -> Rabs (sq_iter n s) <= 1.
Proof.
  intro H. induction n as [|n IH]; cbn; [rewrite Rabs_R0; lra|]. apply Rabs_le_between in H. apply Rabs_le_between in IH. apply Rabs_le. nra.
Qed.
Lemma sq_iter_lim s t : 0 <= t -> t < 1 -> Rabs s <= t -> is_lim_seq (fun n => sq_iter n s) (1 - sqrt (1 - s)).
Proof.
  intros Ht0 Ht Hs. apply Rabs_le_between in Hs. set (y := 1 - sqrt (1 - s)).
  assert (Sp := sqrt_sqrt (1 - s) ltac:(lra)). assert (Sy : (s + y * y) / 2 = y) by (unfold y; nra).
  assert (St := sqrt_lt_R0 (1 - t) ltac:(lra)). assert (L1 : sqrt (1 - t) <= sqrt (1 - s)) by (apply sqrt_le_1_alt; lra).
  assert (L2 : sqrt (1 - s) < 3/2) by (assert (0 <= sqrt (1 - s)) by apply sqrt_pos; nra).
  set (q := Rmax (1 - sqrt (1 - t)) (1/2)). assert (Hq : 0 <= q < 1) by (unfold q, Rmax; destruct (Rle_dec _ _); lra).
  assert (Hy : Rabs y <= q). { apply Rabs_le. assert (Q1 := Rmax_l (1 - sqrt (1 - t)) (1/2)). assert (Q2 := Rmax_r (1 - sqrt (1 - t)) (1/2)). fold q in Q1, Q2. unfold y. lra. }
  set (r := (1 + q) / 2).
  assert (E : forall n, Rabs (sq_iter n s - y) <= r ^ n).
  { induction n as [|n IH].
    - cbn. rewrite Rminus_0_l, Rabs_Ropp. lra.
    - cbn [sq_iter pow]. replace ((s + sq_iter n s * sq_iter n s) / 2 - y) with ((sq_iter n s + y) / 2 * (sq_iter n s - y)) by (rewrite <- Sy at 3; field).
      rewrite Rabs_mult. apply Rmult_le_compat; try apply Rabs_pos; auto. unfold r, Rdiv. rewrite Rabs_mult, (Rabs_right (/2)) by lra.
      apply Rmult_le_compat_r; [lra|]. eapply Rle_trans; [apply Rabs_triang|]. assert (K := sq_iter_range n s).
      assert (Rabs s <= 1) by (apply Rabs_le; lra). specialize (K H). lra. }
  assert (G : is_lim_seq (fun n => r ^ n) 0). { apply is_lim_seq_geom. unfold r. rewrite Rabs_right; lra. }
  apply (is_lim_seq_ext (fun n => (sq_iter n s - y) + y)); [intro; ring|]. replace (Finite y) with (Finite (0 + y)) by (f_equal; ring).
  apply is_lim_seq_plus'; [|apply is_lim_seq_const]. apply is_lim_seq_abs_0. apply (is_lim_seq_le_le (fun _ => 0) _ (fun n => r ^ n)); auto; [|apply is_lim_seq_const].
  intro n. split; [apply Rabs_pos|apply E].
Qed.
Lemma psd_sq_iter n A k : symmetric n A -> psd n A -> symmetric n (fun i j => sq_iter k (A i j)) /\ psd n (fun i j => sq_iter k (A i j)).
Proof.
  intros HS HP. induction k as [|k [IS IP]].
  - split; [intros i j _ _; reflexivity|]. intro c. unfold qform. cbn. rewrite sumn_zero; [lra|]. intros i _. apply sumn_zero. intros; ring.
  - split; [intros i j Hi Hj; cbn; now rewrite (IS i j Hi Hj), (HS i j Hi Hj)|].
    apply (psd_ext n (fun i j => / 2 * (A i j + sq_iter k (A i j) * sq_iter k (A i j)))); [intros; cbn; field|].
    apply psd_scale; [lra|]. apply psd_plus; auto. now apply psd_schur_product.
Qed.
Lemma cpsd_sqrt n A t : symmetric n A -> psd n A -> 0 <= t -> t < 1 -> (forall i j, (i < n)%nat -> (j < n)%nat -> Rabs (A i j) <= t) ->
  conditionally_psd n (fun i j => - sqrt (1 - A i j)).
Proof.
  intros HS HP H0 H1 Hb. apply (cpsd_ext n (fun i j => (1 - sqrt (1 - A i j)) - 1)); [intros; ring|]. apply cpsd_shift.
  apply (psd_limit n (fun k i j => sq_iter k (A i j))); [intro k; now apply psd_sq_iter|]. intros i j Hi Hj. apply sq_iter_lim with t; auto.
Qed.
Lemma lim_inv : is_lim_seq (fun k => / INR (S k)) 0.
Proof.
  apply (is_lim_seq_incr_1 (fun k => / INR k)). replace (Finite 0) with (Rbar_inv p_infty) by reflexivity. apply is_lim_seq_inv; [apply is_lim_seq_INR|discriminate].
Qed.
Lemma inv_range k : 0 < / INR (S k) <= 1.
Proof.
  assert (P : 0 < INR (S k)) by (apply lt_0_INR; lia). split; [now apply Rinv_0_lt_compat|]. rewrite <- Rinv_1. apply Rinv_le_contravar; [lra|].
  rewrite S_INR. assert (K := pos_INR k). lra.
Qed.
Lemma cpsd_sqrt1 n A : symmetric n A -> psd n A -> (forall i j, (i < n)%nat -> (j < n)%nat -> Rabs (A i j) <= 1) ->
  conditionally_psd n (fun i j => - sqrt (1 - A i j)).
Proof.
  intros HS HP Hb. apply (cpsd_limit n (fun k i j => - sqrt (1 - (1 - / INR (S k)) * A i j))).
  - intro k. assert (K := inv_range k). apply (cpsd_sqrt n (fun i j => (1 - / INR (S k)) * A i j) (1 - / INR (S k))).
    + intros i j Hi Hj. now rewrite (HS i j Hi Hj).
    + apply psd_scale; [lra|auto].
    + lra.
    + lra.
    + intros i j Hi Hj. rewrite Rabs_mult, (Rabs_right (1 - _)) by lra. specialize (Hb i j Hi Hj). assert (P := Rabs_pos (A i j)). nra.
  - intros i j Hi Hj. apply (is_lim_seq_opp (fun k => sqrt (1 - (1 - / INR (S k)) * A i j)) (sqrt (1 - A i j))).
    apply (is_lim_seq_continuous sqrt (fun k => 1 - (1 - / INR (S k)) * A i j)).
    + apply continuity_pt_sqrt. specialize (Hb i j Hi Hj). apply Rabs_le_between in Hb. lra.
    + replace (Finite (1 - A i j)) with (Finite (1 - (1 - 0) * A i j)) by (f_equal; ring).
      apply is_lim_seq_minus'; [apply is_lim_seq_const|]. apply is_lim_seq_mult'; [|apply is_lim_seq_const].
      apply is_lim_seq_minus'; [apply is_lim_seq_const|apply lim_inv].
Qed.

(** Euclidean distances *)
Definition gram (d : nat) (v : nat -> nat -> R) (i j : nat) : R := sumn d (fun m => v i m * v j m).
Lemma gram_sym d v i j : gram d v i j = gram d v j i.
Proof. apply sumn_ext. intros; ring. Qed.
Lemma gram_psd n d v : psd n (gram d v).
Proof. apply (psd_sum n d (fun m i j => v i m * v j m)). intros m _. apply (psd_rank1 n (fun i => v i m)). Qed.
Definition sqd (d : nat) (v : nat -> nat -> R) (i j : nat) : R := sumn d (fun m => (v i m - v j m) * (v i m - v j m)).
Lemma sqd_gram d v i j : sqd d v i j = gram d v i i + gram d v j j - 2 * gram d v i j.
Proof. unfold sqd, gram. rewrite <- sumn_plus, <- sumn_scale, <- sumn_minus. apply sumn_ext. intros; ring. Qed.
Lemma sqd_nonneg d v i j : 0 <= sqd d v i j.
Proof. apply sumn_nonneg. intros. apply Rle_0_sqr. Qed.
Lemma sqd_sym d v i j : sqd d v i j = sqd d v j i.
Proof. apply sumn_ext. intros; ring. Qed.
Lemma gauss_psd n d v e : 0 <= e -> psd n (fun i j => exp (- (e * sqd d v i j))).
Proof.
  intro He. apply (psd_ext n (fun i j => exp (- (e * gram d v i i)) * exp (- (e * gram d v j j)) * exp (2 * e * gram d v i j))).
  - intros i j _ _. rewrite <- !exp_plus. f_equal. rewrite sqd_gram. ring.
  - apply (psd_diag_congr n (fun i j => exp (2 * e * gram d v i j)) (fun i => exp (- (e * gram d v i i)))).
    apply psd_exp; [intros i j _ _; now rewrite gram_sym|]. apply psd_scale; [lra|apply gram_psd].
Qed.
Lemma exp_bounds x : 0 <= x -> x - x * x <= 1 - exp (- x) <= x.
Proof.
  intro H. split.
  - assert (K : 1 + x <= exp x) by apply exp_ineq1_le. rewrite exp_Ropp. assert (P : / exp x <= / (1 + x)) by (apply Rinv_le_contravar; lra).
    assert (Q : / (1 + x) <= 1 - x + x * x). { apply (Rmult_le_reg_r (1 + x)); [lra|]. rewrite Rinv_l by lra. assert (0 <= x * x * x) by (apply Rmult_le_pos; [apply Rle_0_sqr|auto]). nra. }
    lra.
  - assert (K : 1 + - x <= exp (- x)) by apply exp_ineq1_le. lra.
Qed.
Lemma cpsd_distance n d v : conditionally_psd n (fun i j => - sqrt (sqd d v i j)).
Proof.
  apply (cpsd_limit n (fun k i j => sqrt (INR (S k)) * - sqrt (1 - exp (- (/ INR (S k) * sqd d v i j))))).
  - intro k. assert (K := inv_range k). apply cpsd_scale; [apply sqrt_pos|]. apply cpsd_sqrt1.
    + intros i j _ _. now rewrite sqd_sym.
    + apply gauss_psd. lra.
    + intros i j _ _. rewrite Rabs_right by (apply Rle_ge, Rlt_le, exp_pos). assert (P := sqd_nonneg d v i j). assert (Q : 0 <= / INR (S k) * sqd d v i j) by (apply Rmult_le_pos; lra).
      destruct (exp_bounds _ Q) as [B1 B2]. assert (Z := exp_ineq1_le (/ INR (S k) * sqd d v i j)). rewrite exp_Ropp. apply Rle_trans with (/ 1); [apply Rinv_le_contravar; lra|lra].
  - intros i j _ _. set (D := sqd d v i j). assert (PD : 0 <= D) by apply sqd_nonneg.
    apply (is_lim_seq_ext (fun k => - sqrt (INR (S k) * (1 - exp (- (/ INR (S k) * D)))))).
    { intro k. rewrite sqrt_mult_alt by (apply pos_INR). ring. }
    apply (is_lim_seq_opp (fun k => sqrt (INR (S k) * (1 - exp (- (/ INR (S k) * D))))) (sqrt D)).
    apply (is_lim_seq_continuous sqrt (fun k => INR (S k) * (1 - exp (- (/ INR (S k) * D))))); [now apply continuity_pt_sqrt|].
    apply (is_lim_seq_le_le (fun k => D - / INR (S k) * (D * D)) _ (fun _ => D)).
    + intro k. assert (K := inv_range k). assert (P : 0 < INR (S k)) by (apply lt_0_INR; lia). set (e := / INR (S k)) in *.
      assert (E : INR (S k) * e = 1) by (unfold e; now rewrite Rinv_r by lra). destruct (exp_bounds (e * D)) as [B1 B2]; [nra|].
      split.
      * replace (D - e * (D * D)) with (INR (S k) * (e * D - e * D * (e * D))); [apply Rmult_le_compat_l; lra|]. 
        replace (INR (S k) * (e * D - e * D * (e * D))) with (INR (S k) * e * (D - e * (D * D))) by ring. rewrite E. ring.
      * replace D with (INR (S k) * (e * D)) at 2 by (rewrite <- Rmult_assoc, E; ring). apply Rmult_le_compat_l; lra.
    + replace (Finite D) with (Finite (D - 0 * (D * D))) by (f_equal; ring). apply is_lim_seq_minus'; [apply is_lim_seq_const|].
      apply is_lim_seq_mult'; [apply lim_inv|apply is_lim_seq_const].
    + apply is_lim_seq_const.
Qed.

(** the three alignment functions *)
Definition row (rows : list (list R)) (i : nat) : list R := nth i rows nil.
Definition all_length (d : nat) (rows : list (list R)) : Prop := forall r, In r rows -> length r = d.
Lemma row_in rows i : (i < length rows)%nat -> In (row rows i) rows.
Proof. intro H. now apply nth_In. Qed.
Lemma dist2_sqd d (x y : list R) : length x = d -> length y = d -> dist2 x y = sqrt (sumn d (fun m => (nth m x 0 - nth m y 0) * (nth m x 0 - nth m y 0))).
Proof.
  intros Hx Hy. unfold dist2. f_equal. rewrite (rsum_zipw_nth _ x y) by congruence. rewrite Hx, <- sum_to_sumn. reflexivity.
Qed.
Lemma rho_cpsd d rows : all_length d rows -> conditionally_psd (length rows) (fun i j => rho_entry (row rows i) (row rows j)).
Proof.
  intro H. apply (cpsd_ext _ (fun i j => - sqrt (sqd d (fun i m => nth m (softmax (row rows i)) 0) i j))); [|apply cpsd_distance].
  intros i j Hi Hj. unfold rho_entry. rewrite dist2_sym. rewrite (dist2_sqd d); [reflexivity| |]; rewrite softmax_length; apply H; now apply row_in.
Qed.
Lemma corr_psd d rows : all_length d rows -> (forall r, In r rows -> not_constant r) ->
  psd (length rows) (fun i j => corr (row rows i) (row rows j)).
Proof.
  intros H N. set (nrm := fun i => / sqrt (dot d (cen (row rows i)) (cen (row rows i)))).
  apply (psd_ext _ (fun i j => nrm i * nrm j * gram d (fun i m => cen (row rows i) m) i j)).
  - intros i j Hi Hj. assert (Li := H _ (row_in rows i Hi)). assert (Lj := H _ (row_in rows j Hj)).
    assert (Ni := N _ (row_in rows i Hi)). assert (Nj := N _ (row_in rows j Hj)).
    destruct (corr_dot (row rows i) (row rows j)) as [E _]; auto; [congruence|]. rewrite E, Li. unfold nrm, gram, dot.
    assert (Pi := dot_pos _ Ni). assert (Pj := dot_pos _ Nj). rewrite Li in Pi. rewrite Lj in Pj. unfold dot in Pi, Pj.
    assert (Si := sqrt_lt_R0 _ Pi). assert (Sj := sqrt_lt_R0 _ Pj). field. lra.
  - apply (psd_diag_congr _ (gram d (fun i m => cen (row rows i) m)) nrm). apply gram_psd.
Qed.
Lemma corr_symmetric d rows : all_length d rows -> symmetric (length rows) (fun i j => corr (row rows i) (row rows j)).
Proof. intros H i j Hi Hj. apply corr_sym. rewrite (H _ (row_in rows i Hi)), (H _ (row_in rows j Hj)). reflexivity. Qed.
Lemma epic_cpsd d rows : all_length d rows -> (forall r, In r rows -> not_constant r) ->
  conditionally_psd (length rows) (fun i j => epic_entry (row rows i) (row rows j)).
Proof.
  intros H N. apply (cpsd_ext _ (fun i j => / sqrt 2 * - sqrt (1 - corr (row rows i) (row rows j)))).
  - intros i j _ _. unfold epic_entry. field. assert (S := sqrt2_pos). lra.
  - apply cpsd_scale; [apply Rlt_le, Rinv_0_lt_compat, sqrt2_pos|]. apply (cpsd_sqrt1 _ (fun i j => corr (row rows i) (row rows j))).
    + now apply corr_symmetric with d.
    + now apply corr_psd with d.
    + intros i j _ _. apply Rabs_le. apply corr_range.
Qed.
Lemma map_row (g : list R -> list R) rows i : (i < length rows)%nat -> row (map g rows) i = g (row rows i).
Proof. intro H. unfold row. rewrite (nth_indep (map g rows) nil (g nil)) by now rewrite map_length. apply map_nth. Qed.
Lemma spearman_cpsd d rows : all_length d rows -> (forall r, In r rows -> not_constant r) ->
  psd (length rows) (fun i j => spearman_entry (row rows i) (row rows j)).
Proof.
  intros H N. assert (K := corr_psd d (map rankdata rows)). rewrite map_length in K.
  apply (psd_ext _ (fun i j => corr (row (map rankdata rows) i) (row (map rankdata rows) j))).
  - intros i j Hi Hj. now rewrite !map_row.
  - apply K.
    + intros r Hr. apply in_map_iff in Hr. destruct Hr as [x [<- Hx]]. rewrite rankdata_length. now apply H.
    + intros r Hr. apply in_map_iff in Hr. destruct Hr as [x [<- Hx]]. now apply rank_not_constant, N.
Qed.
