(** Lemmas for asking for ratings: the learner. *)
From Coquelicot Require Import Coquelicot.
From Coq Require Import Reals Lra Lia List Arith.
From Verif Require Import M_RBase M_Select M_Info M_Hyper M_AbsProbit M_Acq M_AbsAcq M_Beta S_AbsProbit S_Gamma S_Acq S_AbsAcq P_RBase P_PBest P_Gamma P_Gamma2 P_Gamma3 P_AbsProbit P_Acq P_Acq4 P_Acq6 P_Acq7 P_AbsAcq S_Psd P_Psd.
Import ListNotations.
Local Open Scope R_scope.

Section Rating.
Variables (a : abs_probit) (eps : R).
Hypotheses (Hv : 0 < a_v a) (He : 0 < eps < 1 / 2).
Definition rd (s : nat -> R) (k : nat) (q : R) : R := rating_density a eps s q k.
Lemma rd_dens s k q : rd s k q = dens (alpha a eps (s k)) (beta a eps (s k)) q.
Proof. reflexivity. Qed.
Lemma rd_pos s k q : 0 < rd s k q.
Proof. apply exp_pos. Qed.
Lemma rd_cont s k : cont01 (rd s k).
Proof. exact (dens_cont (alpha a eps (s k)) (beta a eps (s k))). Qed.
Lemma rd_near s k : near (rd s k) 1 1.
Proof. destruct (beta_params a eps (s k) Hv He) as [A [B _]]. exact (near_dens _ _ A B). Qed.
Lemma heard_G M f s q : (0 < M)%nat -> heard a eps M f s q = G M f (rd s) q.
Proof. intro HM. unfold heard, G. symmetry. apply (ratio_posterior M f (rating_density a eps s q) HM). apply Rgt_not_eq. apply sumn_pos; auto. intros. apply exp_pos. Qed.
Lemma heard_cont M f s : (0 < M)%nat -> cont01 (heard a eps M f s).
Proof. intro HM. apply (cont_ext (G M f (rd s))); [intros; symmetry; now apply heard_G|]. apply G_cont; auto; [intros; apply rd_cont|intros; apply rd_pos]. Qed.
Lemma after_near M f s l : (0 < M)%nat -> expected_after a eps M f s l <-> near (G M f (rd s)) l l.
Proof.
  intro HM. unfold expected_after. rewrite total_near by now apply heard_cont. split; apply near_ext; intros; [|symmetry]; now apply heard_G.
Qed.
Lemma after_ex M f s : (0 < M)%nat -> exists l, expected_after a eps M f s l.
Proof. intro HM. destruct (G_total M f (rd s) HM (fun k _ => rd_cont s k) (fun k x _ _ => rd_pos s k x) (fun k _ => rd_near s k)) as [l N]. exists l. now apply after_near. Qed.
Lemma after_unique M f s l l' : (0 < M)%nat -> expected_after a eps M f s l -> expected_after a eps M f s l' -> l = l'.
Proof. intros HM A B. apply after_near in A, B; auto. eapply near_unique; eauto. Qed.
Lemma after_range M f s l lo hi : (0 < M)%nat -> (forall i j, (i < M)%nat -> (j < M)%nat -> lo <= f i j <= hi) -> expected_after a eps M f s l -> lo <= l <= hi.
Proof. intros HM Hf A. apply after_near in A; auto. exact (G_total_bounds M f (rd s) HM (fun k _ => rd_cont s k) (fun k x _ _ => rd_pos s k x) (fun k _ => rd_near s k) lo hi l Hf A). Qed.
Lemma chance_pbar M s y z : (0 < M)%nat -> 0 < y -> y < z -> z < 1 -> chance_between a eps M s y z = RInt (pbar M (rd s)) y z.
Proof.
  intros HM Hy Hyz Hz. unfold chance_between. assert (E : forall k, abs_cdf true_special a eps z (s k) - abs_cdf true_special a eps y (s k) = RInt (rd s k) y z). { intro k. destruct (beta_params a eps (s k) Hv He) as [A [B _]]. destruct (cdf_inside _ _ A B) as [D _]. apply D; lra. }
  rewrite (sumn_ext M _ (fun k => RInt (rd s k) y z)) by (intros; apply E). symmetry.
  assert (K : forall n, is_RInt (fun x => sumn n (fun k => rd s k x)) y z (sumn n (fun k => RInt (rd s k) y z))).
  { induction n as [|n IH]; cbn [sumn].
    - assert (T := is_RInt_const (V := R_NormedModule) y z 0). change (scal (z - y) 0) with ((z - y) * 0) in T. rewrite Rmult_0_r in T. exact T.
    - apply (is_RInt_plus (V := R_NormedModule) (fun x => sumn n (fun k => rd s k x)) (rd s n)); [exact IH|]. apply (RInt_correct (V := R_CompleteNormedModule)). apply cont_int; [apply rd_cont|lra|lra]. }
  apply is_RInt_unique. unfold pbar. assert (T := is_RInt_scal (V := R_NormedModule) _ y z (/ INR M) _ (K M)). unfold Rdiv. rewrite Rmult_comm. revert T. apply is_RInt_ext. intros x _. change (/ INR M * sumn M (fun k => rd s k x) = sumn M (fun k => rd s k x) * / INR M). ring.
Qed.
Lemma heard_RInt M f s y z : (0 < M)%nat -> RInt (heard a eps M f s) y z = RInt (G M f (rd s)) y z.
Proof. intro HM. apply RInt_ext. intros. now apply heard_G. Qed.
Lemma after_cut M f s l B y z : (0 < M)%nat -> (forall i j, (i < M)%nat -> (j < M)%nat -> Rabs (f i j) <= B) -> expected_after a eps M f s l -> 0 < y -> y < z -> z < 1 ->
  Rabs (l - RInt (heard a eps M f s) y z) <= B * (1 - chance_between a eps M s y z).
Proof.
  intros HM Hf A Hy Hyz Hz. apply after_near in A; auto. rewrite heard_RInt, chance_pbar by auto. exact (G_cut M f (rd s) HM (fun k _ => rd_cont s k) (fun k x _ _ => rd_pos s k x) (fun k _ => rd_near s k) B l y z Hf A Hy Hyz Hz).
Qed.
Lemma chance_range M s y z : (0 < M)%nat -> 0 < y -> y < z -> z < 1 -> 0 < chance_between a eps M s y z < 1.
Proof.
  intros HM Hy Hyz Hz. rewrite chance_pbar by auto. assert (Cp := pbar_cont M (rd s) (fun k _ => rd_cont s k)). assert (Pp := pbar_pos M (rd s) HM (fun k x _ _ => rd_pos s k x)). assert (Np := pbar_near M (rd s) HM (fun k _ => rd_cont s k) (fun k _ => rd_near s k)). split; [apply (int_pos (pbar M (rd s)) Cp Pp); assumption|apply (int_below1 (pbar M (rd s)) Cp Pp Np); assumption].
Qed.
Lemma after_gain M f s l : (0 < M)%nat -> conditionally_psd M f -> expected_after a eps M f s l -> mean_entry M f <= l.
Proof. intros HM HF A. apply after_near in A; auto. exact (gain M f (rd s) HM (fun k _ => rd_cont s k) (fun k x _ _ => rd_pos s k x) (fun k _ => rd_near s k) l HF A). Qed.
Lemma after_exact M f s l : (0 < M)%nat -> let avg q := answer_chance M (rating_density a eps s q) in
  expected_after a eps M f s l <-> total (fun q => qform M f (fun k => rating_density a eps s q k - avg q) / (INR M * INR M * avg q)) (l - mean_entry M f).
Proof.
  intros HM avg. rewrite after_near by exact HM. rewrite (spread_near M f (rd s) HM (fun k _ => rd_cont s k) (fun k x _ _ => rd_pos s k x) (fun k _ => rd_near s k)). change (near (spread M f (rd s)) (l - mean_entry M f) (l - mean_entry M f) <-> total (spread M f (rd s)) (l - mean_entry M f)). rewrite total_near; [reflexivity|].
  apply (cont_ext (fun x => 1 * G M f (rd s) x + -1 * (lin M f (fun k => rd s k x) - mean_entry M f * pbar M (rd s) x))).
  - intros x Hx. rewrite (tangent M f (rd s) HM (fun k x _ _ => rd_pos s k x)) by exact Hx. ring.
  - apply (cont_lin (G M f (rd s))); [apply G_cont; auto; intros; [apply rd_cont|apply rd_pos]|apply base_cont; intros; apply rd_cont].
Qed.
Lemma after_same M f s l : (0 < M)%nat -> (forall k, (k < M)%nat -> s k = s O) -> expected_after a eps M f s l -> l = mean_entry M f.
Proof.
  intros HM Hs A. assert (P := P_Acq.INR_pos M HM). assert (Z : total (fun q => qform M f (fun k => rating_density a eps s q k - answer_chance M (rating_density a eps s q)) / (INR M * INR M * answer_chance M (rating_density a eps s q))) (l - mean_entry M f)) by (apply (after_exact M f s l HM); exact A).
  assert (E : forall q k, (k < M)%nat -> rating_density a eps s q k = rating_density a eps s q O). { intros q k Hk. unfold rating_density, abs_py. cbn [fst snd]. now rewrite (Hs k Hk). }
  assert (Q : forall q, answer_chance M (rating_density a eps s q) = rating_density a eps s q O). { intro q. unfold answer_chance. rewrite (sumn_ext M _ (fun _ => rating_density a eps s q O)) by (intros; now apply E). rewrite sumn_const. field. lra. }
  assert (Z0 : forall q, qform M f (fun k => rating_density a eps s q k - answer_chance M (rating_density a eps s q)) / (INR M * INR M * answer_chance M (rating_density a eps s q)) = 0).
  { intro q. unfold qform. rewrite sumn_zero; [unfold Rdiv; ring|]. intros i Hi. apply sumn_zero. intros j Hj. rewrite Q, (E q i Hi). ring. }
  assert (C : cont01 (fun q => qform M f (fun k => rating_density a eps s q k - answer_chance M (rating_density a eps s q)) / (INR M * INR M * answer_chance M (rating_density a eps s q)))) by (apply (cont_ext (fun _ => 0)); [intros; symmetry; apply Z0|intros x _; apply continuous_const]).
  apply total_near in Z; [|exact C]. apply (near_ext _ (fun _ => 0)) in Z; [|intros; apply Z0]. assert (T := near_unique _ _ _ Z near_zero). lra.
Qed.
End Rating.

(** ---- the learner ---- *)
Lemma greedy_rating sp a eps M quad err m all_Q indicies d : indicies <> [] -> integrates q_lo q_hi err quad ->
  (forall c, ex_RInt (abs_integrand sp a eps M (fun i j => nth j (nth i m []) 0) (fun k => all_Q k c)) q_lo q_hi) ->
  let score c := RInt (abs_integrand sp a eps M (fun i j => nth j (nth i m []) 0) (fun k => all_Q k c)) q_lo q_hi in
  exists c v, (c < length indicies)%nat /\ abs_greedy sp a eps M quad true (Some m) all_Q indicies d = Ok (nth c indicies O, v) /\ Rabs (v - score c) <= err /\
    forall c', (c' < length indicies)%nat -> score c' <= score c + 2 * err.
Proof.
  intros Hi Hq Hex score. set (g := fun c => abs_integrand sp a eps M (fun i j => nth j (nth i m []) 0) (fun k => all_Q k c)) in *. set (gs := map g (seq 0 (length indicies))). destruct (Hq gs) as [L A]. assert (Lg : length gs = length indicies) by (unfold gs; now rewrite map_length, seq_length).
  assert (N : forall c, (c < length indicies)%nat -> nth c gs (fun _ => 0) = g c). { intros c Hc. unfold gs. rewrite (nth_indep _ (fun _ => 0) (g O)) by (rewrite map_length, seq_length; exact Hc). rewrite map_nth, seq_nth by exact Hc. reflexivity. }
  assert (B : forall c, (c < length indicies)%nat -> Rabs (nth c (quad gs) 0 - score c) <= err). { intros c Hc. assert (T := A c ltac:(lia)). rewrite N in T by exact Hc. apply T. apply Hex. }
  assert (Hne : quad gs <> []). { intro E. apply Hi. apply length_zero_iff_nil. rewrite <- Lg, <- L, E. reflexivity. }
  destruct (P_User.argmax_first (quad gs) Hne) as [b [Eb (mx & E1 & E2 & _)]]. assert (Hb : (b < length (quad gs))%nat) by (apply nth_error_Some; congruence). assert (Em : nth b (quad gs) 0 = mx) by (now apply nth_error_nth). assert (Hbi : (b < length indicies)%nat) by (rewrite <- Lg, <- L; exact Hb). exists b, mx. split; [exact Hbi|]. split; [|split; [rewrite <- Em; apply B; exact Hbi|]].
  - unfold abs_greedy. cbn [negb]. change (map (fun c => abs_integrand sp a eps M (fun i j => nth j (nth i m []) 0) (fun k => all_Q k c)) (seq 0 (length indicies))) with gs. rewrite Eb. cbn [bind]. unfold getitem. rewrite E1. cbn [bind]. rewrite (nth_error_nth' indicies O) by exact Hbi. reflexivity.
  - intros c' Hc'. assert (B1 := B c' Hc'). assert (B2 := B b Hbi). assert (Hcq : (c' < length (quad gs))%nat) by (rewrite L, Lg; exact Hc'). assert (T := E2 c' (nth c' (quad gs) 0) (nth_error_nth' (quad gs) 0 Hcq)). rewrite Em in B2. apply Rabs_le_between in B1, B2. lra.
Qed.
Lemma integrand_heard a eps M f s q : (0 < M)%nat -> abs_integrand true_special a eps M f s q = heard a eps M f s q.
Proof. intro HM. unfold abs_integrand, heard, rating_density, abs_py. cbn [fst snd]. apply (integrand_posterior M f (fun k => exp (beta_logpdf true_special q (alpha a eps (s k)) (beta a eps (s k)))) HM). intros. apply exp_pos. Qed.
Lemma select_rating a eps M quad err m all_Q indicies d : 0 < a_v a -> 0 < eps < 1 / 2 -> (0 < M)%nat -> indicies <> [] -> integrates q_lo q_hi err quad ->
  let score c := RInt (heard a eps M (mentry m) (fun k => all_Q k c)) (1 / 10000) (9999 / 10000) in
  exists c v, (c < length indicies)%nat /\ abs_greedy true_special a eps M quad true (Some m) all_Q indicies d = Ok (nth c indicies O, v) /\ Rabs (v - score c) <= err /\
    forall c', (c' < length indicies)%nat -> score c' <= score c + 2 * err.
Proof.
  intros Hv He HM Hi Hq score. assert (E : forall c, RInt (abs_integrand true_special a eps M (fun i j => nth j (nth i m []) 0) (fun k => all_Q k c)) q_lo q_hi = score c) by (intro c; apply RInt_ext; intros; now apply integrand_heard).
  destruct (greedy_rating true_special a eps M quad err m all_Q indicies d Hi Hq) as (c & v & H1 & H2 & H3 & H4).
  - intro c. apply (ex_RInt_ext (heard a eps M (mentry m) (fun k => all_Q k c))); [intros; symmetry; now apply integrand_heard|]. apply cont_int; [now apply heard_cont|unfold q_lo; lra|unfold q_hi; lra].
  - exists c, v. cbv zeta in H3, H4. rewrite E in H3. split; [exact H1|]. split; [exact H2|]. split; [exact H3|]. intros c' Hc'. specialize (H4 c' Hc'). now rewrite !E in H4.
Qed.
Lemma rating_code_gain a eps M f s l B : 0 < a_v a -> 0 < eps < 1 / 2 -> (0 < M)%nat -> conditionally_psd M f -> (forall i j, (i < M)%nat -> (j < M)%nat -> Rabs (f i j) <= B) ->
  expected_after a eps M f s l -> mean_entry M f - B * (1 - chance_between a eps M s q_lo q_hi) <= RInt (heard a eps M f s) q_lo q_hi.
Proof.
  intros Hv He HM HF HB A. assert (T := after_cut a eps Hv He M f s l B q_lo q_hi HM HB A ltac:(unfold q_lo; lra) ltac:(unfold q_lo, q_hi; lra) ltac:(unfold q_hi; lra)). assert (U := after_gain a eps Hv He M f s l HM HF A). apply Rabs_le_between in T. lra.
Qed.
(** the score of two equally good models is the chance of a rating within the limits *)
Lemma one_score a eps M f s y z : 0 < a_v a -> 0 < eps < 1 / 2 -> (0 < M)%nat -> (forall i j, (i < M)%nat -> (j < M)%nat -> f i j = 1) -> 0 < y -> y < z -> z < 1 -> RInt (heard a eps M f s) y z = chance_between a eps M s y z.
Proof.
  intros Hv He HM Hf Hy Hyz Hz. rewrite (chance_pbar a eps Hv He) by auto. apply RInt_ext. intros q Hq. rewrite Rmin_left, Rmax_right in Hq by lra. rewrite heard_G by exact HM. destruct (G_bounds M f (rd a eps s) HM (fun k x _ _ => rd_pos a eps s k x) 1 1 q) as [L U]; [intros i j Hi Hj; rewrite (Hf i j Hi Hj); lra|lra|]. match goal with |- @eq _ ?p ?q => change (@eq R p q) end. lra.
Qed.
Lemma score_range a eps M f s lo hi y z : 0 < a_v a -> 0 < eps < 1 / 2 -> (0 < M)%nat -> (forall i j, (i < M)%nat -> (j < M)%nat -> lo <= f i j <= hi) -> lo <= 0 <= hi -> 0 < y -> y < z -> z < 1 -> lo <= RInt (heard a eps M f s) y z <= hi.
Proof.
  intros Hv He HM Hf H0 Hy Hyz Hz. destruct (chance_range a eps Hv He M s y z HM Hy Hyz Hz) as [C1 C2]. rewrite (chance_pbar a eps Hv He) in C1, C2 by auto. rewrite heard_RInt by exact HM. assert (Cb := pbar_cont M (rd a eps s) (fun k _ => rd_cont a eps s k)). assert (CG := G_cont M f (rd a eps s) HM (fun k _ => rd_cont a eps s k) (fun k x _ _ => rd_pos a eps s k x)).
  assert (K : forall c, RInt (fun q => c * pbar M (rd a eps s) q) y z = c * RInt (pbar M (rd a eps s)) y z). { intro c. apply is_RInt_unique. apply (is_RInt_scal (V := R_NormedModule) (pbar M (rd a eps s)) y z c). apply (RInt_correct (V := R_CompleteNormedModule)). apply cont_int; auto; lra. }
  assert (Cc : forall c, cont01 (fun q => c * pbar M (rd a eps s) q)) by (intros c q Hq; apply (continuous_scal_r c (pbar M (rd a eps s))); now apply Cb).
  split.
  - apply Rle_trans with (RInt (fun q => lo * pbar M (rd a eps s) q) y z); [rewrite K; nra|]. apply RInt_le; [lra|apply cont_int; [apply Cc || exact CG|lra|lra]|apply cont_int; [apply Cc || exact CG|lra|lra]|]. intros q Hq. apply (G_bounds M f (rd a eps s) HM (fun k x _ _ => rd_pos a eps s k x) lo hi); [exact Hf|lra].
  - apply Rle_trans with (RInt (fun q => hi * pbar M (rd a eps s) q) y z); [|rewrite K; nra]. apply RInt_le; [lra|apply cont_int; [apply Cc || exact CG|lra|lra]|apply cont_int; [apply Cc || exact CG|lra|lra]|]. intros q Hq. apply (G_bounds M f (rd a eps s) HM (fun k x _ _ => rd_pos a eps s k x) lo hi); [exact Hf|lra].
Qed.
(** ---- log-likelihood alignment can fall ---- *)
Lemma npdf_below1 x : M_Normal.npdf x <= 1.
Proof.
  unfold M_Normal.npdf. assert (P2 := PI2_1). assert (Q : 1 <= sqrt (2 * PI)) by (rewrite <- sqrt_1; apply sqrt_le_1; lra). assert (E : exp (- x ^ 2 / 2) <= 1) by (rewrite <- exp_0; apply exp_le; assert (0 <= x ^ 2) by (apply pow2_ge_0); lra).
  apply (Rmult_le_reg_r (sqrt (2 * PI))); [lra|]. replace (exp (- x ^ 2 / 2) / sqrt (2 * PI) * sqrt (2 * PI)) with (exp (- x ^ 2 / 2)) by (field; lra). lra.
Qed.
Definition lr_w (k : nat) : R := match k with 1%nat => 2 | _ => -1 end.
Lemma lr_down : qform 3 lr_f lr_w < 0.
Proof.
  assert (K := loglik_loss 2). rewrite pair_align_variance in K by (try lia; apply lr_answers). cbv zeta in K. set (pb := sumn 3 (fun k => lr_p k 0%nat 1%nat) / INR 3) in *.
  assert (A := lr_answers). destruct (A 0%nat ltac:(lia)) as [A0 [A0' A0s]]. destruct (A 1%nat ltac:(lia)) as [A1 [A1' A1s]]. destruct (A 2%nat ltac:(lia)) as [A2 [A2' A2s]].
  assert (E02 : lr_p 2 0%nat 1%nat = lr_p 0 0%nat 1%nat) by reflexivity. set (t := (lr_p 1 0%nat 1%nat - lr_p 0 0%nat 1%nat) / 3).
  assert (PB : pb = (2 * lr_p 0 0%nat 1%nat + lr_p 1 0%nat 1%nat) / 3) by (unfold pb; cbn [sumn]; rewrite E02; cbn [INR]; field).
  assert (Pp : 0 < pb < 1) by lra. assert (Q : 0 < INR 3 * INR 3 * (pb * (1 - pb))) by (cbn [INR]; nra).
  assert (E : qform 3 lr_f (fun k => lr_p k 0%nat 1%nat - pb) = t * t * qform 3 lr_f lr_w).
  { rewrite <- qform_zscale. apply qform_ext; [reflexivity|]. intros [|[|[|k]]] Hk; [| | |lia]; cbn [lr_w]; rewrite PB; unfold t; rewrite ?E02; field. }
  rewrite E in K. assert (N : t * t * qform 3 lr_f lr_w < 0). { apply (Rmult_lt_reg_r (/ (INR 3 * INR 3 * (pb * (1 - pb))))); [now apply Rinv_0_lt_compat|]. rewrite Rmult_0_l. unfold Rdiv in K. lra. }
  assert (0 <= t * t) by apply Rle_0_sqr. nra.
Qed.
Lemma same_density a eps f g : 0 < a_v a -> 0 < eps < 1 / 2 -> (forall q, 0 < q < 1 -> dens (alpha a eps f) (beta a eps f) q = dens (alpha a eps g) (beta a eps g) q) -> mean_link a eps f = mean_link a eps g.
Proof.
  intros Hv He E. destruct (beta_params a eps f Hv He) as [A [B [_ M1]]]. destruct (beta_params a eps g Hv He) as [A' [B' [_ M2]]]. rewrite <- M1, <- M2. apply (near_unique (fun x => x * dens (alpha a eps f) (beta a eps f) x)); [now apply near_first|]. apply (near_ext (fun x => x * dens (alpha a eps g) (beta a eps g) x)); [intros x Hx; now rewrite E|now apply near_first].
Qed.
Lemma rating_loss a eps m s l : 0 < a_v a -> 0 < a_sigma a -> 0 < eps < 1 / 2 -> (forall i j, (i < 3)%nat -> (j < 3)%nat -> mentry m i j = lr_f i j) -> s 0%nat = s 2%nat -> mean_link a eps (s 0%nat) <> mean_link a eps (s 1%nat) ->
  expected_after a eps 3 (mentry m) s l -> l < mean_entry 3 (mentry m).
Proof.
  intros Hv Hs He Hm S02 Hne A. apply after_near in A; [|lia]. apply (spread_near 3 (mentry m) (rd a eps s) ltac:(lia) (fun k _ => rd_cont a eps s k) (fun k x _ _ => rd_pos a eps s k x) (fun k _ => rd_near a eps Hv He s k)) in A.
  assert (D2 : forall q, rd a eps s 2%nat q = rd a eps s 0%nat q) by (intro q; unfold rd, rating_density, abs_py; cbn [fst snd]; now rewrite S02).
  set (t := fun q => (rd a eps s 1%nat q - rd a eps s 0%nat q) / 3). assert (PB : forall q, pbar 3 (rd a eps s) q = (2 * rd a eps s 0%nat q + rd a eps s 1%nat q) / 3) by (intro q; unfold pbar; cbn [sumn]; rewrite D2; cbn [INR]; field).
  assert (SP : forall q, spread 3 (mentry m) (rd a eps s) q = t q * t q * qform 3 lr_f lr_w / (INR 3 * INR 3 * pbar 3 (rd a eps s) q)).
  { intro q. unfold spread. f_equal. rewrite <- qform_zscale. apply qform_ext; [exact Hm|]. intros [|[|[|k]]] Hk; [| | |lia]; cbn [lr_w]; rewrite PB; unfold t; rewrite ?D2; field. }
  assert (LD := lr_down). set (h := fun q => -1 * spread 3 (mentry m) (rd a eps s) q). assert (Pb : forall q, 0 < INR 3 * INR 3 * pbar 3 (rd a eps s) q). { intro q. rewrite PB. assert (R0 := rd_pos a eps s 0 q). assert (R1 := rd_pos a eps s 1 q). cbn [INR]. nra. }
  assert (Ph : forall q, h q = t q * t q * (- qform 3 lr_f lr_w * / (INR 3 * INR 3 * pbar 3 (rd a eps s) q))) by (intro q; unfold h; rewrite SP; unfold Rdiv; ring).
  assert (Pc : forall q, 0 < - qform 3 lr_f lr_w * / (INR 3 * INR 3 * pbar 3 (rd a eps s) q)) by (intro q; apply Rmult_lt_0_compat; [lra|apply Rinv_0_lt_compat, Pb]).
  assert (Cs : cont01 (spread 3 (mentry m) (rd a eps s))). { apply (cont_ext (fun x => 1 * G 3 (mentry m) (rd a eps s) x + -1 * (lin 3 (mentry m) (fun k => rd a eps s k x) - mean_entry 3 (mentry m) * pbar 3 (rd a eps s) x))).
    - intros x Hx. rewrite (tangent 3 (mentry m) (rd a eps s) ltac:(lia) (fun k x _ _ => rd_pos a eps s k x)) by exact Hx. ring.
    - apply (cont_lin (G 3 (mentry m) (rd a eps s))); [apply G_cont; [lia|intros; apply rd_cont|intros; apply rd_pos]|apply base_cont; intros; apply rd_cont]. }
  assert (Nh := near_scal _ (-1) _ Cs A). fold h in Nh.
  assert (X : exists q, 0 < q < 1 /\ t q <> 0). { apply Classical_Prop.NNPP. intro N. apply Hne. apply same_density; auto. intros q Hq. apply Classical_Prop.NNPP. intro D. apply N. exists q. split; [exact Hq|]. unfold t. rewrite !rd_dens. intro Z. apply D. lra. }
  destruct X as [q0 [Hq Ht]]. assert (0 < -1 * (l - mean_entry 3 (mentry m))); [|lra]. apply (near_strict h _ q0); auto.
  - intros x Hx. apply (continuous_scal_r (-1) (spread 3 (mentry m) (rd a eps s))). now apply Cs.
  - intros x Hx. rewrite Ph. apply Rmult_le_pos; [apply Rle_0_sqr|apply Rlt_le, Pc].
  - rewrite Ph. apply Rmult_lt_0_compat; [|apply Pc]. destruct (Rtotal_order (t q0) 0) as [T|[T|T]]; [nra|congruence|nra].
Qed.
Lemma rating_loss_ex : exists a eps Qs rows m s, 0 < a_v a /\ 0 < a_sigma a /\ 0 < eps < 1 / 2 /\ (forall r, In r rows -> length r = 2%nat) /\ alignment ALogLik 1 Qs 2 rows = Some m /\
  forall l, expected_after a eps (length rows) (mentry m) s l -> l < mean_entry (length rows) (mentry m).
Proof.
  exists (mkAbs 1 80 true true), (1 / 10 ^ 10), [[0; 1]%nat], lr_rep, (map (fun ri => map (fun rj => align_entry ALogLik 1 [[0; 1]%nat] ri rj) lr_rep) lr_rep), (fun k => if Nat.eqb k 1 then 1 / 4 else 0).
  cbn [a_v a_sigma]. split; [lra|]. split; [lra|]. split; [lra|]. split; [intros r [<- | [<- | [<- | []]]]; reflexivity|]. split; [reflexivity|]. intros l A. change (length lr_rep) with 3%nat in *. revert A. apply rating_loss; cbn [a_v a_sigma Nat.eqb]; try lra; auto.
  - intros i j Hi Hj. apply (mentry_map2 (align_entry ALogLik 1 [[0; 1]%nat])); auto.
  - assert (S2 : 1 < sqrt 2) by (rewrite <- sqrt_1; apply sqrt_lt_1; lra). assert (Q : 0 < 1 / 4 / (1 * sqrt 2) < 1 / 4). { split; [apply Rdiv_lt_0_compat; lra|]. apply (Rmult_lt_reg_r (1 * sqrt 2)); [lra|]. replace (1 / 4 / (1 * sqrt 2) * (1 * sqrt 2)) with (1 / 4) by (field; lra). lra. }
    apply Rlt_not_eq. apply mean_link_lt; cbn [a_sigma]; try lra.
    + unfold free, mean_rating. replace (0 / (1 * sqrt 2)) with 0 by (field; lra). rewrite P_Normal.ndtr_0. split; lra.
    + unfold free, mean_rating. set (x := 1 / 4 / (1 * sqrt 2)) in *. assert (L := P_Normal.ndtr_increasing 0 x ltac:(lra)). rewrite P_Normal.ndtr_0 in L. destruct (MVT_cor2 M_Normal.ndtr M_Normal.npdf 0 x ltac:(lra)) as [c [E Hc]]; [intros; apply is_derive_Reals, P_Normal.ndtr_derive|]. rewrite P_Normal.ndtr_0 in E. assert (U := npdf_below1 c). assert (P0 := P_Normal.npdf_pos c). split; [lra|]. split; [lra|]. nra.
Qed.
Lemma asking_rating a eps k s Qs nrep rows m v l : 0 < a_v a -> 0 < eps < 1 / 2 -> k <> ALogLik -> (2 <= nrep)%nat -> rows <> [] -> proper_rows nrep rows -> alignment k s Qs nrep rows = Some m ->
  expected_after a eps (length rows) (mentry m) v l -> mean_entry (length rows) (mentry m) <= l.
Proof.
  intros Hv He Hk Hn Hr HR H A. apply (after_gain a eps Hv He (length rows) (mentry m) v l); auto; [destruct rows; cbn; [congruence|lia]|]. eapply alignment_cpsd; eauto.
Qed.
Lemma asking_rating_code a eps k s Qs nrep rows m v B : 0 < a_v a -> 0 < eps < 1 / 2 -> k <> ALogLik -> (2 <= nrep)%nat -> rows <> [] -> proper_rows nrep rows -> alignment k s Qs nrep rows = Some m ->
  (forall i j, (i < length rows)%nat -> (j < length rows)%nat -> Rabs (mentry m i j) <= B) ->
  mean_entry (length rows) (mentry m) - B * (1 - chance_between a eps (length rows) v (1 / 10000) (9999 / 10000)) <= RInt (heard a eps (length rows) (mentry m) v) (1 / 10000) (9999 / 10000).
Proof.
  intros Hv He Hk Hn Hr HR H HB. assert (HM : (0 < length rows)%nat) by (destruct rows; cbn; [congruence|lia]). destruct (after_ex a eps Hv He (length rows) (mentry m) v HM) as [l A]. apply (rating_code_gain a eps (length rows) (mentry m) v l B); auto. eapply alignment_cpsd; eauto.
Qed.
Lemma greedy_rating_empty sp a eps M quad err rep m all_Q d : integrates q_lo q_hi err quad -> abs_greedy sp a eps M quad rep (Some m) all_Q [] d = Raise ValueError.
Proof.
  intro Hq. unfold abs_greedy. destruct rep; [|reflexivity]. cbn [negb length seq map]. destruct (Hq []) as [L _]. destruct (quad []); [reflexivity|discriminate].
Qed.
Lemma greedy_rating_random sp a eps M quad al all_Q indicies d : indicies <> [] -> exists i, In i indicies /\ abs_greedy sp a eps M quad false al all_Q indicies d = Ok (i, 0).
Proof.
  intro Hi. assert (L : (0 < length indicies)%nat) by (destruct indicies; [congruence|cbn; lia]). assert (B : (d mod length indicies < length indicies)%nat) by (apply Nat.mod_upper_bound; lia). exists (nth (d mod length indicies) indicies O). split; [now apply nth_In|]. unfold abs_greedy. cbn [negb]. destruct indicies as [|z zs] eqn:E; [congruence|]. rewrite <- E in *. unfold getitem. rewrite (nth_error_nth' indicies O) by exact B. reflexivity.
Qed.
Lemma exact_quad : integrates q_lo q_hi 0 (exact_integrals q_lo q_hi).
Proof.
  set (F := fun g : R -> R => RInt g q_lo q_hi : R). intro gs. change (exact_integrals q_lo q_hi gs) with (map F gs). split; [apply map_length|]. intros c Hc _. rewrite (nth_indep (map F gs) 0 (F (fun _ => 0))) by (now rewrite map_length). rewrite map_nth. unfold F. rewrite Rminus_eq_0, Rabs_R0. lra.
Qed.
Lemma one_below : exists a eps Qs rows m all_Q v, 0 < a_v a /\ 0 < eps < 1 / 2 /\ proper_rows 2 rows /\ alignment AOne 1 Qs 2 rows = Some m /\ (forall i j, (i < length rows)%nat -> (j < length rows)%nat -> mentry m i j = 1) /\
  abs_greedy true_special a eps (length rows) (exact_integrals q_lo q_hi) true (Some m) all_Q [0%nat] 0 = Ok (0%nat, v) /\ v < 1.
Proof.
  set (m := [[1; 1]; [1; 1]]). set (Q := fun _ _ : nat => 0).
  destruct (select_rating (mkAbs 1 80 true true) (1 / 10 ^ 10) 2 _ 0 m Q [0%nat] 0 ltac:(cbn; lra) ltac:(lra) ltac:(lia) ltac:(discriminate) exact_quad) as (c & v & Hc & E & V & _).
  exists (mkAbs 1 80 true true), (1 / 10 ^ 10), [], [[0; 1]; [1; 0]], m, Q, v. cbn [a_v length]. split; [lra|]. split; [lra|].
  assert (E1 : forall i j, (i < 2)%nat -> (j < 2)%nat -> mentry m i j = 1) by (intros [|[|i]] [|[|j]] Hi Hj; try lia; reflexivity). cbn [length] in Hc. assert (C : c = O) by lia. subst c. split; [|split; [reflexivity|split; [exact E1|split; [exact E|]]]].
  - intros r [<- | [<- | []]]; (split; [reflexivity|]); [exists 0, 1|exists 1, 0]; (split; [now left|split; [right; now left|lra]]).
  - rewrite (one_score (mkAbs 1 80 true true) (1 / 10 ^ 10) 2 _ _ (1 / 10000) (9999 / 10000)) in V; cbn [a_v]; try lra; [|lia|exact E1].
    assert (0 < chance_between (mkAbs 1 80 true true) (1 / 10 ^ 10) 2 (fun k => Q k 0%nat) (1 / 10000) (9999 / 10000) < 1) by (apply chance_range; cbn [a_v]; lra || lia). apply Rabs_le_between in V. lra.
Qed.
Lemma after_all a eps M f s : 0 < a_v a -> 0 < eps < 1 / 2 -> (0 < M)%nat -> exists l, expected_after a eps M f s l /\ (forall l', expected_after a eps M f s l' -> l' = l) /\
  forall B, (forall i j, (i < M)%nat -> (j < M)%nat -> Rabs (f i j) <= B) -> Rabs (l - RInt (heard a eps M f s) (1 / 10000) (9999 / 10000)) <= B * (1 - chance_between a eps M s (1 / 10000) (9999 / 10000)).
Proof.
  intros Hv He HM. destruct (after_ex a eps Hv He M f s HM) as [l A]. exists l. split; [exact A|]. split; [intros l' A'; eapply after_unique; eauto|]. intros B HB. eapply after_cut; eauto; lra.
Qed.
