(** Normal noise: the chance that a difference of noisy values has a given sign. *)
From Coquelicot Require Import Coquelicot.
From Coq Require Import Reals Lra Lia List Bool.
From Verif Require Import M_Base M_RBase M_Normal M_Util M_Select M_Tune S_Util S_Tune P_RBase P_Normal P_Util P_Tune P_Tune2 P_Box P_MHR.
Import ListNotations.
Local Open Scope R_scope.

Lemma whole_line (f : R -> R) l : (forall e : posreal, exists N, forall u v, u < - N -> N < v -> exists I, is_RInt f u v I /\ Rabs (I - l) < e) ->
  is_RInt_gen f (Rbar_locally m_infty) (Rbar_locally p_infty) l.
Proof.
  intros H P [e He]. destruct (H e) as [N HN]. apply (Filter_prod _ _ _ (fun u => u < - N) (fun v => N < v)).
  - now exists (- N).
  - now exists N.
  - intros u v Hu Hv. destruct (HN u v Hu Hv) as [I [HI HB]]. exists I. split; [exact HI|]. apply He. exact HB.
Qed.
Lemma ndtr_ends (e : posreal) : exists N, 0 < N /\ forall x, N < x -> 1 - ndtr x < e /\ ndtr (- x) < e.
Proof.
  assert (K := ndtr_lim_p). apply is_lim_spec in K. destruct (K e) as [M HM]. exists (Rmax 1 M). split; [apply Rlt_le_trans with 1; [lra|apply Rmax_l]|]. intros x Hx.
  assert (M < x) by (eapply Rle_lt_trans; [apply Rmax_r|exact Hx]). specialize (HM x H). assert (B := ndtr_range x). rewrite Rabs_left in HM by lra. rewrite ndtr_sym. lra.
Qed.
Lemma npdf_int u v : is_RInt npdf u v (ndtr v - ndtr u).
Proof.
  apply (is_RInt_derive ndtr npdf).
  - intros x _. apply ndtr_derive.
  - intros x _. apply continuity_pt_filterlim, npdf_continuous.
Qed.
Lemma npdf_total : is_RInt_gen npdf (Rbar_locally m_infty) (Rbar_locally p_infty) 1.
Proof.
  apply whole_line. intro e. destruct (ndtr_ends (pos_div_2 e)) as [N [_ HN]]. exists N. intros u v Hu Hv. exists (ndtr v - ndtr u). split; [apply npdf_int|].
  destruct (HN v Hv) as [A _]. destruct (HN (- u) ltac:(lra)) as [_ B]. rewrite Ropp_involutive in B. cbn in A, B. assert (Rv := ndtr_range v). assert (Ru := ndtr_range u). apply Rabs_def1; lra.
Qed.
(** a step *)
Lemma step_part (h : R -> R) t u v A B : (forall z, z < t -> h z = A) -> (forall z, t < z -> h z = B) -> u <= t <= v ->
  is_RInt (fun z => npdf z * h z) u v (A * (ndtr t - ndtr u) + B * (ndtr v - ndtr t)).
Proof.
  intros HA HB H. apply (is_RInt_Chasles (V := R_NormedModule) _ u t v (A * (ndtr t - ndtr u)) (B * (ndtr v - ndtr t))).
  - apply (is_RInt_ext (fun z => scal A (npdf z))); [|apply (is_RInt_scal (V := R_NormedModule) npdf), npdf_int]. intros x Hx. rewrite Rmin_left, Rmax_right in Hx by lra. rewrite HA by lra. cbn. unfold mult; cbn. ring.
  - apply (is_RInt_ext (fun z => scal B (npdf z))); [|apply (is_RInt_scal (V := R_NormedModule) npdf), npdf_int]. intros x Hx. rewrite Rmin_left, Rmax_right in Hx by lra. rewrite HB by lra. cbn. unfold mult; cbn. ring.
Qed.
Lemma step_line (h : R -> R) t A B : (forall z, z < t -> h z = A) -> (forall z, t < z -> h z = B) ->
  is_RInt_gen (fun z => npdf z * h z) (Rbar_locally m_infty) (Rbar_locally p_infty) (A * ndtr t + B * (1 - ndtr t)).
Proof.
  intros HA HB. apply whole_line. intro e. set (k := Rabs A + Rabs B + 1). assert (Pk : 0 < k) by (unfold k; assert (PA := Rabs_pos A); assert (PB := Rabs_pos B); lra).
  assert (Pe : 0 < e / k) by (apply Rdiv_lt_0_compat; [apply cond_pos|lra]). destruct (ndtr_ends (mkposreal _ Pe)) as [N [P0 HN]]. exists (Rmax N (Rabs t)). intros u v Hu Hv.
  assert (L1 := Rmax_l N (Rabs t)). assert (L2 := Rmax_r N (Rabs t)). assert (T1 := Rle_abs t). assert (T2 := Rle_abs (- t)). rewrite Rabs_Ropp in T2.
  exists (A * (ndtr t - ndtr u) + B * (ndtr v - ndtr t)). split; [apply step_part; auto; lra|].
  destruct (HN v ltac:(lra)) as [X _]. destruct (HN (- u) ltac:(lra)) as [_ Y]. rewrite Ropp_involutive in Y. cbn in X, Y. assert (Rv := ndtr_range v). assert (Ru := ndtr_range u).
  replace (A * (ndtr t - ndtr u) + B * (ndtr v - ndtr t) - (A * ndtr t + B * (1 - ndtr t))) with (- A * ndtr u + - B * (1 - ndtr v)) by ring.
  apply Rle_lt_trans with (Rabs A * (e / k) + Rabs B * (e / k)).
  - eapply Rle_trans; [apply Rabs_triang|]. rewrite !Rabs_mult, !Rabs_Ropp. rewrite (Rabs_right (ndtr u)), (Rabs_right (1 - ndtr v)) by lra. apply Rplus_le_compat; apply Rmult_le_compat_l; try apply Rabs_pos; lra.
  - apply Rmult_lt_reg_r with k; [lra|]. replace ((Rabs A * (e / k) + Rabs B * (e / k)) * k) with (e * (Rabs A + Rabs B)) by (field; lra). assert (E := cond_pos e). unfold k. nra.
Qed.

(** the product of two bells *)
Lemma bell_product z t : npdf z * npdf (z + t) = npdf (t / sqrt 2) * npdf (sqrt 2 * (z + t / 2)).
Proof.
  assert (S2 : sqrt 2 * sqrt 2 = 2) by (apply sqrt_sqrt; lra). assert (P2 : 0 < sqrt 2) by (apply sqrt_lt_R0; lra). unfold npdf. assert (P := s2pi_pos).
  replace (exp (- z ^ 2 / 2) / sqrt (2 * PI) * (exp (- (z + t) ^ 2 / 2) / sqrt (2 * PI))) with (exp (- z ^ 2 / 2) * exp (- (z + t) ^ 2 / 2) / (sqrt (2 * PI) * sqrt (2 * PI))) by (field; lra).
  replace (exp (- (t / sqrt 2) ^ 2 / 2) / sqrt (2 * PI) * (exp (- (sqrt 2 * (z + t / 2)) ^ 2 / 2) / sqrt (2 * PI))) with (exp (- (t / sqrt 2) ^ 2 / 2) * exp (- (sqrt 2 * (z + t / 2)) ^ 2 / 2) / (sqrt (2 * PI) * sqrt (2 * PI))) by (field; lra).
  rewrite <- !exp_plus. do 2 f_equal. replace ((t / sqrt 2) ^ 2) with (t ^ 2 / (sqrt 2 * sqrt 2)) by (field; lra). replace ((sqrt 2 * (z + t / 2)) ^ 2) with (sqrt 2 * sqrt 2 * (z + t / 2) ^ 2) by ring. rewrite S2. field.
Qed.
Definition bell_h (t : R) : R := npdf (t / sqrt 2) / sqrt 2.
Lemma sqrt2_pos : 1 < sqrt 2.
Proof. rewrite <- sqrt_1 at 1. apply sqrt_lt_1; lra. Qed.
Lemma bell_h_int c : is_RInt bell_h 0 c (ndtr (c / sqrt 2) - 1 / 2).
Proof.
  assert (P := sqrt2_pos). replace (ndtr (c / sqrt 2) - 1 / 2) with (minus (ndtr (c / sqrt 2)) (ndtr (0 / sqrt 2))) by (replace (0 / sqrt 2) with 0 by (field; lra); rewrite ndtr_0; reflexivity).
  apply (is_RInt_derive (fun t => ndtr (t / sqrt 2)) bell_h).
  - intros x _. unfold bell_h. replace (npdf (x / sqrt 2) / sqrt 2) with (scal (/ sqrt 2) (npdf (x / sqrt 2))) by (cbn; unfold mult; cbn; unfold Rdiv; ring). apply (is_derive_comp ndtr (fun t => t / sqrt 2)); [apply ndtr_derive|]. auto_derive; [auto|field; lra].
  - intros x _. unfold bell_h. apply (continuous_mult (fun t => npdf (t / sqrt 2)) (fun _ => / sqrt 2)); [|apply continuous_const]. apply (continuous_comp (fun t => t / sqrt 2) npdf); [|apply continuity_pt_filterlim, npdf_continuous]. apply (continuous_mult (fun t => t) (fun _ => / sqrt 2)); [apply continuous_id|apply continuous_const].
Qed.
Lemma bell_h_range t : 0 < bell_h t <= 1.
Proof.
  assert (P := sqrt2_pos). assert (N := npdf_pos (t / sqrt 2)). split; [apply Rdiv_lt_0_compat; lra|]. unfold bell_h.
  assert (U : npdf (t / sqrt 2) <= 1).
  { unfold npdf. assert (Q := s2pi_pos). assert (1 <= sqrt (2 * PI)) by (rewrite <- sqrt_1 at 1; apply sqrt_le_1; assert (K := PI_RGT_0); assert (K2 := PI2_3_2); unfold PI2 in *; lra).
    assert (exp (- (t / sqrt 2) ^ 2 / 2) <= 1) by (rewrite <- exp_0; apply exp_le; assert (K := pow2_ge_0 (t / sqrt 2)); lra). apply Rmult_le_reg_r with (sqrt (2 * PI)); [lra|]. unfold Rdiv. rewrite Rmult_assoc, Rinv_l, Rmult_1_r by lra. lra. }
  apply Rmult_le_reg_r with (sqrt 2); [lra|]. unfold Rdiv. rewrite Rmult_assoc, Rinv_l, Rmult_1_r by lra. lra.
Qed.
Lemma inner_bell u v t : RInt (fun z => npdf z * npdf (z + t)) u v = bell_h t * (ndtr (sqrt 2 * (v + t / 2)) - ndtr (sqrt 2 * (u + t / 2))).
Proof.
  assert (P := sqrt2_pos). apply is_RInt_unique. replace (bell_h t * (ndtr (sqrt 2 * (v + t / 2)) - ndtr (sqrt 2 * (u + t / 2)))) with (minus (bell_h t * ndtr (sqrt 2 * (v + t / 2))) (bell_h t * ndtr (sqrt 2 * (u + t / 2)))) by (cbn; unfold minus, plus, opp; cbn; ring).
  apply (is_RInt_derive (fun z => bell_h t * ndtr (sqrt 2 * (z + t / 2))) (fun z => npdf z * npdf (z + t))).
  - intros x _. rewrite bell_product. replace (npdf (t / sqrt 2) * npdf (sqrt 2 * (x + t / 2))) with (bell_h t * (sqrt 2 * npdf (sqrt 2 * (x + t / 2)))) by (unfold bell_h; field; lra). apply (is_derive_scal (fun z => ndtr (sqrt 2 * (z + t / 2)))).
    apply (is_derive_comp ndtr (fun z => sqrt 2 * (z + t / 2))); [apply ndtr_derive|]. auto_derive; [auto|ring].
  - intros x _. apply (continuous_mult npdf (fun z => npdf (z + t))); [apply continuity_pt_filterlim, npdf_continuous|]. apply (continuous_comp (fun z => z + t) npdf); [|apply continuity_pt_filterlim, npdf_continuous]. apply (continuous_plus (fun z => z) (fun _ => t)); [apply continuous_id|apply continuous_const].
Qed.
Lemma npdf_shift_cts t : forall x, continuous (fun z => npdf (z + t)) x.
Proof. intro x. apply (continuous_comp (fun z => z + t) npdf); [|apply continuity_pt_filterlim, npdf_continuous]. apply (continuous_plus (fun z => z) (fun _ => t)); [apply continuous_id|apply continuous_const]. Qed.
Lemma ndtr_shift_cts t : forall x, continuous (fun z => ndtr (z + t)) x.
Proof. intro x. apply (continuous_comp (fun z => z + t) ndtr); [|apply continuity_pt_filterlim, ndtr_continuous]. apply (continuous_plus (fun z => z) (fun _ => t)); [apply continuous_id|apply continuous_const]. Qed.
Lemma cdf_shift z c : RInt (fun t => npdf z * npdf (z + t)) 0 c = npdf z * (ndtr (z + c) - ndtr z).
Proof.
  apply is_RInt_unique. replace (npdf z * (ndtr (z + c) - ndtr z)) with (minus (npdf z * ndtr (z + c)) (npdf z * ndtr (z + 0))) by (rewrite Rplus_0_r; unfold minus, plus, opp; cbn; ring).
  apply (is_RInt_derive (fun t => npdf z * ndtr (z + t)) (fun t => npdf z * npdf (z + t))).
  - intros x _. apply (is_derive_scal (fun t => ndtr (z + t))). replace (npdf (z + x)) with (scal 1 (npdf (z + x))) by (cbn; unfold mult; cbn; ring). apply (is_derive_comp ndtr (fun t => z + t)); [apply ndtr_derive|]. auto_derive; auto; ring.
  - intros x _. apply (continuous_mult (fun _ => npdf z) (fun t => npdf (z + t))); [apply continuous_const|]. apply (continuous_comp (fun t => z + t) npdf); [|apply continuity_pt_filterlim, npdf_continuous]. apply (continuous_plus (fun _ => z) (fun t => t)); [apply continuous_const|apply continuous_id].
Qed.
Lemma bells_cont : cont2 1 1 (fun p u => npdf (hd 0 p) * npdf (hd 0 p + hd 0 u)).
Proof.
  apply cont2_mult.
  - apply (cont2_comp 1 1 npdf (fun p _ => hd 0 p)); [apply npdf_continuous|]. apply (cont2_left 1 1 (hd 0)), cont_hd.
  - apply (cont2_comp 1 1 npdf (fun p u => hd 0 p + hd 0 u)); [apply npdf_continuous|]. apply cont2_plus; [apply (cont2_left 1 1 (hd 0)), cont_hd|apply (cont2_right 1 1 (hd 0)), cont_hd].
Qed.
Lemma cdf_part u v c : u <= v -> RInt (fun z => npdf z * (ndtr (z + c) - ndtr z)) u v = RInt (fun t => bell_h t * (ndtr (sqrt 2 * (v + t / 2)) - ndtr (sqrt 2 * (u + t / 2)))) 0 c.
Proof.
  intro L. rewrite <- (RInt_ext (V := R_CompleteNormedModule) (fun z => RInt (fun t => npdf z * npdf (z + t)) 0 c)) by (intros z _; apply cdf_shift).
  rewrite <- (RInt_ext (V := R_CompleteNormedModule) (fun t => RInt (fun z => npdf z * npdf (z + t)) u v) _ 0 c) by (intros t _; apply inner_bell).
  exact (swap11 (fun p u => npdf (hd 0 p) * npdf (hd 0 p + hd 0 u)) u v 0 c bells_cont L).
Qed.
Lemma abs_int (f : R -> R) c M : (forall x, continuous f x) -> (forall t, Rabs t <= Rabs c -> Rabs (f t) <= M) -> Rabs (RInt f 0 c) <= Rabs c * M.
Proof.
  intros C B. assert (E : forall a b, ex_RInt f a b) by (intros a b; apply (ex_RInt_continuous (V := R_CompleteNormedModule)); intros; apply C). destruct (Rle_lt_dec 0 c) as [L|L].
  - rewrite (Rabs_right c) by lra. assert (K := abs_RInt_le_const f 0 c M L (E 0 c)). rewrite Rminus_0_r in K. apply K. intros t Ht. apply B. rewrite !Rabs_right; lra.
  - rewrite (Rabs_left c) by lra. assert (K := abs_RInt_le_const f c 0 M ltac:(lra) (E c 0)). replace (0 - c) with (- c) in K by ring. rewrite <- (opp_RInt_swap (V := R_CompleteNormedModule) f c 0) by apply E. change (Rabs (- RInt f c 0) <= - c * M). rewrite Rabs_Ropp. apply K. intros t Ht. apply B. rewrite (Rabs_left c) by lra. destruct (Req_dec t 0) as [-> |N]; [rewrite Rabs_R0; lra|rewrite Rabs_left; lra].
Qed.
Lemma ndtr_lin_cts k a : forall x, continuous (fun t => ndtr (k * (a + t / 2))) x.
Proof. intro x. apply (continuous_comp (fun t => k * (a + t / 2)) ndtr); [|apply continuity_pt_filterlim, ndtr_continuous]. apply (continuous_mult (fun _ => k) (fun t => a + t / 2)); [apply continuous_const|]. apply (continuous_plus (fun _ => a) (fun t => t / 2)); [apply continuous_const|]. apply (continuous_mult (fun t => t) (fun _ => / 2)); [apply continuous_id|apply continuous_const]. Qed.
Lemma bell_h_cts x : continuous bell_h x.
Proof. unfold bell_h. apply (continuous_mult (fun t => npdf (t / sqrt 2)) (fun _ => / sqrt 2)); [|apply continuous_const]. apply (continuous_comp (fun t => t / sqrt 2) npdf); [|apply continuity_pt_filterlim, npdf_continuous]. apply (continuous_mult (fun t => t) (fun _ => / sqrt 2)); [apply continuous_id|apply continuous_const]. Qed.
Lemma square_int u v : is_RInt (fun z => npdf z * ndtr z) u v ((ndtr v ^ 2 - ndtr u ^ 2) / 2).
Proof.
  replace ((ndtr v ^ 2 - ndtr u ^ 2) / 2) with (minus (ndtr v ^ 2 / 2) (ndtr u ^ 2 / 2)) by (unfold minus, plus, opp; cbn; field). apply (is_RInt_derive (fun z => ndtr z ^ 2 / 2) (fun z => npdf z * ndtr z)).
  - intros x _. assert (D := ndtr_derive x). assert (E : ex_derive ndtr x) by (now exists (npdf x)). auto_derive; [exact E|]. replace (Derive (fun x0 => ndtr x0) x) with (npdf x) by (symmetry; apply is_derive_unique; exact D). field.
  - intros x _. apply (continuous_mult npdf ndtr); apply continuity_pt_filterlim; [apply npdf_continuous|apply ndtr_continuous].
Qed.
Lemma split_sum (x a b : R) : x = a + b -> a = x - b.
Proof. lra. Qed.
Lemma last_step (p q x g d e k : R) : 0 < d -> 0 <= k -> 0 < p < 1 -> 0 < q < 1 -> 1 - p < d -> q < d -> - (k * (2 * d)) <= g <= k * (2 * d) -> e = 2 * d * (k + 1) -> Rabs ((p ^ 2 - q ^ 2) / 2 + (x - 1 / 2 - g) - x) < e.
Proof. intros. assert (q ^ 2 <= q) by nra. assert (0 <= q ^ 2) by nra. assert (1 - p ^ 2 <= 2 * (1 - p)) by nra. assert (0 <= 1 - p ^ 2) by nra. apply Rabs_def1; lra. Qed.
(** the chance that a normal draw is below another one plus [c] *)
Lemma convolution c : is_RInt_gen (fun z => npdf z * ndtr (z + c)) (Rbar_locally m_infty) (Rbar_locally p_infty) (ndtr (c / sqrt 2)).
Proof.
  assert (P2 := sqrt2_pos). assert (S2 : sqrt 2 * sqrt 2 = 2) by (apply sqrt_sqrt; lra). apply whole_line. intro e. assert (E := cond_pos e). assert (Pc := Rabs_pos c). assert (Pe : 0 < e / (2 * (Rabs c + 1))) by (apply Rdiv_lt_0_compat; lra).
  destruct (ndtr_ends (mkposreal _ Pe)) as [N [P0 HN]]. exists (N + Rabs c). intros u v Hu Hv. cbn in HN.
  assert (Ex1 : ex_RInt (fun z => npdf z * (ndtr (z + c) - ndtr z)) u v).
  { apply (ex_RInt_continuous (V := R_CompleteNormedModule)). intros x _. apply (continuous_mult npdf (fun z => ndtr (z + c) - ndtr z)); [apply continuity_pt_filterlim, npdf_continuous|]. apply (continuous_minus (fun z => ndtr (z + c)) ndtr); [apply ndtr_shift_cts|apply continuity_pt_filterlim, ndtr_continuous]. }
  exists ((ndtr v ^ 2 - ndtr u ^ 2) / 2 + RInt (fun t => bell_h t * (ndtr (sqrt 2 * (v + t / 2)) - ndtr (sqrt 2 * (u + t / 2)))) 0 c). split.
  - rewrite <- cdf_part by lra. apply (is_RInt_ext (fun z => plus (npdf z * ndtr z) (npdf z * (ndtr (z + c) - ndtr z)))); [intros x _; cbn; unfold plus; cbn; ring|]. apply (is_RInt_plus (V := R_NormedModule)); [apply square_int|]. apply (RInt_correct (V := R_CompleteNormedModule)), Ex1.
  - set (F := fun t => bell_h t * (ndtr (sqrt 2 * (v + t / 2)) - ndtr (sqrt 2 * (u + t / 2)))). set (G := fun t => bell_h t * (1 - (ndtr (sqrt 2 * (v + t / 2)) - ndtr (sqrt 2 * (u + t / 2))))).
    assert (CD : forall x, continuous (fun t => ndtr (sqrt 2 * (v + t / 2)) - ndtr (sqrt 2 * (u + t / 2))) x) by (intro x; apply (continuous_minus (fun t => ndtr (sqrt 2 * (v + t / 2))) (fun t => ndtr (sqrt 2 * (u + t / 2)))); apply ndtr_lin_cts).
    assert (CF : forall x, continuous F x) by (intro x; apply (continuous_mult bell_h _); [apply bell_h_cts|apply CD]).
    assert (CG : forall x, continuous G x) by (intro x; apply (continuous_mult bell_h (fun t => 1 - (ndtr (sqrt 2 * (v + t / 2)) - ndtr (sqrt 2 * (u + t / 2))))); [apply bell_h_cts|apply (continuous_minus (fun _ => 1) (fun t => ndtr (sqrt 2 * (v + t / 2)) - ndtr (sqrt 2 * (u + t / 2)))); [apply continuous_const|apply CD]]).
    assert (EF : ex_RInt F 0 c) by (apply (ex_RInt_continuous (V := R_CompleteNormedModule)); intros; apply CF). assert (EG : ex_RInt G 0 c) by (apply (ex_RInt_continuous (V := R_CompleteNormedModule)); intros; apply CG).
    assert (Sum : RInt F 0 c = ndtr (c / sqrt 2) - 1 / 2 - RInt G 0 c).
    { assert (K := RInt_plus (V := R_CompleteNormedModule) F G 0 c EF EG). rewrite (RInt_ext (V := R_CompleteNormedModule) _ bell_h) in K by (intros x _; unfold F, G; cbn; unfold plus; cbn; ring). assert (Q := is_RInt_unique (V := R_CompleteNormedModule) bell_h 0 c _ (bell_h_int c)). rewrite Q in K. change (ndtr (c / sqrt 2) - 1 / 2 = RInt F 0 c + RInt G 0 c) in K. exact (split_sum _ _ _ K). }
    rewrite Sum. assert (BG : Rabs (RInt G 0 c) <= Rabs c * (2 * (e / (2 * (Rabs c + 1))))).
    { apply abs_int; [apply CG|]. intros t Ht. assert (HR := bell_h_range t). unfold G. assert (T1 := Rle_abs t). assert (T2 := Rle_abs (- t)). rewrite Rabs_Ropp in T2.
      destruct (HN (sqrt 2 * (v + t / 2)) ltac:(nra)) as [X _]. destruct (HN (- (sqrt 2 * (u + t / 2))) ltac:(nra)) as [_ Y]. rewrite Ropp_involutive in Y. assert (R1 := ndtr_range (sqrt 2 * (v + t / 2))). assert (R2 := ndtr_range (sqrt 2 * (u + t / 2))).
      rewrite Rabs_right by nra. nra. }
    destruct (HN v ltac:(lra)) as [X _]. destruct (HN (- u) ltac:(lra)) as [_ Y]. rewrite Ropp_involutive in Y. assert (R1 := ndtr_range v). assert (R2 := ndtr_range u). set (d := e / (2 * (Rabs c + 1))) in *.
    assert (Hd : (e : R) = 2 * d * (Rabs c + 1)) by (unfold d; field; lra). apply Rabs_le_between in BG. exact (last_step _ _ _ _ _ _ (Rabs c) Pe Pc R1 R2 X Y BG Hd).
Qed.

(** ---- means over normal draws ---- *)
Lemma normal_mean_ext q : forall (Phi Psi : list R -> R) l, (forall z, length z = q -> Phi z = Psi z) -> normal_mean q Phi l -> normal_mean q Psi l.
Proof.
  induction q as [|q IH]; intros Phi Psi l E M; cbn in *; [rewrite <- E; auto|]. destruct M as [g [Hg HI]]. exists g. split; [|exact HI]. intro z. apply (IH (fun zs => Phi (z :: zs))); [|apply Hg]. intros zs L. apply E. cbn. now rewrite L.
Qed.
Lemma normal_mean_lin q : forall (Phi : list R -> R) l k b, normal_mean q Phi l -> normal_mean q (fun z => k * Phi z + b) (k * l + b).
Proof.
  induction q as [|q IH]; intros Phi l k b M; cbn in *; [now rewrite M|]. destruct M as [g [Hg HI]]. exists (fun z => k * g z + b). split; [intro z; apply IH, Hg|].
  apply (is_RInt_gen_ext (fun z => plus (scal k (npdf z * g z)) (scal b (npdf z)))).
  - apply (Filter_prod _ _ _ (fun _ => True) (fun _ => True)); [now exists 0|now exists 0|]. intros x y _ _ t _. cbn. unfold plus, mult; cbn. ring.
  - replace (k * l + b) with (plus (scal k l) (scal b 1)) by (cbn; unfold plus, mult; cbn; ring). apply (is_RInt_gen_plus (V := R_NormedModule)); apply (is_RInt_gen_scal (V := R_NormedModule)); [exact HI|apply npdf_total].
Qed.
Lemma normal_mean_unique q : forall Phi l l', normal_mean q Phi l -> normal_mean q Phi l' -> l = l'.
Proof.
  induction q as [|q IH]; intros Phi l l' M M'; cbn in *; [congruence|]. destruct M as [g [Hg HI]]. destruct M' as [g' [Hg' HI']]. assert (E : forall z, g z = g' z) by (intro z; eapply IH; eauto).
  apply (is_RInt_gen_ext _ (fun z => npdf z * g' z)) in HI.
  - transitivity (RInt_gen (fun z => npdf z * g' z) (Rbar_locally m_infty) (Rbar_locally p_infty)); [symmetry|]; now apply is_RInt_gen_unique.
  - apply (Filter_prod _ _ _ (fun _ => True) (fun _ => True)); [now exists 0|now exists 0|]. intros x y _ _ t _. now rewrite E.
Qed.
Definition ind (b : bool) : R := if b then 1 else 0.
Lemma rows_mean_ext n q : forall (Phi Psi : list (list R) -> R) l, (forall z, length z = n -> Forall (fun r => length r = q) z -> Phi z = Psi z) -> rows_mean n q Phi l -> rows_mean n q Psi l.
Proof.
  induction n as [|n IH]; intros Phi Psi l E M; cbn in *; [rewrite <- E; auto|]. destruct M as [g [Hg HI]]. exists g. split; [|exact HI]. intros z Lz. apply (IH (fun zs => Phi (z :: zs))); [|now apply Hg]. intros zs L F. apply E; [cbn; now rewrite L|now constructor].
Qed.
Lemma rows_bern q Is cs : Forall2 (fun (I : list R -> bool) c => normal_mean q (fun z => ind (I z)) c) Is cs ->
  forall g, rows_mean (length cs) q (fun zs => g (map (fun p => fst p (snd p)) (combine Is zs))) (bern cs g).
Proof.
  induction 1 as [|I c Is cs H F IH]; intro g; cbn [length bern rows_mean]; [reflexivity|].
  exists (fun z => if I z then bern cs (fun l => g (true :: l)) else bern cs (fun l => g (false :: l))). split.
  - intros z _. destruct (I z) eqn:E; [specialize (IH (fun l => g (true :: l)))|specialize (IH (fun l => g (false :: l)))]; cbn [combine map fst snd]; rewrite E; exact IH.
  - apply (normal_mean_ext q (fun z => (bern cs (fun l => g (true :: l)) - bern cs (fun l => g (false :: l))) * ind (I z) + bern cs (fun l => g (false :: l)))).
    + intros z _. destruct (I z); cbn; ring.
    + replace (c * bern cs (fun l => g (true :: l)) + (1 - c) * bern cs (fun l => g (false :: l))) with ((bern cs (fun l => g (true :: l)) - bern cs (fun l => g (false :: l))) * c + bern cs (fun l => g (false :: l))) by ring. now apply normal_mean_lin.
Qed.

(** two draws *)
Lemma pair_mean (I : list R -> R) c A B : (forall x y, y < x + c -> I [x; y] = A) -> (forall x y, x + c < y -> I [x; y] = B) ->
  normal_mean 2 I (A * ndtr (c / sqrt 2) + B * (1 - ndtr (c / sqrt 2))).
Proof.
  intros HA HB. exists (fun x => A * ndtr (x + c) + B * (1 - ndtr (x + c))). split.
  - intro x. exists (fun y => I [x; y]). split; [reflexivity|]. apply step_line; auto.
  - apply (is_RInt_gen_ext (fun z => plus (scal (A - B) (npdf z * ndtr (z + c))) (scal B (npdf z)))).
    + apply (Filter_prod _ _ _ (fun _ => True) (fun _ => True)); [now exists 0|now exists 0|]. intros x y _ _ t _. cbn. unfold plus, mult; cbn. ring.
    + replace (A * ndtr (c / sqrt 2) + B * (1 - ndtr (c / sqrt 2))) with (plus (scal (A - B) (ndtr (c / sqrt 2))) (scal B 1)) by (cbn; unfold plus, mult; cbn; ring). apply (is_RInt_gen_plus (V := R_NormedModule)); apply (is_RInt_gen_scal (V := R_NormedModule)); [apply convolution|apply npdf_total].
Qed.
