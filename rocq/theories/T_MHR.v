(** Properties C143 for real vectors, and C147: the weights sampled for a linear model *)
From Coquelicot Require Import Coquelicot.
From Coq Require Import Reals Lra Lia List Arith.
From Verif Require Import M_RBase M_Normal M_Util S_MH P_MH S_MHR P_Normal P_Box P_MHR P_MHR2 P_MHR3 P_MHR4.
From Verif Require Import M_Acq M_Pairs M_PrefProbit M_Fit.
Import ListNotations.
Local Open Scope R_scope.

(** real vectors, normal proposals: started from the density proportional to the likelihood, every returned sample has that density *)
Theorem C143_stationary : forall d std l h M df ns nb j, cont d l -> finite_mass d l -> cont d h -> (forall v, length v = d -> Rabs (h v) <= M) -> (j < ns)%nat ->
  0 < whole_int d (fun x => exp (l x)) /\
  density_mean d l (fun x => mean_normal d (ns + nb) (fun v u => h (nth j (metropolis_hastings (fun x => Some (l x)) (fun i x => moved std x (v i)) u x ns nb) df))) = density_mean d l h.
Proof. exact mh_real. Qed.
Print Assumptions C143_stationary.
(** and no other density (with a bounded ratio to the likelihood) is stationary *)
Theorem C143_unique : forall d std l p M, cont d l -> std <> 0 -> density d p -> (forall v, length v = d -> p v <= M * exp (l v)) -> stationary d std l p ->
  exists k, 0 < k /\ forall v, length v = d -> p v = k * exp (l v).
Proof. exact mh_unique. Qed.
Print Assumptions C143_unique.
(** comparisons only: the likelihood of the weights has no finite integral, it is no density *)
Theorem C147_mass_refuted : forall sp P y n d X, y_ord y = None -> y_abs y = None -> (0 < d)%nat ->
  exists l, (forall w, lin_loss sp P y n d X (entries w) = Ok (Some (l w))) /\ cont d l /\ ~ finite_mass d l.
Proof. exact weights_mass. Qed.
Print Assumptions C147_mass_refuted.
(** there is no bounded density that the sampler keeps *)
Theorem C147_stationary_refuted : forall sp P y n d X l std p B, y_ord y = None -> y_abs y = None -> (0 < d)%nat -> (forall w, lin_loss sp P y n d X (entries w) = Ok (Some (l w))) ->
  std <> 0 -> density d p -> (forall v, length v = d -> p v <= B) -> ~ stationary d std l p.
Proof. exact weights_none. Qed.
Print Assumptions C147_stationary_refuted.
(** this is not an effect of the clipping at -30: when some weights explain all comparisons, weights of likelihood at least 1/2^m fill a fixed
    share of every cube *)
Theorem C147_separable : forall s r d X w0, length w0 = d -> (forall q, In q r -> 0 < z_of s (lin_F d X (entries w0)) q) ->
  exists c, 0 < c /\ forall n, (1 / 2) ^ length r * (c * INR n) ^ d <= box_int (cube d n) (fun w => exp (log_likelihood s r (lin_F d X (entries w)))).
Proof. exact separable_mass. Qed.
Print Assumptions C147_separable.
(** without data every proposal is accepted: the samples are a random walk from the random start *)
Theorem C147_nodata : forall std z thr x ns nb, (forall i, thr i < 1) -> metropolis_hastings (fun _ => Some 0) (fun i x => moved std x (z i)) thr x ns nb = map (walk std x z) (seq (S nb) ns).
Proof. exact mh_walk. Qed.
Print Assumptions C147_nodata.

(** two independent standard normal weights: the chain keeps their distribution, in which the mean of sin of the first weight is 0 *)
Definition ex_l (x : list R) : R := - (entries x 0 * entries x 0 + entries x 1 * entries x 1) / 2.
Lemma ex_l_cont : cont 2 ex_l.
Proof.
  unfold ex_l. apply (cont_ext 2 (fun x => - / 2 * (entries x 0 * entries x 0 + entries x 1 * entries x 1))); [intros; field|]. apply (cont_mult 2 (fun _ => - / 2)); [apply cont_const|]. apply cont_plus; apply cont_mult; apply cont_entry; lia.
Qed.
Lemma ex_l_bell x : length x = 2%nat -> exp (ex_l x) = 2 * PI * bell x.
Proof.
  destruct x as [|a [|b [|? ?]]]; intro H; try discriminate. unfold ex_l, entries. cbn [nth bell]. assert (S := s2pi_pos). assert (Q := s2pi_sq). rewrite Rmult_1_r. replace (2 * PI * (exp (- (a * a) / 2) / sqrt (2 * PI) * (exp (- (b * b) / 2) / sqrt (2 * PI)))) with (exp (- (a * a) / 2) * exp (- (b * b) / 2) * (2 * PI / (sqrt (2 * PI) * sqrt (2 * PI)))) by (field; lra).
  rewrite Q. replace (2 * PI / (2 * PI)) with 1 by (field; apply PI_neq0). rewrite Rmult_1_r, <- exp_plus. f_equal. field.
Qed.
Lemma ex_l_mass : finite_mass 2 ex_l.
Proof.
  destruct (scaled_ex 2 (2 * PI)) as [[L H] _]. exists L. apply (is_lim_seq_ext _ _ _ (fun n => box_ext (cube 2 n) _ _ (fun v Hv => eq_sym (ex_l_bell v (eq_trans Hv (cube_length 2 n))))) H).
Qed.
Lemma ex_sin_mean : density_mean 2 ex_l (fun x => sin (entries x 0)) = 0.
Proof.
  unfold density_mean. rewrite (whole_is 2 _ 0); [unfold Rdiv; ring|]. apply (is_lim_seq_ext (fun _ => 0)); [|apply is_lim_seq_const]. intro n. set (f := fun x => exp (ex_l x) * sin (entries x 0)).
  assert (C : cont 2 f) by (apply (cont_mult 2 (fun x => exp (ex_l x))); [apply (cont_pi 2 ex_l ex_l_cont)|]; apply (cont_comp 2 sin); [intro t; apply derivable_continuous_pt, derivable_pt_sin|apply cont_entry; lia]).
  assert (R := box_reflect 2 n f C). assert (E := proj2 (good_scal (-1) _ f (cube_good 2 n f C))). rewrite (box_ext _ (fun z => f (map Ropp z)) (fun v => -1 * f v)) in R; [rewrite E in R; lra|].
  intros [|a [|b [|? ?]]] H; try discriminate. unfold f, ex_l, entries. cbn [map nth]. rewrite sin_neg. replace (- (- a * - a + - b * - b) / 2) with (- (a * a + b * b) / 2) by (unfold Rdiv; ring). ring.
Qed.
Example C143_real_ex : density_mean 2 ex_l (fun x => mean_normal 2 (3 + 2) (fun v u => sin (entries (nth 1 (metropolis_hastings (fun x => Some (ex_l x)) (fun i x => moved 2 x (v i)) u x 3 2) []) 0))) = 0.
Proof.
  destruct (C143_stationary 2 2 ex_l (fun x => sin (entries x 0)) 1 [] 3 2 1 ex_l_cont ex_l_mass) as [_ E].
  - apply (cont_comp 2 sin); [intro t; apply derivable_continuous_pt, derivable_pt_sin|apply cont_entry; lia].
  - intros v _. apply Rabs_le. assert (B := SIN_bound (entries v 0)). lra.
  - lia.
  - rewrite E. apply ex_sin_mean.
Qed.
(** the hypotheses of uniqueness hold for the density of two standard normal weights *)
Example C143_unique_ex : density 2 bell /\ (forall v, length v = 2%nat -> bell v <= 1 * exp (ex_l v)) /\ stationary 2 2 ex_l bell.
Proof.
  split; [split; [apply cont_bell|split; [intros; left; apply bell_pos|apply bell_lim]]|split].
  - intros v Hv. rewrite (ex_l_bell v Hv). assert (B := bell_pos v). assert (P := PI2_1). nra.
  - intros h M Ch Bh. destruct (C143_stationary 2 2 ex_l h M [] 1 0 0 ex_l_cont ex_l_mass Ch Bh ltac:(lia)) as [P E]. unfold density_mean in E. assert (N : whole_int 2 (fun x => exp (ex_l x)) <> 0) by lra.
    apply (f_equal (fun t => t * whole_int 2 (fun x => exp (ex_l x)))) in E. unfold Rdiv in E. rewrite !Rmult_assoc, Rinv_l, !Rmult_1_r in E by exact N.
    assert (HM : 0 <= M) by (eapply Rle_trans; [apply Rabs_pos|apply (Bh [0; 0] eq_refl)]).
    assert (K : forall g, class 2 M g -> whole_int 2 (fun x => exp (ex_l x) * g x) = 2 * PI * whole_int 2 (fun x => bell x * g x)).
    { intros g [Cg Bg]. apply whole_is. assert (Cb : cont 2 (fun x => bell x * g x)) by (apply (cont_mult 2 bell); [apply cont_bell|exact Cg]).
      assert (X : ex_finite_lim_seq (fun n => box_int (cube 2 n) (fun x => bell x * g x))). { apply (dominated 2 _ (fun x => M * bell x)); [exact Cb|apply cont_scaled| |apply scaled_ex]. intros v Hv. assert (Pb := bell_pos v). rewrite Rabs_mult, (Rabs_right (bell v)) by lra. rewrite Rmult_comm. apply Rmult_le_compat_r; [lra|now apply Bg]. }
      apply (is_lim_seq_ext (fun n => box_int (cube 2 n) (fun x => 2 * PI * (bell x * g x)))); [|apply scal_lim; [exact Cb|now apply whole_lim]]. intro n. apply box_ext. intros v Hv. rewrite (ex_l_bell v (eq_trans Hv (cube_length 2 n))). ring. }
    assert (Hc : class 2 M h) by (split; assumption). assert (Hr := round_class 2 2 ex_l M ex_l_cont HM h Hc).
    rewrite (K h Hc) in E. rewrite (whole_ext 2 _ (fun x => exp (ex_l x) * round 2 2 ex_l h x)) in E by (intros x _; f_equal; apply one_round). rewrite (K _ Hr) in E. rewrite (whole_ext 2 _ (fun x => bell x * round 2 2 ex_l h x)) by (intros x _; f_equal; apply one_round).
    assert (P2 := PI_RGT_0). apply (Rmult_eq_reg_l (2 * PI)); [exact E|lra].
Qed.
(** one feature, the first point better than the second (whose feature is 0): positive weights explain the comparison *)
Example C147_ex : let r := [((-1)%Z, 0%nat, 1%nat)] in let X i a := if Nat.eqb i 0 then 1 else 0 in
  (forall q, In q r -> 0 < z_of 1 (lin_F 1 X (entries [1])) q) /\ ~ finite_mass 1 (fun w => log_likelihood 1 r (lin_F 1 X (entries w))).
Proof.
  intros r X. assert (Z : forall q, In q r -> 0 < z_of 1 (lin_F 1 X (entries [1])) q).
  { intros q [<- |[]]. unfold z_of, dk_of, u_of, v_of, lin_F, sum_to, isqrt2sig, entries, X. cbn. assert (S := Rlt_sqrt2_0). assert (0 < 1 / (1 * sqrt 2)) by (apply Rdiv_lt_0_compat; lra). nra. }
  split; [exact Z|]. destruct (C147_separable 1 r 1 X [1] eq_refl Z) as [c [Hc L]]. apply (low_infinite 1 _ (1 / 2 * c)); [lia|nra|]. intro n. eapply Rle_trans; [|apply L]. right. cbn. ring.
Qed.
