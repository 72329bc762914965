(** Newton steps of [find_mode] with ratings: ascent where the ratings are concave, and a wrong step with the default parameters. *)
From Coquelicot Require Import Coquelicot.
From Coq Require Import Reals Lra Lia List.
From Verif Require Import M_RBase M_Normal M_PrefProbit M_OrdProbit M_AbsProbit M_Acq M_GP M_Search M_Fit S_PrefProbit S_OrdProbit S_AbsProbit S_GP S_Fit S_FitAbs S_Gamma P_RBase P_Acq P_Normal P_PrefProbit P_Put P_OrdProbit P_AbsProbit P_Chol P_GP P_GP2 P_GP3 P_Search P_Fit P_Fit2 P_Fit3 P_Fit4 P_Gamma.
From Verif Require Import S_Psd P_Psd.
Local Open Scope R_scope.

(** ---- the trigamma function ---- *)
Lemma psi1_partial x N : 0 < x -> sum_n (psi1_term x) N <= / x + / x ^ 2 - / (x + INR N).
Proof.
  intro Hx. induction N as [|N IH].
  - rewrite sum_O. unfold psi1_term. cbn [INR]. rewrite Rplus_0_r. lra.
  - rewrite sum_Sn. change (sum_n (psi1_term x) N + psi1_term x (Datatypes.S N) <= / x + / x ^ 2 - / (x + INR (Datatypes.S N))). unfold psi1_term at 2. rewrite S_INR. assert (Np := pos_INR N). set (u := x + INR N) in *. assert (Up : 0 < u) by (unfold u; lra). replace (x + (INR N + 1)) with (u + 1) by (unfold u; ring).
    assert (/ (u + 1) ^ 2 <= / u - / (u + 1)); [|lra]. replace (/ u - / (u + 1)) with (/ (u * (u + 1))) by (field; lra). apply Rinv_le_contravar; [|nra]. apply Rmult_lt_0_compat; lra.
Qed.
Lemma psi1_upper x : 0 < x -> psi1 true_special x <= / x + / x ^ 2.
Proof.
  intro Hx. change (Series (psi1_term x) <= / x + / x ^ 2). assert (H := Series_correct _ (ex_psi1 x Hx)).
  apply (is_lim_seq_le (sum_n (psi1_term x)) (fun _ => / x + / x ^ 2) (Finite (Series (psi1_term x))) (Finite (/ x + / x ^ 2))); [|exact H|apply is_lim_seq_const].
  intro N. assert (T := psi1_partial x N Hx). assert (0 < / (x + INR N)) by (apply Rinv_0_lt_compat; generalize (pos_INR N); lra). lra.
Qed.

(** ---- numbers ---- *)
Lemma npdf0_value : 7 / 20 < npdf 0 < 409 / 1000.
Proof.
  rewrite npdf_gE. assert (E : gE 0 = 1). { unfold gE. rewrite <- exp_0. f_equal. lra. } rewrite E, Rmult_1_r.
  assert (P1 : 3 < PI) by (generalize PI2_3_2; lra). assert (P2 := PI_4). assert (Q : sqrt (2 * PI) * sqrt (2 * PI) = 2 * PI) by (apply sqrt_sqrt; lra). assert (Qp : 0 < sqrt (2 * PI)) by (apply sqrt_lt_R0; lra).
  assert (L1 : 2446 / 1000 < sqrt (2 * PI)) by nra. assert (L2 : sqrt (2 * PI) < 2829 / 1000) by nra. set (q := sqrt (2 * PI)) in *. clearbody q. assert (I : / q * q = 1) by (field; lra). assert (Ip : 0 < / q) by (now apply Rinv_0_lt_compat). split; nra.
Qed.
Lemma npdf_top z : npdf z <= npdf 0.
Proof.
  rewrite !npdf_gE. apply Rmult_le_compat_l; [left; apply Rinv_0_lt_compat, sqrt_lt_R0; generalize PI_RGT_0; lra|]. unfold gE. destruct (Req_dec z 0) as [-> |N]; [lra|]. left. apply exp_increasing. assert (0 < z * z) by nra. nra.
Qed.
Lemma npdf_low z : npdf 0 * (1 - z * z / 2) <= npdf z.
Proof.
  rewrite !npdf_gE. assert (E : gE 0 = 1). { unfold gE. rewrite <- exp_0. f_equal. lra. } rewrite E, Rmult_1_r. apply Rmult_le_compat_l; [left; apply Rinv_0_lt_compat, sqrt_lt_R0; generalize PI_RGT_0; lra|].
  unfold gE. assert (T := exp_ineq1_le (- z * z / 2)). match goal with |- _ <= exp ?u => replace u with (- z * z / 2) by field end. lra.
Qed.
Lemma ndtr_above z : 0 <= z -> 1 / 2 <= ndtr z <= 1 / 2 + z * npdf 0.
Proof.
  intro Hz. destruct Hz as [Hz|<-]; [|rewrite ndtr_0; lra]. destruct (MVT_gen ndtr 0 z npdf) as [c [_ Hc]]; [intros; apply ndtr_derive|intros; apply ndtr_continuous|].
  rewrite ndtr_0 in Hc. assert (K := npdf_top c). assert (K' := npdf_pos c). nra.
Qed.
Lemma sqrt2_range : 1414 / 1000 < sqrt 2 < 1415 / 1000.
Proof. assert (H := sqrt2_pos). assert (E := sqrt2_sq). split; nra. Qed.
Lemma ln999 : 6 < ln 999.
Proof.
  rewrite <- (ln_exp 6). apply ln_increasing; [apply exp_pos|]. replace 6 with (1 + 1 + 1 + 1 + 1 + 1) by ring. rewrite !exp_plus. assert (H := exp_le_3). assert (Hp := exp_pos 1). set (e := exp 1) in *. clearbody e.
  assert (e * e <= 9) by nra. assert (0 < e * e) by nra. assert (e * e * (e * e) <= 81) by nra. assert (0 < e * e * (e * e)) by nra. replace (e * e * e * e * e * e) with (e * e * (e * e) * (e * e)) by ring. nra.
Qed.

(** ---- a low rating of a point with a high value ---- *)
Lemma low_T s f : 0 < s -> 0 <= f -> T_ true_special 80 s (1 / 1000) f < - 6.
Proof.
  intros Hs Hf. unfold T_. assert (Z : 0 <= f / (s * sqrt 2)) by (apply Rdiv_le_0_compat; [lra|]; generalize sqrt2_pos; nra). assert (M := proj1 (ndtr_above _ Z)). assert (MR := mean_range s f).
  assert (K : psi true_special (80 * (1 - mu_ s f)) <= psi true_special (80 * mu_ s f)).
  { unfold mu_. change (1 / 2 <= mean_rating s f) in M. destruct M as [M|M]; [left; apply psi_mono; lra|]. rewrite <- M. replace (1 - 1 / 2) with (1 / 2) by field. lra. }
  assert (E : ln (1 / 1000) - ln (1 - 1 / 1000) = - ln 999). { replace (1 - 1 / 1000) with (999 * / 1000) by field. replace (1 / 1000) with (/ 1000) by field. rewrite ln_mult by lra. ring. }
  generalize ln999. lra.
Qed.
Lemma low_curve f : 3 / 4 <= f <= 1 -> 1 < - W_ true_special 80 1 (1 / 1000) f.
Proof.
  intro Hf. assert (HT := low_T 1 f ltac:(lra) ltac:(lra)). unfold W_. set (T := T_ _ _ _ _ _) in *. assert (Q := sqrt2_range). assert (QE := sqrt2_sq).
  assert (I : 0 < / sqrt 2 < 70722 / 100000). { assert (IE : / sqrt 2 * sqrt 2 = 1) by (field; lra). assert (0 < / sqrt 2) by (apply Rinv_0_lt_compat; lra). nra. }
  assert (I' : 70671 / 100000 < / sqrt 2). { assert (IE : / sqrt 2 * sqrt 2 = 1) by (field; lra). nra. }
  assert (Z : f / (1 * sqrt 2) = f * / sqrt 2) by (field; lra). assert (E2 : i2var 1 = 1 / 2). { unfold i2var, isqrt2sig. replace (1 / (1 * sqrt 2)) with (/ sqrt 2) by (field; lra). assert (IE : / sqrt 2 * sqrt 2 = 1) by (field; lra). assert (/ sqrt 2 * / sqrt 2 * (sqrt 2 * sqrt 2) = 1) by (replace (/ sqrt 2 * / sqrt 2 * (sqrt 2 * sqrt 2)) with ((/ sqrt 2 * sqrt 2) * (/ sqrt 2 * sqrt 2)) by ring; rewrite IE; ring). rewrite QE in H. nra. }
  rewrite E2. assert (N := npdf0_value). assert (Zr : 0 <= f * / sqrt 2 <= 70722 / 100000) by nra.
  assert (A : A_ 80 1 f = 80 * / sqrt 2 * npdf (f * / sqrt 2)). { unfold A_, isqrt2sig. rewrite Z. replace (1 / (1 * sqrt 2)) with (/ sqrt 2) by (field; lra). reflexivity. }
  assert (Nu := npdf_top (f * / sqrt 2)). assert (Nl := npdf_low (f * / sqrt 2)). set (z := f * / sqrt 2) in *. assert (z * z <= 51 / 100) by nra. assert (Nl' : 26 / 100 < npdf z) by nra.
  assert (A1 : A_ 80 1 f < 2315 / 100) by (rewrite A; nra). assert (A2 : 14 < A_ 80 1 f) by (rewrite A; nra).
  assert (M : 1 / 2 <= mu_ 1 f <= 7893 / 10000). { unfold mu_, mean_rating. rewrite Z. fold z. assert (V := ndtr_above z ltac:(lra)). split; nra. }
  assert (S1 : psi1 true_special (80 * mu_ 1 f) <= 257 / 10000).
  { eapply Rle_trans; [apply psi1_upper; lra|]. assert (B : / (80 * mu_ 1 f) <= / 40) by (apply Rinv_le_contravar; lra). assert (0 < / (80 * mu_ 1 f)) by (apply Rinv_0_lt_compat; lra). rewrite <- pow_inv. set (u := / (80 * mu_ 1 f)) in *. clearbody u. assert (u ^ 2 <= / 40 * / 40) by nra. lra. }
  assert (S2 : psi1 true_special (80 * (1 - mu_ 1 f)) <= 630 / 10000).
  { eapply Rle_trans; [apply psi1_upper; lra|]. assert (B : / (80 * (1 - mu_ 1 f)) <= / (1685 / 100)) by (apply Rinv_le_contravar; lra). assert (0 < / (80 * (1 - mu_ 1 f))) by (apply Rinv_0_lt_compat; lra). rewrite <- pow_inv. replace (/ (1685 / 100)) with (100 / 1685) in B by field. set (u := / (80 * (1 - mu_ 1 f))) in *. clearbody u. assert (u ^ 2 <= 100 / 1685 * (100 / 1685)) by nra. lra. }
  assert (SS : S_ true_special 80 1 f <= 887 / 10000) by (unfold S_; lra). assert (Sp : 0 < S_ true_special 80 1 f) by (unfold S_; assert (V1 := psi1_positive (80 * mu_ 1 f)); assert (V2 := psi1_positive (80 * (1 - mu_ 1 f))); lra).
  set (a := A_ 80 1 f) in *. set (S0 := S_ true_special 80 1 f) in *. assert (X1 : a * S0 <= 2315 / 100 * (887 / 10000)) by nra. assert (X2 : f * (1 / 2) * T < - 225 / 100) by nra.
  assert (X : f * (1 / 2) * T + a * S0 < - 19 / 100) by lra. nra.
Qed.
Lemma low_free eps f : 0 < eps <= 1 / 10 -> 3 / 4 <= f <= 1 -> free eps 1 f.
Proof.
  intros He Hf. assert (Q := sqrt2_range). assert (I : 0 < / sqrt 2 < 70722 / 100000). { assert (IE : / sqrt 2 * sqrt 2 = 1) by (field; lra). assert (0 < / sqrt 2) by (apply Rinv_0_lt_compat; lra). nra. }
  unfold free, mean_rating. assert (Z : f / (1 * sqrt 2) = f * / sqrt 2) by (field; lra). rewrite Z. set (z := f * / sqrt 2). assert (Zr : 0 <= z <= 70722 / 100000) by (unfold z; nra). assert (V := ndtr_above z ltac:(lra)). assert (N := npdf0_value). split; [lra|]. nra.
Qed.
Lemma low_falls f g : 0 < f -> f < g -> rating_ll true_special 80 1 (1 / 1000) g < rating_ll true_special 80 1 (1 / 1000) f.
Proof.
  intros Hf Hg. assert (D : forall t, is_derive (rating_ll true_special 80 1 (1 / 1000)) t (A_ 80 1 t * T_ true_special 80 1 (1 / 1000) t)) by (intro t; apply rating_derive; [apply true_facts|lra]).
  destruct (MVT_gen (rating_ll true_special 80 1 (1 / 1000)) f g (fun t => A_ 80 1 t * T_ true_special 80 1 (1 / 1000) t)) as [c [Hc E]].
  - intros t _. apply D.
  - intros t _. apply derivable_continuous_pt. eexists. apply is_derive_Reals. apply D.
  - rewrite Rmin_left, Rmax_right in Hc by lra. assert (T := low_T 1 c ltac:(lra) ltac:(lra)). assert (A := A_pos 80 1 c ltac:(lra) ltac:(lra)). set (ac := A_ 80 1 c) in *. set (tc := T_ _ _ _ _ c) in *. assert (0 < ac * (- tc)) by (apply Rmult_lt_0_compat; lra). assert (0 < ac * (- tc) * (g - f)) by (apply Rmult_lt_0_compat; lra). lra.
Qed.

Section Wrong.
Variables (P : probit_set) (k : R) (L : nat -> nat -> R) (inv : nat -> (nat -> nat -> R) -> option (nat -> nat -> R)).
Hypothesis Hs : a_sigma (ps_a P) = 1.
Hypothesis Hv : a_v (ps_a P) = 80.
Hypothesis He : 0 < ps_eps P <= 1 / 10.
Hypothesis Hk : 1 <= k.
Hypothesis HL : chol 1 (fun _ _ => k) = Some L.
Hypothesis HI : inverts_all inv.
Let y := abs_only ((1 / 1000, 0%nat) :: nil).
Lemma low_post F : log_post true_special P y 1 (fun _ _ => 1 / k) F = rating_ll true_special 80 1 (1 / 1000) (F 0%nat) - 1 / 2 * (F 0%nat * F 0%nat / k).
Proof.
  unfold log_post, LL, part, y. cbn [y_rel y_ord y_abs abs_only]. rewrite Hs, Hv. unfold LLa, S_AbsProbit.LLa, qform. cbn [map fst snd rsum fold_right]. cbn -[rating_ll]. unfold Rdiv. ring.
Qed.
Lemma rating_step_wrong f0 : 3 / 4 <= f0 <= 1 -> exists f, mode_step true_special P y 1 L inv (f0 :: nil) = Ok (f :: nil) /\ f0 < f /\
  log_post true_special P y 1 (fun _ _ => 1 / k) (entries (f :: nil)) < log_post true_special P y 1 (fun _ _ => 1 / k) (entries (f0 :: nil)).
Proof.
  intro Hf. assert (HK : symmetric 1 (fun _ _ : nat => k)) by (intros ? ? _ _; reflexivity).
  assert (EI := k_inv_inverse 1 _ L HK HL). assert (EI0 : k_inv 1 L 0%nat 0%nat = 1 / k). { specialize (EI 0%nat 0%nat ltac:(lia) ltac:(lia)). cbn -[k_inv] in EI. apply (Rmult_eq_reg_l k); [|lra]. replace (k * (1 / k)) with 1 by (field; lra). lra. }
  assert (FR := low_free (ps_eps P) f0 He Hf). assert (LT := low_T 1 f0 ltac:(lra) ltac:(lra)). assert (LC := low_curve f0 Hf). assert (AP := A_pos 80 1 f0 ltac:(lra) ltac:(lra)).
  assert (Ik : 0 < 1 / k <= 1) by (split; [apply Rdiv_lt_0_compat; lra|]; apply (Rmult_le_reg_r k); [lra|]; replace (1 / k * k) with 1 by (field; lra); lra).
  unfold mode_step. assert (EDD : exists W g p, derivatives true_special P y (entries (f0 :: nil)) = Ok (W, g, p) /\ W 0%nat 0%nat = W_ true_special 80 1 (1 / 1000) f0 /\ g 0%nat = A_ 80 1 f0 * T_ true_special 80 1 (1 / 1000) f0).
  { unfold derivatives, y. cbn [y_rel y_ord y_abs abs_only bind]. do 3 eexists. split; [reflexivity|]. unfold derivs_add, abs_derivatives. cbn [fst snd map]. split.
    - cbn -[abs_Wdiag]. rewrite Wdiag_exact by (rewrite Hs; exact FR). rewrite Hs, Hv. cbn [fst snd entries nth]. ring.
    - cbn -[abs_dpy]. rewrite dpy_exact by (rewrite Hs; exact FR). rewrite Hs, Hv. cbn [fst snd entries nth]. ring. }
  destruct EDD as [W [g [p [EDD [EW EG]]]]]. rewrite EDD. cbn [bind fst snd]. set (H := mode_hess _ _ _). set (G := mode_gradient _ _ _ _).
  assert (HG : G 0%nat < 0). { unfold G, mode_gradient. rewrite (inverse_solves 1 _ L _ HK HL 0%nat ltac:(lia)). cbn -[k_inv]. rewrite EG, EI0. nra. }
  assert (HH : 0 < H 0%nat 0%nat). { unfold H, mode_hess. rewrite EI0, EW. lra. }
  assert (HR : right_inverse 1 H (fun _ _ => / H 0%nat 0%nat)). { intros i j Hi Hj. replace i with 0%nat by lia. replace j with 0%nat by lia. cbn. field. lra. }
  destruct (HI 1%nat H _ HR) as [C [EC HC]]. specialize (HC 0%nat 0%nat ltac:(lia) ltac:(lia)). cbn in HC.
  assert (Cp : 0 < C 0%nat 0%nat). { apply (Rmult_lt_reg_l (H 0%nat 0%nat)); lra. }
  assert (EX : descent inv 1 G H = (G 0%nat * C 0%nat 0%nat) :: nil). { unfold descent. rewrite EC. cbn. f_equal. ring. }
  rewrite EX. destruct (newton_binary (f0 :: nil) ((G 0%nat * C 0%nat 0%nat) :: nil) (objective (likli_f true_special P y 1 L)) 3) as [lam [Hl EL]]. rewrite EL. cbn [step_from combine map fst snd].
  exists (f0 - lam * (G 0%nat * C 0%nat 0%nat)). set (f := f0 - _). assert (Fp : f0 < f). { unfold f. assert (0 < lam * (- G 0%nat * C 0%nat 0%nat)) by (apply Rmult_lt_0_compat; [lra|apply Rmult_lt_0_compat; lra]). lra. }
  split; [reflexivity|]. split; auto. rewrite !low_post. cbn [entries nth]. assert (X := low_falls f0 f ltac:(lra) Fp). assert (f0 * f0 / k <= f * f / k) by (apply Rmult_le_compat_r; [left; apply Rinv_0_lt_compat; lra|nra]). lra.
Qed.
End Wrong.

(** ---- ascent where the ratings are concave ---- *)
Lemma rated_second sp P x (f : R) : gamma_facts sp -> 0 < a_v (ps_a P) -> Derive (Derive (rated sp P x)) f = - W_ sp (a_v (ps_a P)) (a_sigma (ps_a P)) x f.
Proof.
  intros G V. unfold rated. rewrite (Derive_ext (Derive (rating_ll sp (a_v (ps_a P)) (a_sigma (ps_a P)) x)) (fun f => A_ (a_v (ps_a P)) (a_sigma (ps_a P)) f * T_ sp (a_v (ps_a P)) (a_sigma (ps_a P)) x f)); [|intro t; apply is_derive_unique; now apply rating_derive].
  apply is_derive_unique. now apply grad_derive.
Qed.
Lemma outward_curved sp P y F : good_probits sp P -> outward sp P y F -> curved_down sp P y F.
Proof.
  intros [_ [_ [V [_ G]]]] H a Ea p Hp. rewrite rated_second by auto. specialize (H a Ea p Hp). unfold rated in H. rewrite (is_derive_unique _ _ _ (rating_derive sp G _ _ (fst p) V _)) in H.
  unfold W_. set (f := F (snd p)) in *. set (A := A_ _ _ _) in *. set (T := T_ _ _ _ _ _) in *. set (Sx := S_ _ _ _ _).
  assert (Sp : 0 < Sx). { unfold Sx, S_. destruct (vm_pos (a_v (ps_a P)) (a_sigma (ps_a P)) V f) as [V1 V2]. assert (U1 := gf_pos sp G _ V1). assert (U2 := gf_pos sp G _ V2). lra. }
  assert (I2 : 0 <= i2var (a_sigma (ps_a P))) by (unfold i2var; nra). set (i2 := i2var _) in *. replace (- (A * (f * i2 * T + A * Sx))) with (- (i2 * (f * (A * T)) + A * A * Sx)) by ring. assert (0 <= i2 * (f * (A * T))) by (now apply Rmult_le_pos). assert (0 <= A * A * Sx) by (apply Rmult_le_pos; [nra|lra]). lra.
Qed.
Lemma zero_outward sp P y : outward sp P y (fun _ => 0).
Proof. intros a Ea p Hp. lra. Qed.
Section Concave.
Variables (sp : special) (P : probit_set) (n : nat) (y : labels) (K L B : nat -> nat -> R) (inv : nat -> (nat -> nat -> R) -> option (nat -> nat -> R)).
Hypothesis GP : good_probits sp P.
Hypothesis GL : good_labels P n y.
Hypothesis NO : y_ord y = None.
Hypothesis HS : symmetric n K.
Hypothesis HL : chol n K = Some L.
Hypothesis HB : right_inverse n K B.
Hypothesis HI : inverts_all inv.
Lemma total_psd F W g v : ordinary P y F -> curved_down sp P y F -> derivatives sp P y F = Ok (W, g, v) -> symmetric n W /\ psd n W.
Proof.
  intros O CD E. destruct (total_W sp P y F NO) as [W' [g' [v' [E' HW]]]]. rewrite E in E'. injection E' as <- <- <-.
  assert (R1 : symmetric n (Wrel P y F) /\ psd n (Wrel P y F)).
  { unfold Wrel. destruct GP as [Hp _]. destruct GL as [G1 _]. destruct O as [O1 _]. destruct (y_rel y) as [r|].
    - split; [intros i j _ _; apply W_symmetric|]. apply W_psd; auto. intros p Hq. specialize (O1 r eq_refl p Hq). lra.
    - split; [intros i j _ _; reflexivity|]. intros c. unfold qform. rewrite sumn_zero; [lra|]. intros. apply sumn_zero. intros. ring. }
  assert (R2 : symmetric n (Wabs sp P y F) /\ psd n (Wabs sp P y F)).
  { unfold Wabs. destruct GP as [_ [_ [Hv [He Hg]]]]. destruct GL as [_ [_ G3]]. destruct O as [_ [_ O3]]. destruct (y_abs y) as [a|] eqn:Ea.
    - destruct (G3 a eq_refl) as [N _]. specialize (O3 a eq_refl). split.
      + intros i j _ _. rewrite !W_model by auto. apply rsum_ext. intros p _. now rewrite Bool.andb_comm.
      + apply (psd_ext n (fun i j => rsum (map (fun p => W_ sp (a_v (ps_a P)) (a_sigma (ps_a P)) (fst p) (F (snd p)) * ((if Nat.eqb i (snd p) then 1 else 0) * (if Nat.eqb j (snd p) then 1 else 0))) a))).
        * intros i j _ _. rewrite W_model by auto. apply rsum_ext. intros p _. destruct (Nat.eqb i (snd p)), (Nat.eqb j (snd p)); cbn [andb]; ring.
        * apply (psd_rsum n (fun (p : R * nat) i j => W_ sp (a_v (ps_a P)) (a_sigma (ps_a P)) (fst p) (F (snd p)) * ((if Nat.eqb i (snd p) then 1 else 0) * (if Nat.eqb j (snd p) then 1 else 0))) a). intros p Hq. apply psd_scale; [|apply (psd_rank1 n (fun i => if Nat.eqb i (snd p) then 1 else 0))]. specialize (CD a Ea p Hq). rewrite rated_second in CD by auto. lra.
    - split; [intros i j _ _; reflexivity|]. intros c. unfold qform. rewrite sumn_zero; [lra|]. intros. apply sumn_zero. intros. ring. }
  destruct R1 as [S1 P1]. destruct R2 as [S2 P2]. split.
  - intros i j Hi Hj. rewrite !HW. now rewrite (S1 i j), (S2 i j).
  - apply (psd_ext n (fun i j => Wrel P y F i j + Wabs sp P y F i j)); [intros; now rewrite HW|]. now apply psd_plus.
Qed.
Lemma rated_shape F : length F = n -> ordinary P y (entries F) -> curved_down sp P y (entries F) -> exists g x lam H, 0 < lam < 15 / 10 /\
  mode_step sp P y n L inv F = Ok (map (fun i => entries F i - lam * x i) (seq 0 n)) /\ solves n H g x /\ pd n (fun i j => - H i j) /\
  (forall e, has_direction (log_post sp P y n B) (entries F) e (dotn n g e)).
Proof.
  intros HF O CD. destruct (mode_gradient_right sp P n y K L B (entries F) GP GL O HS HL HB) as [W [g [E D]]]. destruct (total_psd (entries F) W g _ O CD E) as [WS WP].
  destruct (hess_neg n K L W HS HL WS WP) as [MS MP]. destruct (descent_spec inv n (mode_gradient n L g (entries F)) (mode_hess n L W) HI MS MP) as [x [Ex Sx]].
  unfold mode_step. rewrite E. cbn [bind fst snd]. rewrite Ex. destruct (newton_binary F (map x (seq 0 n)) (objective (likli_f sp P y n L)) 3) as [lam [Hl EL]]. rewrite EL.
  exists (mode_gradient n L g (entries F)), x, lam, (mode_hess n L W). split; auto. split; [now rewrite step_from_map|]. auto.
Qed.
Lemma rated_ascent F : length F = n -> ordinary P y (entries F) -> curved_down sp P y (entries F) -> exists e lam, 0 < lam < 15 / 10 /\
  mode_step sp P y n L inv F = Ok (map (along (entries F) e lam) (seq 0 n)) /\
  ((exists l d, has_direction (log_post sp P y n B) (entries F) e l /\ 0 < l /\ 0 < d /\ forall t, 0 < t < d -> log_post sp P y n B (entries F) < log_post sp P y n B (along (entries F) e t)) \/
   ((forall e', has_direction (log_post sp P y n B) (entries F) e' 0) /\ mode_step sp P y n L inv F = Ok F)).
Proof.
  intros HF O CD. destruct (rated_shape F HF O CD) as [g [x [lam [H [Hl [E [Sx [MP D]]]]]]]]. exists (fun i => - x i), lam. split; auto. split.
  - rewrite E. f_equal. apply map_ext. intro i. unfold along. ring.
  - destruct (zero_or_not n x) as [Z|Z].
    + left. assert (Lp : 0 < dotn n g (fun i => - x i)) by (rewrite (descent_rise n H g x Sx); now apply MP). destruct (dir_raises _ _ _ _ (D (fun i => - x i)) Lp) as [d [Hd Kd]]. exists (dotn n g (fun i => - x i)), d. auto.
    + right. split.
      * intro e'. rewrite <- (zero_solution n g x H Sx Z e'). apply D.
      * rewrite E. f_equal. transitivity (map (entries F) (seq 0 n)); [|now apply map_entries]. apply map_ext_in. intros i Hi. apply in_seq in Hi. rewrite Z by lia. ring.
Qed.
Lemma rated_fixed F : length F = n -> ordinary P y (entries F) -> curved_down sp P y (entries F) ->
  (mode_step sp P y n L inv F = Ok F <-> forall e, has_direction (log_post sp P y n B) (entries F) e 0).
Proof.
  intros HF O CD. destruct (rated_shape F HF O CD) as [g [x [lam [H [Hl [E [Sx [MP D]]]]]]]]. split; intro Q.
  - assert (Z : forall i, (i < n)%nat -> x i = 0).
    { intros i Hi. rewrite E in Q. injection Q as Q. assert (T := f_equal (fun l => nth i l 0) Q). cbn in T. rewrite nth_map_seq in T by auto. unfold entries in T. nra. }
    intro e. rewrite <- (zero_solution n g x H Sx Z e). apply D.
  - assert (Z : forall i, (i < n)%nat -> x i = 0).
    { destruct (zero_or_not n x) as [Z|Z]; auto. exfalso. assert (R1 := descent_rise n H g x Sx). assert (R2 := MP x Z).
      assert (U := is_derive_unique _ _ _ (D (fun i => - x i))). rewrite (is_derive_unique _ _ _ (Q (fun i => - x i))) in U. cbn in R1. lra. }
    rewrite E. f_equal. transitivity (map (entries F) (seq 0 n)); [|now apply map_entries]. apply map_ext_in. intros i Hi. apply in_seq in Hi. rewrite Z by lia. ring.
Qed.
End Concave.
