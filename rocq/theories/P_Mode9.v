(** How far from the mode find_mode stops. *)
From Coquelicot Require Import Coquelicot.
From Coq Require Import Reals Lra Lia List.
From Verif Require Import M_RBase M_Normal M_PrefProbit M_OrdProbit M_AbsProbit M_Acq M_GP M_Search M_Fit M_Mode S_Search P_Search S_PrefProbit S_OrdProbit S_AbsProbit S_Kernel S_GP S_Fit S_Mode P_RBase P_Acq P_Normal P_PrefProbit P_Put P_OrdProbit P_AbsProbit P_Chol P_GP P_GP3 P_Fit P_Fit2 P_Fit3 P_Fit4 P_Fit5 P_Mode P_Mode2 P_Mode3 P_Mode4 P_Mode5 P_Mode6 P_Mode7 P_Mode8.
From Verif Require Import S_Psd P_Psd.
Local Open Scope R_scope.

(** ---- the slope of the ratio is less than one ---- *)
Definition fades (f : R -> R) : Prop := forall eps, 0 < eps -> exists M, forall y, y <= M -> Rabs (f y) < eps.
Lemma rising_positive (f df : R -> R) : (forall x : R, is_derive f x (df x)) -> (forall x, 0 < df x) -> fades f -> forall x, 0 < f x.
Proof.
  intros D Pd Z x. assert (I : forall a b, a < b -> f a < f b).
  { intros a b H. destruct (MVT_gen f a b df) as [c [_ Hc]]; [intros; apply D|intros t _; eapply cont_pt_derive, D|]. assert (0 < df c * (b - a)) by (apply Rmult_lt_0_compat; [apply Pd|lra]). lra. }
  assert (0 <= f (x - 1)); [|assert (T := I (x - 1) x ltac:(lra)); lra]. apply Rnot_lt_le. intro N. destruct (Z (- f (x - 1)) ltac:(lra)) as [M HM].
  assert (T := HM (Rmin M (x - 2)) (Rmin_l _ _)). assert (T2 := I (Rmin M (x - 2)) (x - 1) ltac:(assert (W := Rmin_r M (x - 2)); lra)). apply Rabs_def2 in T. lra.
Qed.
Lemma exp_fast x : 1 <= x -> exp (- x ^ 2 / 2) <= 16 / x ^ 4.
Proof.
  intro H. assert (X2 : 0 < x ^ 2) by (apply pow_lt; lra). assert (X4 : 0 < x ^ 4) by (apply pow_lt; lra). assert (E := exp_ineq1_le (x ^ 2 / 4)). assert (P := exp_pos (x ^ 2 / 4)).
  assert (Q : exp (x ^ 2 / 4) * exp (x ^ 2 / 4) * exp (- x ^ 2 / 2) = 1) by (rewrite <- !exp_plus; replace (x ^ 2 / 4 + x ^ 2 / 4 + - x ^ 2 / 2) with 0 by field; apply exp_0).
  assert (S : x ^ 2 / 4 * (x ^ 2 / 4) <= exp (x ^ 2 / 4) * exp (x ^ 2 / 4)) by (apply Rmult_le_compat; lra). assert (P2 := exp_pos (- x ^ 2 / 2)).
  assert (x ^ 2 / 4 * (x ^ 2 / 4) * exp (- x ^ 2 / 2) <= 1) by (rewrite <- Q; apply Rmult_le_compat_r; lra).
  apply (Rmult_le_reg_l (x ^ 4)); auto. replace (x ^ 4 * (16 / x ^ 4)) with 16 by (field; lra). replace (x ^ 2 / 4 * (x ^ 2 / 4)) with (x ^ 4 / 16) in H0 by field. lra.
Qed.
Lemma npdf_exp x : npdf x <= exp (- x ^ 2 / 2).
Proof.
  unfold npdf. assert (P2 := PI2_1). assert (Q : 1 <= sqrt (2 * PI)) by (rewrite <- sqrt_1; apply sqrt_le_1; lra). assert (E := exp_pos (- x ^ 2 / 2)).
  apply (Rmult_le_reg_r (sqrt (2 * PI))); [lra|]. replace (exp (- x ^ 2 / 2) / sqrt (2 * PI) * sqrt (2 * PI)) with (exp (- x ^ 2 / 2)) by (field; lra). assert (exp (- x ^ 2 / 2) * 1 <= exp (- x ^ 2 / 2) * sqrt (2 * PI)) by (apply Rmult_le_compat_l; lra). lra.
Qed.
(** both terms are at most 16 / x^4 to the left of -1 *)
Lemma left_small x : x <= -1 -> 0 < npdf x <= 16 / x ^ 4 /\ 0 < ndtr x <= 16 / x ^ 4.
Proof.
  intro H. assert (E := exp_fast (- x) ltac:(lra)). replace ((- x) ^ 2) with (x ^ 2) in E by ring. replace ((- x) ^ 4) with (x ^ 4) in E by ring. assert (A := npdf_exp x). assert (B := ndtr_left_tail x ltac:(lra)). assert (C := npdf_pos x). assert (D := ndtr_range x). assert (X := exp_pos (- x ^ 2 / 2)). lra.
Qed.
Lemma fades_by (f : R -> R) c : 0 < c -> (forall x, x <= -1 -> Rabs (f x) <= c / - x) -> fades f.
Proof.
  intros C H eps He. exists (Rmin (-1) (- (2 * c / eps))). intros y Hy. assert (Y1 : y <= -1) by (eapply Rle_trans; [exact Hy|apply Rmin_l]). assert (Y2 : y <= - (2 * c / eps)) by (eapply Rle_trans; [exact Hy|apply Rmin_r]).
  eapply Rle_lt_trans; [now apply H|]. apply (Rmult_lt_reg_r (- y)); [lra|]. replace (c / - y * - y) with c by (field; lra). assert (eps * (2 * c / eps) <= eps * - y) by (apply Rmult_le_compat_l; lra). replace (eps * (2 * c / eps)) with (2 * c) in H0 by (field; lra). lra.
Qed.
Definition mill (z : R) : R := npdf z + z * ndtr z.
Definition mill2 (z : R) : R := ndtr z + z * mill z.
Definition mill3 (z : R) : R := ndtr z ^ 2 - npdf z * mill z.
Lemma mill2_derive (z : R) : is_derive mill2 z (2 * mill z).
Proof.
  unfold mill2. assert (D := mills_derive z). fold (mill z) in *. change (fun z : R => npdf z + z * ndtr z) with mill in D.
  replace (2 * mill z) with (npdf z + (1 * mill z + z * ndtr z)) by (unfold mill; ring). apply (is_derive_plus ndtr (fun z => z * mill z)); [apply ndtr_derive|].
  apply (is_derive_mult (fun z => z) mill z 1 (ndtr z)); [apply rid_derive|exact D|intros; apply Rmult_comm].
Qed.
Lemma mill2_pos z : 0 < mill2 z.
Proof.
  apply (rising_positive mill2 (fun z => 2 * mill z)); [exact mill2_derive|intro x; assert (T := mills x); unfold mill; lra|]. apply (fades_by _ 48 ltac:(lra)). intros x Hx.
  destruct (left_small x Hx) as [[A1 A2] [B1 B2]]. unfold mill2, mill. set (y := - x) in *. replace x with (- y) in * by (unfold y; ring). replace ((- y) ^ 4) with (y ^ 4) in * by ring. assert (Y : 1 <= y) by lra.
  set (a := npdf (- y)) in *. set (b := ndtr (- y)) in *. replace (b + - y * (a + - y * b)) with (b - y * a + y ^ 2 * b) by ring.
  assert (Y4 : 0 < y ^ 4) by (apply pow_lt; lra). assert (T : 0 < 16 / y ^ 4) by (apply Rdiv_lt_0_compat; lra). assert (Y2 : 1 <= y ^ 2) by nra.
  assert (E : y ^ 2 * (16 / y ^ 4) <= 16 / y). { replace (y ^ 2 * (16 / y ^ 4)) with (16 / y * (1 / y)) by (field; lra). assert (0 < 16 / y) by (apply Rdiv_lt_0_compat; lra). assert (1 / y <= 1) by (apply (Rmult_le_reg_r y); [lra|]; replace (1 / y * y) with 1 by (field; lra); lra). nra. }
  assert (E1 : y * (16 / y ^ 4) <= y ^ 2 * (16 / y ^ 4)) by (apply Rmult_le_compat_r; nra). assert (E0 : 16 / y ^ 4 <= y ^ 2 * (16 / y ^ 4)) by nra.
  assert (F1 : y * a <= y * (16 / y ^ 4)) by (apply Rmult_le_compat_l; lra). assert (F2 : y ^ 2 * b <= y ^ 2 * (16 / y ^ 4)) by (apply Rmult_le_compat_l; lra).
  assert (0 <= y * a) by (apply Rmult_le_pos; lra). assert (0 <= y ^ 2 * b) by (apply Rmult_le_pos; lra). replace (48 / - - y) with (3 * (16 / y)) by (field; lra). apply Rabs_le. lra.
Qed.
Lemma mill3_derive (z : R) : is_derive mill3 z (npdf z * mill2 z).
Proof.
  unfold mill3. assert (D := mills_derive z). change (fun z : R => npdf z + z * ndtr z) with mill in D.
  replace (npdf z * mill2 z) with (2 * ndtr z * npdf z - (- z * npdf z * mill z + npdf z * ndtr z)) by (unfold mill2, mill; ring).
  apply (is_derive_minus (fun z => ndtr z ^ 2) (fun z => npdf z * mill z)).
  - replace (2 * ndtr z * npdf z) with (INR 2 * npdf z * ndtr z ^ 1) by (cbn; ring). apply (is_derive_pow ndtr 2 z (npdf z)). apply ndtr_derive.
  - apply (is_derive_mult npdf mill z (- z * npdf z) (ndtr z)); [apply npdf_derive|exact D|intros; apply Rmult_comm].
Qed.
Lemma mill3_pos z : 0 < mill3 z.
Proof.
  apply (rising_positive mill3 (fun z => npdf z * mill2 z)); [exact mill3_derive|intro x; apply Rmult_lt_0_compat; [apply npdf_pos|apply mill2_pos]|]. apply (fades_by _ 512 ltac:(lra)). intros x Hx.
  destruct (left_small x Hx) as [[A1 A2] [B1 B2]]. assert (M := mills x). fold (mill x) in M. assert (M2 : mill x <= npdf x) by (unfold mill; assert (x * ndtr x <= 0) by nra; lra). unfold mill3.
  set (y := - x) in *. replace x with (- y) in * by (unfold y; ring). replace ((- y) ^ 4) with (y ^ 4) in * by ring. assert (Y : 1 <= y) by lra. set (a := npdf (- y)) in *. set (b := ndtr (- y)) in *. set (m := mill (- y)) in *.
  assert (Y2 : 1 <= y ^ 2) by nra. assert (Y4 : y <= y ^ 4) by (replace (y ^ 4) with (y * (y * y ^ 2)) by ring; nra). assert (T : 16 / y ^ 4 <= 16 / y). { apply Rmult_le_compat_l; [lra|]. apply Rinv_le_contravar; lra. }
  assert (T16 : 16 / y <= 16). { apply (Rmult_le_reg_r y); [lra|]. replace (16 / y * y) with 16 by (field; lra). lra. }
  assert (0 <= b ^ 2 <= 16 * (16 / y)). { split; [apply pow2_ge_0|]. replace (b ^ 2) with (b * b) by ring. apply Rmult_le_compat; lra. }
  assert (0 <= a * m <= 16 * (16 / y)). { split; [apply Rmult_le_pos; lra|]. apply Rmult_le_compat; lra. }
  replace (512 / - - y) with (2 * (16 * (16 / y))) by (field; lra). apply Rabs_le. lra.
Qed.
Lemma hazard_slope z : hazard z * (z + hazard z) < 1.
Proof.
  assert (T := mill3_pos z). unfold mill3, mill in T. assert (D := ndtr_range z). unfold hazard. set (b := ndtr z) in *. set (a := npdf z) in *. apply (Rmult_lt_reg_r (b ^ 2)); [apply pow_lt; lra|]. replace (a / b * (z + a / b) * b ^ 2) with (a * (a + z * b)) by (field; lra). lra.
Qed.
Lemma paren_one z : -30 < z < 100 -> 0 < paren z < 1.
Proof. intro H. split; [apply paren_pos; lra|]. unfold paren. rewrite ratio_id by lra. assert (T := hazard_slope z). lra. Qed.

(** ---- the step lengths of the line search ---- *)
Lemma bls_range phi m : forall lo hi, lo < hi -> lo + (hi - lo) / 2 ^ S m <= binary_line_search phi lo hi m <= hi - (hi - lo) / 2 ^ S m.
Proof.
  induction m as [|m IH]; intros lo hi H; cbn [binary_line_search]; [cbn; lra|]. set (mid := (hi - lo) * (5 / 10) + lo). assert (P0 : 0 < 2 ^ S m) by (apply pow_lt; lra).
  assert (E : (hi - lo) / 2 ^ S (S m) = (hi - lo) / 2 / 2 ^ S m) by (cbn [pow]; field; cbn [pow] in P0; assert (0 < 2 ^ m) by (apply pow_lt; lra); lra). rewrite E.
  assert (P1 : 2 <= 2 ^ S m) by (cbn [pow]; assert (1 <= 2 ^ m) by (apply pow_R1_Rle; lra); lra).
  assert (Q : 0 < (hi - lo) / 2 / 2 ^ S m <= (hi - lo) / 2). { split; [apply Rdiv_lt_0_compat; lra|]. apply (Rmult_le_reg_r (2 ^ S m)); auto. replace ((hi - lo) / 2 / 2 ^ S m * 2 ^ S m) with ((hi - lo) / 2) by (field; lra). nra. }
  destruct ogtb.
  - assert (T := IH lo mid ltac:(unfold mid; lra)). replace (mid - lo) with ((hi - lo) / 2) in T by (unfold mid; field). unfold mid in *. lra.
  - assert (T := IH mid hi ltac:(unfold mid; lra)). replace (hi - mid) with ((hi - lo) / 2) in T by (unfold mid; field). unfold mid in *. lra.
Qed.

Section Distance.
Variables (sp : special) (P : probit_set) (n : nat) (r : list pair) (K L B : nat -> nat -> R) (inv : nat -> (nat -> nat -> R) -> option (nat -> nat -> R)).
Hypotheses (GP : good_probits sp P) (SP : 0 < p_sigma (ps_p P)) (WF : well_formed n r) (SK : symmetric n K) (EL : chol n K = Some L) (IB : right_inverse n K B) (HI : inverts_all inv).
Let s := p_sigma (ps_p P).
Lemma PK9 : pd n K.
Proof. exact (chol_pd n K L SK EL). Qed.
Lemma SB9 : symmetric n B.
Proof. exact (SB n K B SK IB). Qed.
Lemma PB9 : psd n B.
Proof. apply pd_psd. exact (PB n K B SK PK9 IB). Qed.
Lemma step_shape9 F : length F = n -> unclipped s r (entries F) -> exists x lam, 3 / 32 <= lam <= 45 / 32 /\
  mode_step sp P (only r) n L inv F = Ok (map (fun i => entries F i - lam * x i) (seq 0 n)) /\
  forall e, hLLp s r (entries F) e - bform n B e (entries F) = - (bform n (calc_W s r (entries F)) e x + bform n B e x).
Proof.
  intros HF U. assert (GL := only_good P n r WF). assert (O : ordinary P (only r) (entries F)). { split; [|split]; try (intros o H; discriminate H). intros r' H. injection H as <-. exact U. }
  destruct (mode_gradient_right sp P n (only r) K L B (entries F) GP GL O SK EL IB) as [W [g [E D]]].
  destruct (rel_W sp P n r (entries F) GP GL O) as [W' [g' [v' [E' [WS [WP WC]]]]]]. fold (only r) in E'. rewrite E in E'. injection E' as <- <- <-.
  destruct (hess_neg n K L W SK EL WS WP) as [MS MP]. destruct (descent_spec inv n (mode_gradient n L g (entries F)) (mode_hess n L W) HI MS MP) as [x [Ex Sx]].
  unfold mode_step. rewrite E. cbn [bind fst snd]. rewrite Ex. unfold newton_update. cbn [bind].
  set (lam := binary_line_search _ 0 (15 / 10) 3). exists x, lam. split; [|split].
  - assert (T := bls_range (fun lam : R => objective (likli_f sp P (only r) n L) (step_from F (map x (seq 0 n)) lam)) 3 0 (15 / 10) ltac:(lra)). fold lam in T. cbn [pow] in T. lra.
  - now rewrite step_from_map.
  - intro e. assert (D1 := D e). assert (D2 := post_dir sp P r n B (entries F) e (proj1 GP) SB9). fold s in D2.
    assert (Eq : hLLp s r (entries F) e - bform n B e (entries F) = dotn n (mode_gradient n L g (entries F)) e) by (rewrite <- (is_derive_unique _ _ _ D1); symmetry; apply is_derive_unique; exact D2). rewrite Eq.
    transitivity (bform n (mode_hess n L W) e x). { rewrite bform_dot. apply dotn_ext. intros i Hi. symmetry. now apply Sx. }
    rewrite (bform_ext n (mode_hess n L W) (fun i j => - (calc_W s r (entries F) i j + B i j))); [rewrite bform_opp, bform_plus; reflexivity|].
    intros i j Hi Hj. unfold mode_hess. rewrite WC. fold s. rewrite (inverse_unique n K (k_inv n L) B SK PK9 (k_inv_inverse n K L SK EL) IB i j Hi Hj). ring.
Qed.
Lemma margin_form v p : well_formed n (p :: nil) -> margin v p ^ 2 <= margin_cov K p p * qform n B v.
Proof.
  intro W. destruct (W p (or_introl eq_refl)) as [Hu [Hv Hd]]. destruct (Nat.eq_dec (u_of p) (v_of p)) as [E|D].
  - unfold margin, margin_cov. rewrite E. right. ring.
  - set (e := fun k => if Nat.eqb k (v_of p) then 1 else if Nat.eqb k (u_of p) then -1 else 0).
    assert (PBd := pairing_bound n K B SK PK9 IB v e). assert (Qe : qform n K e = margin_cov K p p).
    { unfold e. rewrite qform_2 by auto. unfold margin_cov. replace (dk_of p * dk_of p) with 1 by (destruct Hd as [-> | ->]; ring). ring. }
    assert (De : dotn n e v = v (v_of p) - v (u_of p)).
    { unfold dotn, e. rewrite (sumn_ext n _ (fun i => unitv (v_of p) i * v i - unitv (u_of p) i * v i)); [rewrite sumn_minus, !sumn_unit by auto; reflexivity|]. intros i _. unfold unitv. destruct (Nat.eqb_spec i (v_of p)), (Nat.eqb_spec i (u_of p)); try (exfalso; congruence); ring. }
    rewrite Qe, De in PBd. replace (margin v p ^ 2) with ((v (v_of p) - v (u_of p)) ^ 2) by (unfold margin; destruct Hd as [-> | ->]; ring). exact PBd.
Qed.
Lemma cov_nonneg p : well_formed n (p :: nil) -> 0 <= margin_cov K p p.
Proof.
  intro W. destruct (Nat.eq_dec (u_of p) (v_of p)) as [E|D]; [unfold margin_cov; rewrite E; right; ring|]. left. exact (cov_pos n K PK9 p W D).
Qed.
Lemma load_nonneg : 0 <= load s K r.
Proof.
  unfold load. apply Rmult_le_pos; [|left; apply Rinv_0_lt_compat; assert (0 < s ^ 2) by (apply pow_lt; exact SP); lra]. assert (H : forall l, (forall p, In p l -> In p r) -> 0 <= rsum (map (fun p => margin_cov K p p) l)); [|now apply H].
  induction l as [|p l IH]; intro Hl; cbn [map rsum]; [lra|]. assert (C := cov_nonneg p (wf_one n r p WF (Hl p (or_introl eq_refl)))). specialize (IH (fun q H => Hl q (or_intror H))). lra.
Qed.
(** the likelihood curves at most [load] times as much as the prior *)
Lemma W_load F v : unclipped s r F -> qform n (calc_W s r F) v <= load s K r * qform n B v.
Proof.
  intro U. rewrite <- bform_qform, W_bform by exact WF. unfold load. assert (S0 : s <> 0) by apply GP. assert (S2 : 0 < s ^ 2) by (apply pow_lt; exact SP). assert (Qv := PB9 v).
  assert (Z := z_clip s r F S0 U). assert (H : forall l, (forall p, In p l -> In p r) -> rsum (map (fun p => paren (z_of s F p) * dz s p v * dz s p v) l) <= rsum (map (fun p => margin_cov K p p) l) / (2 * s ^ 2) * qform n B v); [|now apply H].
  induction l as [|p l IH]; intro Hl; cbn [map rsum]; [unfold Rdiv; rewrite !Rmult_0_l; lra|]. specialize (IH (fun q H => Hl q (or_intror H))). assert (Hp := Hl p (or_introl eq_refl)).
  assert (Pn := paren_one _ (Z p Hp)). rewrite dz_margin by exact S0. assert (M := margin_form v p (wf_one n r p WF Hp)). assert (Q2 := sqrt2_pos).
  assert (E : paren (z_of s F p) * (margin v p / (s * sqrt 2)) * (margin v p / (s * sqrt 2)) = paren (z_of s F p) * (margin v p ^ 2 / (2 * s ^ 2))).
  { replace (2 * s ^ 2) with (s ^ 2 * (sqrt 2 * sqrt 2)) by (rewrite sqrt_sqrt by lra; ring). field. split; [lra|exact S0]. } rewrite E.
  assert (0 <= margin v p ^ 2 / (2 * s ^ 2)). { apply Rmult_le_pos; [apply pow2_ge_0|left; apply Rinv_0_lt_compat; lra]. }
  assert (margin v p ^ 2 / (2 * s ^ 2) <= margin_cov K p p / (2 * s ^ 2) * qform n B v). { unfold Rdiv. replace (margin_cov K p p * / (2 * s ^ 2) * qform n B v) with (margin_cov K p p * qform n B v * / (2 * s ^ 2)) by ring. apply Rmult_le_compat_r; [left; apply Rinv_0_lt_compat; lra|exact M]. }
  assert (paren (z_of s F p) * (margin v p ^ 2 / (2 * s ^ 2)) <= 1 * (margin v p ^ 2 / (2 * s ^ 2))) by (apply Rmult_le_compat_r; lra). unfold Rdiv in *. lra.
Qed.
Lemma form_sqrt A x y : symmetric n A -> psd n A -> Rabs (bform n A x y) <= sqrt (qform n A x) * sqrt (qform n A y).
Proof.
  intros SA PA. rewrite <- sqrt_mult by apply PA. rewrite <- sqrt_Rsqr_abs. apply sqrt_le_1; [apply Rle_0_sqr|apply Rmult_le_pos; apply PA|]. assert (T := cauchy_form n A x y SA PA). unfold Rsqr. replace (bform n A x y ^ 2) with (bform n A x y * bform n A x y) in T by ring. exact T.
Qed.
Lemma norm_add x y t : 0 <= t -> sqrt (qform n B (fun i => x i + t * y i)) <= sqrt (qform n B x) + t * sqrt (qform n B y).
Proof.
  intro Ht. assert (E : (fun i => x i + t * y i) = along x y t) by reflexivity. rewrite E, qform_along by exact SB9. assert (Qx := PB9 x). assert (Qy := PB9 y). assert (C := form_sqrt B y x SB9 PB9). set (a := sqrt (qform n B x)) in *. set (b := sqrt (qform n B y)) in *.
  assert (A2 : a * a = qform n B x) by (apply sqrt_sqrt; auto). assert (B2 : b * b = qform n B y) by (apply sqrt_sqrt; auto). assert (A0 : 0 <= a) by apply sqrt_pos. assert (B0 : 0 <= b) by apply sqrt_pos.
  assert (T : bform n B y x <= b * a) by (eapply Rle_trans; [apply Rle_abs|exact C]). assert (0 <= t * b) by now apply Rmult_le_pos.
  rewrite <- (sqrt_square (a + t * b)) by lra. apply sqrt_le_1_alt. rewrite <- A2, <- B2. assert (t * (2 * bform n B y x) <= t * (2 * (b * a))) by (apply Rmult_le_compat_l; lra). nra.
Qed.
Lemma step_distance F x Fs : unclipped s r F -> (forall e, hLLp s r F e - bform n B e F = - (bform n (calc_W s r F) e x + bform n B e x)) -> mode sp P (only r) n B Fs ->
  sqrt (qform n B (fun i => Fs i - F i)) <= (1 + load s K r) * sqrt (qform n B x).
Proof.
  intros U Hx M. set (e := fun i => Fs i - F i). assert (S0 : s <> 0) by apply GP. assert (NL : not_low s r F) by (intros p Hp; specialize (U p Hp); lra).
  assert (T1 := LLp_tangent s r F Fs _ S0 (LLp_dir s r F e S0)). assert (T2 := LLp_tangent s r Fs F _ S0 (LLp_dir s r Fs (fun i => F i - Fs i) S0)).
  assert (Eo : hLLp s r Fs (fun i => F i - Fs i) = - hLLp s r Fs e). { rewrite !hLLp_pull by exact S0. clear. induction r as [|p l IH]; cbn [map rsum]; [ring|]. rewrite IH. unfold margin, e. ring. }
  rewrite Eo in T2. assert (MS := mode_slope sp P r n B Fs e S0 SB9 M). fold s in MS. rewrite MS in T2. assert (X := Hx e).
  assert (Q : bform n B e Fs = bform n B e F + qform n B e). { rewrite <- (along_diff F Fs) at 1. rewrite bform_along. fold e. rewrite bform_qform. ring. }
  assert (Main : qform n B e <= - (bform n (calc_W s r F) e x + bform n B e x)) by lra.
  assert (SW : symmetric n (calc_W s r F)) by (intros i j _ _; apply W_symmetric). assert (PW : psd n (calc_W s r F)) by (apply W_psd; auto).
  assert (C1 := form_sqrt (calc_W s r F) e x SW PW). assert (C2 := form_sqrt B e x SB9 PB9). assert (R1 := Rle_abs (- bform n (calc_W s r F) e x)). rewrite Rabs_Ropp in R1. assert (R2 := Rle_abs (- bform n B e x)). rewrite Rabs_Ropp in R2.
  assert (W1 := W_load F e U). assert (W2 := W_load F x U). set (k := load s K r) in *. assert (K0 : 0 <= k) by exact load_nonneg. set (a := sqrt (qform n B e)) in *. set (b := sqrt (qform n B x)) in *.
  assert (A2 : a * a = qform n B e) by (apply sqrt_sqrt, PB9). assert (B2 : b * b = qform n B x) by (apply sqrt_sqrt, PB9). assert (A0 : 0 <= a) by apply sqrt_pos. assert (B0 : 0 <= b) by apply sqrt_pos.
  assert (V1 : sqrt (qform n (calc_W s r F) e) <= sqrt k * a) by (unfold a; rewrite <- sqrt_mult by (auto; apply PB9); apply sqrt_le_1_alt; exact W1).
  assert (V2 : sqrt (qform n (calc_W s r F) x) <= sqrt k * b) by (unfold b; rewrite <- sqrt_mult by (auto; apply PB9); apply sqrt_le_1_alt; exact W2).
  assert (V : sqrt (qform n (calc_W s r F) e) * sqrt (qform n (calc_W s r F) x) <= sqrt k * a * (sqrt k * b)) by (apply Rmult_le_compat; auto; apply sqrt_pos). replace (sqrt k * a * (sqrt k * b)) with (sqrt k * sqrt k * (a * b)) in V by ring. rewrite sqrt_sqrt in V by auto.
  assert (Z : a * a <= (1 + k) * b * a) by lra. destruct A0 as [A0| <-]; [apply (Rmult_le_reg_r a); lra|]. apply Rmult_le_pos; lra.
Qed.
Lemma step_accuracy F F' Fs : length F = n -> unclipped s r (entries F) -> mode_step sp P (only r) n L inv F = Ok F' -> mode sp P (only r) n B Fs ->
  sqrt (qform n B (fun i => Fs i - entries F' i)) <= (1 + 32 / 3 * (1 + load s K r)) * sqrt (qform n B (fun i => entries F' i - entries F i)).
Proof.
  intros LF U E M. destruct (step_shape9 F LF U) as [x [lam [Hl [E' Hx]]]]. rewrite E in E'. injection E' as ->. assert (D := step_distance (entries F) x Fs U Hx M).
  assert (Q1 : qform n B (fun i => Fs i - entries (map (fun i => entries F i - lam * x i) (seq 0 n)) i) = qform n B (fun i => (Fs i - entries F i) + lam * x i)).
  { apply qform_ext; [reflexivity|]. intros i Hi. rewrite entries_map by auto. ring. }
  assert (Q2 : qform n B (fun i => entries (map (fun i => entries F i - lam * x i) (seq 0 n)) i - entries F i) = lam ^ 2 * qform n B x).
  { transitivity (qform n B (fun i => - lam * x i)); [apply qform_ext; [reflexivity|]; intros i Hi; rewrite entries_map by auto; ring|]. unfold qform. rewrite <- sumn_scale. apply sumn_ext. intros i _. rewrite <- sumn_scale. apply sumn_ext. intros; ring. }
  rewrite Q1, Q2. rewrite sqrt_mult by (try apply pow2_ge_0; apply PB9). rewrite sqrt_pow2 by lra. assert (N := norm_add (fun i => Fs i - entries F i) x lam ltac:(lra)). set (b := sqrt (qform n B x)) in *. assert (B0 : 0 <= b) by apply sqrt_pos.
  assert (K0 := load_nonneg). assert ((1 + load s K r) * b <= 32 / 3 * lam * ((1 + load s K r) * b)). { assert (0 <= (1 + load s K r) * b) by (apply Rmult_le_pos; lra). nra. } lra.
Qed.
Lemma form_abs v d : 0 <= d -> (forall i, (i < n)%nat -> Rabs (v i) <= d) -> qform n B v <= abs_sum n B * d ^ 2.
Proof.
  intros Hd Hv. unfold qform, abs_sum. rewrite Rmult_comm, <- sumn_scale. apply sumn_le. intros i Hi. rewrite <- sumn_scale. apply sumn_le. intros j Hj. eapply Rle_trans; [apply Rle_abs|]. rewrite !Rabs_mult. assert (A := Hv i Hi). assert (C := Hv j Hj).
  assert (Rabs (v i) * Rabs (v j) <= d * d) by (apply Rmult_le_compat; auto; apply Rabs_pos). apply Rmult_le_compat_r; [apply Rabs_pos|]. lra.
Qed.
Lemma entry_accuracy F F' Fs i : length F = n -> unclipped s r (entries F) -> mode_step sp P (only r) n L inv F = Ok F' -> mode sp P (only r) n B Fs -> (i < n)%nat ->
  forall d, 0 <= d -> f_err F' F <= d -> Rabs (Fs i - nth i F' 0) <= (1 + 32 / 3 * (1 + load s K r)) * (sqrt (K i i) * sqrt (abs_sum n B) * d).
Proof.
  intros LF U E M Hi d Hd Hf. assert (A := step_accuracy F F' Fs LF U E M). assert (LF' : length F' = n) by (destruct (step_shape9 F LF U) as [x [lam [_ [E' _]]]]; rewrite E in E'; injection E' as ->; now rewrite map_length, seq_length).
  assert (V : forall j, (j < n)%nat -> Rabs (entries F' j - entries F j) <= d).
  { intros j Hj. eapply Rle_trans; [|exact Hf]. unfold f_err. apply P_Search.norm_inf_ge. apply in_map_iff. exists (nth j F' 0, nth j F 0). split; [reflexivity|]. rewrite <- combine_nth by congruence. apply nth_In. rewrite combine_length, LF, LF'. lia. }
  assert (Q := form_abs (fun j => entries F' j - entries F j) d Hd V). assert (AB : 0 <= abs_sum n B) by (apply sumn_nonneg; intros; apply sumn_nonneg; intros; apply Rabs_pos).
  apply sqrt_le_1_alt in Q. rewrite sqrt_mult, sqrt_pow2 in Q by (auto; apply pow2_ge_0). assert (K0 := load_nonneg).
  assert (Eb := entry_bound n K B SK PK9 IB (fun j => Fs j - entries F' j) i Hi). cbn beta in Eb. apply sqrt_le_1_alt in Eb. rewrite sqrt_mult in Eb by (try (left; apply (diag_pos n K PK9 i Hi)); apply PB9).
  replace ((Fs i - entries F' i) ^ 2) with (Rsqr (Fs i - entries F' i)) in Eb by (unfold Rsqr; ring). rewrite sqrt_Rsqr_abs in Eb. change (entries F' i) with (nth i F' 0) in Eb.
  eapply Rle_trans; [exact Eb|]. assert (SKi : 0 <= sqrt (K i i)) by apply sqrt_pos. apply (Rmult_le_compat_l _ _ _ SKi) in A. eapply Rle_trans; [exact A|].
  replace ((1 + 32 / 3 * (1 + load s K r)) * (sqrt (K i i) * sqrt (abs_sum n B) * d)) with (sqrt (K i i) * ((1 + 32 / 3 * (1 + load s K r)) * (sqrt (abs_sum n B) * d))) by ring. apply Rmult_le_compat_l; auto. apply Rmult_le_compat_l; [lra|exact Q].
Qed.
End Distance.

Lemma after_length sp P r n L inv F0 : length F0 = n -> forall k F, after (fun _ => mode_step sp P (only r) n L inv) F0 k F -> length F = n.
Proof.
  intros L0 k F A. induction A as [|k v v' A IH E]; [exact L0|]. clear A L0. unfold mode_step in E. destruct derivatives as [d|]; [|discriminate]. cbn [bind] in E. unfold newton_update in E. cbn [bind] in E. injection E as <-.
  unfold step_from. rewrite map_length, combine_length, IH. unfold descent. destruct inv; rewrite map_length, seq_length; lia.
Qed.
Lemma stop_accuracy sp P n r K L B inv d maxloops F0 k F' Fs :
  good_probits sp P -> 0 < p_sigma (ps_p P) -> well_formed n r -> symmetric n K -> chol n K = Some L -> right_inverse n K B -> inverts_all inv -> 0 <= d -> length F0 = n ->
  fit_mode sp P (only r) n K inv d maxloops F0 = Ok (k, F') -> (k <= maxloops)%nat -> unclipped_near (p_sigma (ps_p P)) r n d F' -> mode sp P (only r) n B Fs ->
  forall i, (i < n)%nat -> Rabs (Fs i - nth i F' 0) <= (1 + 32 / 3 * (1 + load (p_sigma (ps_p P)) K r)) * (sqrt (K i i) * sqrt (abs_sum n B) * d).
Proof.
  intros GP SP WF SK EL IB HI Hd L0 E Hk U M i Hi. unfold fit_mode in E. rewrite EL in E. set (upd := fun _ : nat => mode_step sp P (only r) n L inv) in *. destruct (find_mode_spec upd (fun F_new F => Rltb d (f_err F_new F)) true F0 maxloops) as [H1 [H2 _]].
  destruct (H2 _ _ E eq_refl) as [K1 [K2|[F [A FE]]]]; [lia|]. rewrite E in H1. destruct H1 as [_ [A' _]]. destruct k as [|k]; [lia|]. replace (S k - 1)%nat with k in A by lia.
  inversion A' as [|k' v v' A2 E2]; subst k' v'. rewrite (after_fun _ _ _ _ A2 _ A) in E2. clear v A2 A'.
  assert (FE' : f_err F' F <= d) by (apply P_RBase.Rltb_false; exact FE).
  assert (LF : length F = n) by (apply (after_length sp P r n L inv F0 L0 k F A)). assert (LF' : length F' = n) by (apply (after_length sp P r n L inv F0 L0 (S k) F'); econstructor; eauto).
  assert (V : forall j, (j < n)%nat -> Rabs (entries F j - entries F' j) <= d).
  { intros j Hj. rewrite Rabs_minus_sym. eapply Rle_trans; [|exact FE']. unfold f_err. apply P_Search.norm_inf_ge. apply in_map_iff. exists (nth j F' 0, nth j F 0). split; [reflexivity|]. rewrite <- combine_nth by congruence. apply nth_In. rewrite combine_length, LF, LF'. lia. }
  apply (entry_accuracy sp P n r K L B inv GP SP WF SK EL IB HI F F' Fs i LF (U _ V) E2 M Hi d Hd FE').
Qed.
