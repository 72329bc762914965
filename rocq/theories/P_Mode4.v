(** Comparisons at the mode: stationarity, answers that are respected, symmetries, further answers. *)
From Coq Require Import Permutation.
From Coquelicot Require Import Coquelicot.
From Coq Require Import Reals Lra Lia List.
From Verif Require Import M_RBase M_Normal M_PrefProbit M_OrdProbit M_AbsProbit M_Acq M_GP M_Search M_Fit S_PrefProbit S_OrdProbit S_AbsProbit S_GP S_Fit S_Mode P_RBase P_Acq P_Normal P_PrefProbit P_Put P_OrdProbit P_AbsProbit P_Chol P_GP P_GP3 P_Fit P_Fit2 P_Fit3 P_Fit4 P_Fit5 P_Mode P_Mode2 P_Mode3.
From Verif Require Import S_Psd P_Psd.
Local Open Scope R_scope.

(** ---- derivatives everywhere ---- *)
Definition hLLp (s : R) (y : list pair) (F e : nat -> R) : R := rsum (map (fun p => hazard (z_of s F p) * dz s p e) y).
Lemma LLp_dir s y F e : s <> 0 -> has_direction (LLp s y) F e (hLLp s y F e).
Proof.
  intros Hs. unfold has_direction. apply (is_derive_ext (fun t : R => rsum (map (fun p => log_ndtr (z_of s (along F e t) p)) y))); [intro t; symmetry; now apply LLp_z|].
  unfold hLLp. apply (is_derive_rsum (fun p t => log_ndtr (z_of s (along F e t) p))). intros p Hp.
  apply (comp_derive log_ndtr (fun t => z_of s (along F e t) p)); [|apply z_along_derive]. replace (z_of s (along F e 0) p) with (z_of s F p) by (rewrite z_along; ring). apply log_ndtr_derive.
Qed.
Lemma LLo_dir o y F e : separated o -> valid o y -> has_direction (LLo o y) F e (dsum (dlab o) y F e).
Proof.
  intros S V. apply (LLsum_direction (fun k f => ln (label_prob (o_n o) (o_sigma o) (o_b o) k f)) (dlab o)). intros p Hp. apply log_label_derive; [apply V, Hp|]. apply label_range; auto.
Qed.
Lemma dir_opp f F e l : has_direction f F e l -> has_direction f F (fun i => - e i) (- l).
Proof.
  intro D. unfold has_direction in *. apply (is_derive_ext (fun t : R => f (along F e (- t)))).
  - intro t. f_equal. apply FunctionalExtensionality.functional_extensionality. intro i. unfold along. ring.
  - replace (- l) with (l * -1) by ring. apply (comp_derive (fun t => f (along F e t)) Ropp); [now rewrite Ropp_0|]. auto_derive; auto.
Qed.
Lemma fermat sp P y n B F e l : mode sp P y n B F -> has_direction (log_post sp P y n B) F e l -> l = 0.
Proof.
  intros M D. destruct (Rtotal_order l 0) as [L|[E|L]]; auto; exfalso.
  - destruct (dir_raises _ _ _ _ (dir_opp _ _ _ _ D) ltac:(lra)) as [d [Hd H]]. specialize (H (d / 2) ltac:(lra)). specialize (M (along F (fun i => - e i) (d / 2))). lra.
  - destruct (dir_raises _ _ _ _ D L) as [d [Hd H]]. specialize (H (d / 2) ltac:(lra)). specialize (M (along F e (d / 2))). lra.
Qed.
Lemma post_only sp P r n B F : log_post sp P (only r) n B F = LLp (p_sigma (ps_p P)) r F - 1 / 2 * qform n B F.
Proof. unfold log_post, LL, part. cbn. ring. Qed.
Lemma post_dir sp P r n B F e : p_sigma (ps_p P) <> 0 -> symmetric n B -> has_direction (log_post sp P (only r) n B) F e (hLLp (p_sigma (ps_p P)) r F e - bform n B e F).
Proof. intros S SB. apply (dir_ext (fun G => LLp (p_sigma (ps_p P)) r G - 1 / 2 * qform n B G)); [intro; symmetry; apply post_only|]. apply dir_minus; [now apply LLp_dir|now apply qform_direction]. Qed.
Lemma mode_slope sp P r n B F e : p_sigma (ps_p P) <> 0 -> symmetric n B -> mode sp P (only r) n B F -> hLLp (p_sigma (ps_p P)) r F e = bform n B e F.
Proof. intros S SB M. assert (T := fermat _ _ _ _ _ _ _ _ M (post_dir sp P r n B F e S SB)). lra. Qed.
Lemma slope_mode sp P r n B F : p_sigma (ps_p P) <> 0 -> symmetric n B -> psd n B -> (forall e, hLLp (p_sigma (ps_p P)) r F e = bform n B e F) -> mode sp P (only r) n B F.
Proof.
  intros S SB PB E G. rewrite !post_only. set (e := fun i => G i - F i). assert (T := LLp_tangent _ r F G _ S (LLp_dir _ r F e S)). assert (Q := qform_along n B F e 1 SB). unfold e in Q at 1. rewrite along_diff in Q. assert (N := PB e). specialize (E e). lra.
Qed.

(** ---- margins ---- *)
Lemma z_margin s F p : s <> 0 -> z_of s F p = margin F p / (s * sqrt 2).
Proof. intro S. unfold z_of, margin, isqrt2sig. field. split; [apply Rgt_not_eq, sqrt2_pos|auto]. Qed.
Lemma dz_margin s e p : s <> 0 -> dz s p e = margin e p / (s * sqrt 2).
Proof. intro S. unfold dz, margin, isqrt2sig. field. split; [apply Rgt_not_eq, sqrt2_pos|auto]. Qed.
Lemma hLLp_pull s r F e : s <> 0 -> hLLp s r F e = rsum (map (fun p => pull s F p * margin e p) r).
Proof. intro S. unfold hLLp. apply rsum_ext. intros p _. rewrite dz_margin, z_margin by auto. unfold pull, hazard. unfold Rdiv. ring. Qed.
Lemma pull_pos s F p : 0 < s -> 0 < pull s F p.
Proof. intro S. unfold pull. apply Rdiv_lt_0_compat; [apply (hazard_pos (margin F p / (s * sqrt 2)))|]. apply Rmult_lt_0_compat; [auto|apply sqrt2_pos]. Qed.
Lemma margin_agrees F n p : well_formed n (p :: nil) -> (0 < margin F p <-> agrees F p).
Proof.
  intro H. destruct (H p (or_introl eq_refl)) as [_ [_ [D|D]]]; unfold margin, agrees; rewrite D; split; intro K; [left|destruct K as [K|K]|right|destruct K as [K|K]]; try split; try lra.
Qed.
Lemma wf_one n r p : well_formed n r -> In p r -> well_formed n (p :: nil).
Proof. intros H Hp q [<- |[]]. now apply H. Qed.
Lemma only_good P n r : well_formed n r -> good_labels P n (only r).
Proof. intro H. split; [|split]; try (intros o E; discriminate E). intros r' E. injection E as <-. exact H. Qed.
Lemma only_discrete P r : discrete P (only r).
Proof. split; [reflexivity|]. intro H. now elim H. Qed.
Lemma LL_only_zero sp P r : p_sigma (ps_p P) <> 0 -> LL sp P (only r) (fun _ => 0) = - (INR (length r) * ln 2).
Proof.
  intro Hs. rewrite lin_LLp, LLp_z by auto. induction r as [|p r IH]; [cbn; ring|]. cbn [map rsum]. rewrite IH. change (length (p :: r)) with (S (length r)). rewrite S_INR.
  replace (z_of (p_sigma (ps_p P)) (fun _ => 0) p) with 0 by (unfold z_of; ring). unfold log_ndtr. rewrite ndtr_0. replace (1 / 2) with (/ 2) by field. rewrite ln_Rinv by lra. ring.
Qed.

Section Comparisons.
Variables (sp : special) (P : probit_set) (n : nat) (r : list pair) (K B : nat -> nat -> R).
Hypothesis GP : good_probits sp P.
Hypothesis SP : 0 < p_sigma (ps_p P).
Hypothesis WF : well_formed n r.
Hypothesis SK : symmetric n K.
Hypothesis PK : pd n K.
Hypothesis IB : right_inverse n K B.
Let s := p_sigma (ps_p P).
Lemma S0 : p_sigma (ps_p P) <> 0.
Proof. lra. Qed.
(** a row of the covariance against B F *)
Lemma row_B F i : (i < n)%nat -> bform n B (fun a => K i a) F = F i.
Proof.
  intro Hi. rewrite <- (K_B n K B IB F i Hi). unfold bform. apply sumn_ext. intros a _. rewrite <- sumn_scale. apply sumn_ext. intros; ring.
Qed.
Lemma mode_equation F i : mode sp P (only r) n B F -> (i < n)%nat -> F i = rsum (map (fun p => pull s F p * (dk_of p * (K i (v_of p) - K i (u_of p)))) r).
Proof.
  intros M Hi. rewrite <- (row_B F i Hi). rewrite <- (mode_slope sp P r n B F _ S0 (SB n K B SK IB) M). rewrite hLLp_pull by exact S0. reflexivity.
Qed.
Lemma mode_margin F q : mode sp P (only r) n B F -> (u_of q < n)%nat -> (v_of q < n)%nat -> margin F q = rsum (map (fun p => pull s F p * margin_cov K q p) r).
Proof.
  intros M Hu Hv. unfold margin. rewrite (mode_equation F (v_of q) M Hv), (mode_equation F (u_of q) M Hu). generalize (pull s F). intro w. clear. induction r as [|p l IH]; cbn [map rsum]; [ring|].
  rewrite Rmult_minus_distr_l in IH. unfold margin_cov at 1. lra.
Qed.
Lemma mode_weighted F : mode sp P (only r) n B F -> rsum (map (fun p => pull s F p * margin F p) r) = qform n B F.
Proof. intro M. unfold s. rewrite <- (hLLp_pull (p_sigma (ps_p P)) r F F S0). rewrite (mode_slope sp P r n B F F S0 (SB n K B SK IB) M). apply bform_qform. Qed.
Lemma mode_some F : mode sp P (only r) n B F -> (exists p, In p r /\ agrees F p) \/ forall i, (i < n)%nat -> F i = 0.
Proof.
  intro M. destruct (zero_or_not n F) as [Z|Z]; [left|now right]. assert (Q := PB n K B SK PK IB F Z). rewrite <- (mode_weighted F M) in Q.
  assert (E : exists p, In p r /\ 0 < margin F p).
  { clear - Q SP. induction r as [|p l IH]; cbn [map rsum] in Q; [lra|]. destruct (Rlt_or_le 0 (margin F p)) as [L|L]; [exists p; split; [now left|auto]|]. assert (W := pull_pos s F p SP). assert (pull s F p * margin F p <= 0) by nra. destruct IH as [q [Hq Lq]]; [lra|]. exists q. split; [now right|auto]. }
  destruct E as [p [Hp L]]. exists p. split; auto. apply (margin_agrees F n p (wf_one n r p WF Hp)). exact L.
Qed.
Lemma mode_consistent F : mode sp P (only r) n B F -> consistent r -> r <> nil -> exists p, In p r /\ agrees F p.
Proof.
  intros M [G HG] Ne. destruct (mode_some F M) as [E|Z]; auto. exfalso. assert (T := mode_slope sp P r n B F G S0 (SB n K B SK IB) M).
  replace (bform n B G F) with 0 in T by (unfold bform; symmetry; apply sumn_zero; intros i _; apply sumn_zero; intros j Hj; rewrite (Z j Hj); ring). rewrite hLLp_pull in T by exact S0.
  assert (HG' : forall p, In p r -> 0 < margin G p) by (intros p Hp; apply (margin_agrees G n p (wf_one n r p WF Hp)), HG, Hp).
  clear - T Ne HG' SP. destruct r as [|p l]; [congruence|]. cbn [map rsum] in T. assert (A : 0 < pull (p_sigma (ps_p P)) F p * margin G p) by (apply Rmult_lt_0_compat; [now apply pull_pos|apply HG'; now left]).
  assert (C : 0 <= rsum (map (fun p => pull (p_sigma (ps_p P)) F p * margin G p) l)). { clear - HG' SP. induction l as [|q l IH]; cbn [map rsum]; [lra|]. assert (0 < pull (p_sigma (ps_p P)) F q * margin G q) by (apply Rmult_lt_0_compat; [now apply pull_pos|apply HG'; right; now left]). assert (0 <= rsum (map (fun p => pull (p_sigma (ps_p P)) F p * margin G p) l)); [|lra]. apply IH. intros x [<- |Hx]; apply HG'; [now left|right; now right]. }
  lra.
Qed.
Lemma cov_pos p : well_formed n (p :: nil) -> proper p -> 0 < margin_cov K p p.
Proof.
  intros W D. destruct (W p (or_introl eq_refl)) as [Hu [Hv Hd]]. unfold margin_cov. assert (Dk : dk_of p * dk_of p = 1) by (destruct Hd as [-> | ->]; ring). rewrite Dk.
  assert (Q := qform_2 n K (v_of p) (u_of p) 1 (-1) Hv Hu (fun E => D (eq_sym E))). assert (T : 0 < qform n K (fun k => if Nat.eqb k (v_of p) then 1 else if Nat.eqb k (u_of p) then -1 else 0)).
  { apply PK. exists (v_of p). split; auto. rewrite Nat.eqb_refl. lra. }
  rewrite Q in T. lra.
Qed.
Lemma mode_supporting F : mode sp P (only r) n B F -> (forall p q, In p r -> In q r -> 0 <= margin_cov K p q) -> forall p, In p r -> proper p -> agrees F p.
Proof.
  intros M C p Hp D. apply (margin_agrees F n p (wf_one n r p WF Hp)). destruct (WF p Hp) as [Hu [Hv _]]. rewrite (mode_margin F p M Hu Hv). assert (CP := cov_pos p (wf_one n r p WF Hp) D).
  assert (C' := C p). clear - C' Hp CP SP. revert C'. assert (G : forall l, In p l -> (forall q, In q l -> 0 <= margin_cov K p q) -> 0 < rsum (map (fun q => pull s F q * margin_cov K p q) l)).
  { induction l as [|q l IH]; intros Hi Hc; [contradiction|]. cbn [map rsum]. assert (A : 0 <= pull s F q * margin_cov K p q) by (apply Rmult_le_pos; [left; now apply pull_pos|apply Hc; now left]).
    destruct Hi as [-> |Hi].
    - assert (0 < pull s F p * margin_cov K p p) by (apply Rmult_lt_0_compat; [now apply pull_pos|auto]). assert (0 <= rsum (map (fun q => pull s F q * margin_cov K p q) l)); [|lra].
      assert (Hc' : forall q, In q l -> 0 <= margin_cov K p q) by (intros q Hq; apply Hc; now right). clear - Hc' SP. induction l as [|q l IH]; cbn [map rsum]; [lra|]. assert (0 <= pull s F q * margin_cov K p q) by (apply Rmult_le_pos; [left; now apply pull_pos|apply Hc'; now left]). assert (0 <= rsum (map (fun q => pull s F q * margin_cov K p q) l)); [|lra]. apply IH. intros x Hx. apply Hc'. now right.
    - assert (0 < rsum (map (fun q => pull s F q * margin_cov K p q) l)); [|lra]. apply IH; auto. intros x Hx. apply Hc. now right. }
  intro C'. apply G; auto.
Qed.
(** bounds *)
Lemma margin_bound F p : mode sp P (only r) n B F -> well_formed n (p :: nil) -> (margin F p) ^ 2 <= margin_cov K p p * (INR (length r) * ln 2).
Proof.
  intros M W. destruct (W p (or_introl eq_refl)) as [Hu [Hv Hd]]. assert (DP := only_discrete P r). assert (GL := only_good P n r WF).
  assert (Q := mode_form_bound sp P n (only r) K B GP GL DP SK PK IB F M). rewrite LL_only_zero in Q by exact S0. rewrite Ropp_involutive in Q.
  destruct (Nat.eq_dec (u_of p) (v_of p)) as [E|D].
  - unfold margin, margin_cov. rewrite E. replace (dk_of p * (F (v_of p) - F (v_of p))) with 0 by ring. right. ring.
  - assert (CP := cov_pos p W D). set (e := fun k => if Nat.eqb k (v_of p) then 1 else if Nat.eqb k (u_of p) then -1 else 0).
    assert (PBd := pairing_bound n K B SK PK IB F e). assert (Qe : qform n K e = margin_cov K p p).
    { unfold e. rewrite qform_2 by auto. unfold margin_cov. replace (dk_of p * dk_of p) with 1 by (destruct Hd as [-> | ->]; ring). ring. }
    assert (De : dotn n e F = F (v_of p) - F (u_of p)).
    { unfold dotn, e. rewrite (sumn_ext n _ (fun i => unitv (v_of p) i * F i - unitv (u_of p) i * F i)); [rewrite sumn_minus, !sumn_unit by auto; reflexivity|]. intros i _. unfold unitv. destruct (Nat.eqb_spec i (v_of p)), (Nat.eqb_spec i (u_of p)); try (exfalso; congruence); ring. }
    rewrite Qe, De in PBd. replace (margin F p ^ 2) with ((F (v_of p) - F (u_of p)) ^ 2) by (unfold margin; destruct Hd as [-> | ->]; ring). eapply Rle_trans; [exact PBd|]. apply Rmult_le_compat_l; lra.
Qed.
Lemma ln2_lt1 : ln 2 < 1.
Proof. rewrite <- (ln_exp 1). apply ln_increasing; [lra|]. assert (T := exp_ineq1 1 ltac:(lra)). lra. Qed.
Lemma mode_unclipped F : mode sp P (only r) n B F -> (forall p, In p r -> INR (length r) * margin_cov K p p < 1800 * s ^ 2) -> unclipped s r F.
Proof.
  intros M H p Hp. assert (W := wf_one n r p WF Hp). assert (Bd := margin_bound F p M W). specialize (H p Hp). change (-30 < margin F p / (s * sqrt 2) < 100). set (z := margin F p / (s * sqrt 2)).
  assert (S := SP). fold s in S. assert (Z : margin F p = z * (s * sqrt 2)) by (unfold z; field; split; [apply Rgt_not_eq, sqrt2_pos|lra]). rewrite Z in Bd.
  assert (Q2 : sqrt 2 * sqrt 2 = 2) by (apply sqrt_sqrt; lra). replace ((z * (s * sqrt 2)) ^ 2) with (z ^ 2 * s ^ 2 * (sqrt 2 * sqrt 2)) in Bd by ring. rewrite Q2 in Bd.
  assert (L2 := ln2_lt1). assert (L0 : 0 < ln 2) by (rewrite <- ln_1; apply ln_increasing; lra). assert (N := pos_INR (length r)).
  assert (CP : 0 <= margin_cov K p p). { destruct (Nat.eq_dec (u_of p) (v_of p)) as [E|D]; [unfold margin_cov; rewrite E; right; ring|left; now apply cov_pos]. }
  assert (A : margin_cov K p p * (INR (length r) * ln 2) <= margin_cov K p p * INR (length r)). { apply Rmult_le_compat_l; auto. rewrite <- (Rmult_1_r (INR (length r))) at 2. apply Rmult_le_compat_l; lra. }
  assert (S2 : 0 < s ^ 2) by (apply pow_lt; auto). assert (z ^ 2 < 900). { apply (Rmult_lt_reg_r (2 * s ^ 2)); [lra|]. lra. } split; nra.
Qed.
End Comparisons.

(** ---- where the code stands still ---- *)
Lemma mode_standstill sp P n r K L B inv F : good_probits sp P -> well_formed n r -> symmetric n K -> chol n K = Some L -> right_inverse n K B -> inverts_all inv ->
  length F = n -> unclipped (p_sigma (ps_p P)) r (entries F) -> (mode_step sp P (only r) n L inv F = Ok F <-> mode sp P (only r) n B (entries F)).
Proof.
  intros GP WF SK EL IB HI LF U. assert (GL := only_good P n r WF). assert (PK := chol_pd n K L SK EL). assert (SB' := SB n K B SK IB). assert (S0 := proj1 GP).
  assert (O : ordinary P (only r) (entries F)). { split; [|split]; try (intros o H; discriminate H). intros r' H. injection H as <-. exact U. }
  rewrite (step_fixed sp P n r K L B inv GP GL SK EL IB HI F LF O). split.
  - intro Z. apply slope_mode; auto. { apply pd_psd. now apply (PB n K B SK PK IB). } intro e. assert (D := post_dir sp P r n B (entries F) e S0 SB'). assert (E := is_derive_unique _ _ _ D). rewrite (is_derive_unique _ _ _ (Z e)) in E. lra.
  - intros M e. assert (D := post_dir sp P r n B (entries F) e S0 SB'). now rewrite (fermat _ _ _ _ _ _ _ _ M D) in D.
Qed.
