(** The same facts for vectors at which find_mode stands still. *)
From Coq Require Import Permutation.
From Coquelicot Require Import Coquelicot.
From Coq Require Import Reals Lra Lia List.
From Verif Require Import M_RBase M_Normal M_PrefProbit M_OrdProbit M_AbsProbit M_Acq M_GP M_Search M_Fit S_PrefProbit S_OrdProbit S_AbsProbit S_Kernel S_GP S_Fit S_Mode P_RBase P_Acq P_Normal P_PrefProbit P_Put P_OrdProbit P_AbsProbit P_Chol P_GP P_GP3 P_Fit P_Fit2 P_Fit3 P_Fit4 P_Fit5 P_Mode P_Mode2 P_Mode3 P_Mode4 P_Mode5 P_Mode6 P_Mode7.
From Verif Require Import S_Psd P_Psd.
Local Open Scope R_scope.

Section Settled.
Variables (sp : special) (P : probit_set) (n : nat) (K L : nat -> nat -> R) (inv : nat -> (nat -> nat -> R) -> option (nat -> nat -> R)).
Hypotheses (GP : good_probits sp P) (SP : 0 < p_sigma (ps_p P)) (SK : symmetric n K) (EL : chol n K = Some L) (HI : inverts_all inv).
Let B := k_inv n L.
Lemma B_inverse : right_inverse n K B.
Proof. now apply k_inv_inverse. Qed.
Lemma K_pd : pd n K.
Proof. exact (chol_pd n K L SK EL). Qed.
Lemma settled_iff r F : well_formed n r -> (settled sp P r n L inv F <-> length F = n /\ unclipped (p_sigma (ps_p P)) r (entries F) /\ mode sp P (only r) n B (entries F)).
Proof.
  intro WF. unfold settled. split; intros [A [U M]]; (split; [exact A|]; split; [exact U|]); apply (mode_standstill sp P n r K L B inv F GP WF SK EL B_inverse HI A U); exact M.
Qed.
Lemma settled_equation r F i : well_formed n r -> settled sp P r n L inv F -> (i < n)%nat ->
  nth i F 0 = rsum (map (fun p => pull (p_sigma (ps_p P)) (entries F) p * (dk_of p * (K i (v_of p) - K i (u_of p)))) r).
Proof. intros WF S Hi. apply settled_iff in S; auto. destruct S as [_ [_ M]]. exact (mode_equation sp P n r K B SP SK B_inverse (entries F) i M Hi). Qed.
Lemma settled_answers r F : well_formed n r -> settled sp P r n L inv F ->
  (consistent r -> r <> nil -> exists p, In p r /\ agrees (entries F) p) /\
  ((forall p q, In p r -> In q r -> 0 <= margin_cov K p q) -> forall p, In p r -> proper p -> agrees (entries F) p) /\
  (Permutation r (map contrary r) -> F = repeat 0 n).
Proof.
  intros WF S. apply settled_iff in S; auto. destruct S as [LF [_ M]]. split; [|split].
  - exact (mode_consistent sp P n r K B SP WF SK K_pd B_inverse (entries F) M).
  - exact (mode_supporting sp P n r K B SP WF SK K_pd B_inverse (entries F) M).
  - intro Pm. assert (Z := mode_balanced sp P n r K B (entries F) GP WF SK K_pd B_inverse Pm M). apply (nth_ext F (repeat 0 n) 0 0); [now rewrite repeat_length|].
    intros i Hi. rewrite LF in Hi. rewrite nth_repeat. exact (Z i Hi).
Qed.
Lemma settled_more r p F F' : well_formed n (p :: r) -> proper p -> settled sp P r n L inv F -> settled sp P (p :: r) n L inv F' -> margin (entries F) p < margin (entries F') p.
Proof.
  intros WF Pp S S'. assert (WR : well_formed n r) by (intros q Hq; apply WF; now right). apply settled_iff in S, S'; auto. destruct S as [_ [_ M]], S' as [_ [_ M']].
  apply (mode_more_strict sp P (only r) n K B p (entries F) (entries F') GP SP (only_good P n r WR) (only_discrete P r)); auto; [intros q [<- |[]]; apply WF; now left|exact K_pd|exact B_inverse].
Qed.
Lemma entries_opp F : entries (map Ropp F) = fun i => - entries F i.
Proof. apply FunctionalExtensionality.functional_extensionality. intro i. unfold entries. rewrite <- (map_nth Ropp). now rewrite Ropp_0. Qed.
Lemma entries_scale c F : entries (map (Rmult c) F) = fun i => c * entries F i.
Proof. apply FunctionalExtensionality.functional_extensionality. intro i. unfold entries. rewrite <- (map_nth (Rmult c)). now rewrite Rmult_0_r. Qed.
Lemma contrary_wf r : well_formed n r -> well_formed n (map contrary r).
Proof. intros WF p Hp. apply in_map_iff in Hp. destruct Hp as [q [<- Hq]]. destruct (WF q Hq) as [A [C D]]. unfold contrary, u_of, v_of, dk_of in *. cbn [fst snd]. rewrite opp_IZR. split; [exact A|]. split; [exact C|]. lra. Qed.
Lemma exchanged_wf r : well_formed n r -> well_formed n (map exchanged r).
Proof. intros WF p Hp. apply in_map_iff in Hp. destruct Hp as [q [<- Hq]]. destruct (WF q Hq) as [A [C D]]. unfold exchanged, u_of, v_of, dk_of in *. cbn [fst snd]. rewrite opp_IZR. split; [exact C|]. split; [exact A|]. lra. Qed.
Lemma contrary_unclipped s r F : unclipped s (map contrary r) (fun i => - F i) <-> unclipped s r F.
Proof.
  assert (E : forall p, dk_of (contrary p) * (- F (v_of (contrary p)) - - F (u_of (contrary p))) / (s * sqrt 2) = dk_of p * (F (v_of p) - F (u_of p)) / (s * sqrt 2)).
  { intro p. unfold contrary, u_of, v_of, dk_of. cbn [fst snd]. rewrite opp_IZR. unfold Rdiv. ring. }
  split; intros H p Hp.
  - rewrite <- E. apply H. now apply in_map.
  - apply in_map_iff in Hp. destruct Hp as [q [<- Hq]]. rewrite E. now apply H.
Qed.
Lemma exchanged_unclipped s r F : unclipped s (map exchanged r) F <-> unclipped s r F.
Proof.
  assert (E : forall p, dk_of (exchanged p) * (F (v_of (exchanged p)) - F (u_of (exchanged p))) / (s * sqrt 2) = dk_of p * (F (v_of p) - F (u_of p)) / (s * sqrt 2)).
  { intro p. unfold exchanged, u_of, v_of, dk_of. cbn [fst snd]. rewrite opp_IZR. unfold Rdiv. ring. }
  split; intros H p Hp.
  - rewrite <- E. apply H. now apply in_map.
  - apply in_map_iff in Hp. destruct Hp as [q [<- Hq]]. rewrite E. now apply H.
Qed.
Lemma settled_contrary r F : well_formed n r -> (settled sp P (map contrary r) n L inv (map Ropp F) <-> settled sp P r n L inv F).
Proof.
  intro WF. rewrite !settled_iff by auto using contrary_wf. rewrite map_length, entries_opp, contrary_unclipped, mode_contrary.
  assert (E : (fun i => - - entries F i) = entries F) by (apply FunctionalExtensionality.functional_extensionality; intro; ring). rewrite E. reflexivity.
Qed.
Lemma settled_exchanged r F : well_formed n r -> (settled sp P (map exchanged r) n L inv F <-> settled sp P r n L inv F).
Proof. intro WF. rewrite !settled_iff by auto using exchanged_wf. rewrite exchanged_unclipped, mode_exchanged. reflexivity. Qed.
Lemma settled_order r r' F : well_formed n r -> Permutation r r' -> settled sp P r n L inv F -> settled sp P r' n L inv F.
Proof.
  intros WF Pm S. assert (WF' : well_formed n r') by (intros p Hp; apply WF; eapply Permutation_in; [apply Permutation_sym, Pm|exact Hp]).
  apply settled_iff in S; auto. apply settled_iff; auto. destruct S as [A [U M]]. split; [exact A|]. split; [intros p Hp; apply U; eapply Permutation_in; [apply Permutation_sym, Pm|exact Hp]|]. exact (mode_perm sp P n r r' B (entries F) Pm M).
Qed.
End Settled.
Lemma settled_units sp P n r K L L' inv c F : good_probits sp P -> 0 < p_sigma (ps_p P) -> symmetric n K -> chol n K = Some L -> inverts_all inv -> well_formed n r -> 0 < c ->
  chol n (fun i j => c ^ 2 * K i j) = Some L' ->
  (settled sp (with_noise P (c * p_sigma (ps_p P))) r n L' inv (map (Rmult c) F) <-> settled sp P r n L inv F).
Proof.
  intros GP S SK EL HI WF Hc EL'. assert (GP' : good_probits sp (with_noise P (c * p_sigma (ps_p P)))). { destruct GP as [A T]. split; [|exact T]. cbn. apply Rmult_integral_contrapositive. split; lra. }
  assert (SK' : symmetric n (fun i j => c ^ 2 * K i j)) by (intros i j Hi Hj; now rewrite (SK i j Hi Hj)).
  rewrite (settled_iff sp (with_noise P (c * p_sigma (ps_p P))) n _ L' inv GP' SK' EL' HI r _ WF), (settled_iff sp P n K L inv GP SK EL HI r F WF). rewrite map_length, entries_scale.
  rewrite (mode_units sp P n r K (k_inv n L) (k_inv n L') c (entries F) GP ltac:(lra) SK (chol_pd n K L SK EL) (k_inv_inverse n K L SK EL) (k_inv_inverse n _ L' SK' EL')).
  assert (E : unclipped (p_sigma (ps_p (with_noise P (c * p_sigma (ps_p P))))) r (fun i => c * entries F i) <-> unclipped (p_sigma (ps_p P)) r (entries F)); [|rewrite E; reflexivity].
  assert (Q : 0 < sqrt 2) by apply sqrt2_pos. assert (E : forall p, dk_of p * (c * entries F (v_of p) - c * entries F (u_of p)) / (c * p_sigma (ps_p P) * sqrt 2) = dk_of p * (entries F (v_of p) - entries F (u_of p)) / (p_sigma (ps_p P) * sqrt 2)) by (intro p; field; lra).
  unfold unclipped. cbn [with_noise ps_p p_sigma]. split; intros H p Hp; specialize (H p Hp); cbn beta in *; rewrite E in *; exact H.
Qed.
Lemma settled_winner sp P n r K L inv w F : good_probits sp P -> 0 < p_sigma (ps_p P) -> symmetric n K -> chol n K = Some L -> inverts_all inv -> well_formed n r -> independent n K ->
  (forall p, In p r -> wins w p /\ proper p) -> settled sp P r n L inv F -> forall p, In p r -> agrees (entries F) p.
Proof.
  intros GP S SK EL HI WF I W St. apply (settled_iff sp P n K L inv GP SK EL HI r F WF) in St. destruct St as [_ [_ M]].
  exact (winner_respected sp P n r K (k_inv n L) w (entries F) S WF SK (chol_pd n K L SK EL) (k_inv_inverse n K L SK EL) I W M).
Qed.
(** thirteen points beat one point, which beats a last one; noise at least 1 *)
Lemma pdf_one : 1 / 6 <= npdf 1.
Proof.
  unfold npdf. assert (E := exp_ineq1_le (- (1 ^ 2) / 2)). assert (P3 : PI <= 4) by apply PI_4. assert (P0 := PI_RGT_0).
  assert (Q : 0 < sqrt (2 * PI)) by (apply sqrt_lt_R0; lra). assert (Q3 : sqrt (2 * PI) <= 3) by (replace 3 with (sqrt (3 * 3)) by (apply sqrt_square; lra); apply sqrt_le_1; lra).
  apply (Rmult_le_reg_r (sqrt (2 * PI))); auto. replace (exp (- (1 ^ 2) / 2) / sqrt (2 * PI) * sqrt (2 * PI)) with (exp (- (1 ^ 2) / 2)) by (field; lra). lra.
Qed.
Lemma hazard_zero : hazard 0 <= 1.
Proof.
  unfold hazard. rewrite ndtr_0. unfold npdf. replace (- (0 ^ 2) / 2) with 0 by field. rewrite exp_0. assert (P2 := PI2_1). assert (Q : 2 <= sqrt (2 * PI)) by (replace 2 with (sqrt (2 * 2)) at 1 by (apply sqrt_square; lra); apply sqrt_le_1; lra).
  apply (Rmult_le_reg_r (sqrt (2 * PI))); [lra|]. replace (1 / sqrt (2 * PI) / (1 / 2) * sqrt (2 * PI)) with 2 by (field; lra). lra.
Qed.
Lemma hazard_unit z : z <= 1 -> 1 / 6 <= hazard z.
Proof.
  intro Hz. assert (A : hazard 1 <= hazard z) by (destruct Hz as [Hz| ->]; [left; now apply hazard_decreasing|lra]). assert (C := pdf_one). assert (D := ndtr_range 1).
  assert (npdf 1 <= hazard 1); [|lra]. unfold hazard. apply (Rmult_le_reg_r (ndtr 1)); [lra|]. replace (npdf 1 / ndtr 1 * ndtr 1) with (npdf 1) by (field; lra). assert (npdf 1 * ndtr 1 <= npdf 1 * 1) by (apply Rmult_le_compat_l; lra). lra.
Qed.
Lemma settled_chain sp P L inv : good_probits sp P -> 1 <= p_sigma (ps_p P) -> chol 15 unit_prior = Some L -> inverts_all inv ->
  consistent (beaten_once 13) /\ (exists F, settled sp P (beaten_once 13) 15 L inv F) /\ forall F, settled sp P (beaten_once 13) 15 L inv F -> ~ agrees (entries F) (last_pair 13).
Proof.
  intros GP S EL HI. assert (S0 : 0 < p_sigma (ps_p P)) by lra. assert (SQ : 1 <= p_sigma (ps_p P) ^ 2) by (replace 1 with (1 ^ 2) by ring; apply pow_incr; lra).
  split; [apply beaten_consistent|]. assert (WF : well_formed 15 (beaten_once 13)) by exact (beaten_wf 13). split.
  - destruct (mode_fixed_point sp P 15 (beaten_once 13) unit_prior L unit_prior inv GP S0 WF (unit_sym 15) EL (unit_inverse 15) HI) as [F [LF [E [M _]]]].
    + intros p Hp. assert (C : margin_cov unit_prior p p <= 2). { unfold margin_cov. destruct (WF p Hp) as [_ [_ D]]. assert (D2 : dk_of p * dk_of p = 1) by (destruct D as [-> | ->]; ring). rewrite D2. unfold unit_prior. rewrite !Nat.eqb_refl. destruct (Nat.eqb (v_of p) (u_of p)), (Nat.eqb (u_of p) (v_of p)); lra. }
      replace (INR (length (beaten_once 13))) with 14 by (cbn; lra). lra.
    + exists F. split; [exact LF|]. split; [|exact E]. apply (mode_unclipped sp P 15 (beaten_once 13) unit_prior unit_prior GP S0 WF (unit_sym 15) (unit_pd 15) (unit_inverse 15) (entries F) M).
      intros p Hp. assert (C : margin_cov unit_prior p p <= 2). { unfold margin_cov. destruct (WF p Hp) as [_ [_ D]]. assert (D2 : dk_of p * dk_of p = 1) by (destruct D as [-> | ->]; ring). rewrite D2. unfold unit_prior. rewrite !Nat.eqb_refl. destruct (Nat.eqb (v_of p) (u_of p)), (Nat.eqb (u_of p) (v_of p)); lra. }
      replace (INR (length (beaten_once 13))) with 14 by (cbn; lra). lra.
  - intros F St A. destruct St as [LF [U E]]. apply (mode_standstill sp P 15 (beaten_once 13) unit_prior L unit_prior inv F GP WF (unit_sym 15) EL (unit_inverse 15) HI LF U) in E.
    assert (T := chain_bound sp P 13 (entries F) S0 E A). assert (H0 := hazard_zero). assert (H1 := hazard_pos 0).
    assert (C2 : (p_sigma (ps_p P) * sqrt 2) ^ 2 = 2 * p_sigma (ps_p P) ^ 2) by (replace ((p_sigma (ps_p P) * sqrt 2) ^ 2) with (p_sigma (ps_p P) ^ 2 * (sqrt 2 * sqrt 2)) by ring; rewrite sqrt_sqrt by lra; ring). rewrite C2 in T.
    assert (Z : 2 * hazard 0 / (2 * p_sigma (ps_p P) ^ 2) <= 1). { apply (Rmult_le_reg_r (2 * p_sigma (ps_p P) ^ 2)); [lra|]. replace (2 * hazard 0 / (2 * p_sigma (ps_p P) ^ 2) * (2 * p_sigma (ps_p P) ^ 2)) with (2 * hazard 0) by (field; lra). lra. }
    assert (H6 := hazard_unit _ Z). replace (INR 13) with 13 in T by (cbn; lra). lra.
Qed.
Lemma settled_predict sp P inv inv' k d dm r L X : good_probits sp P -> well_formed (length (pX d)) r -> separate k X (pX d) -> dim dm X -> dim dm (pX d) -> X <> nil -> pX d <> nil ->
  kcov k (pX d) (pX d) = Ok (pK d) -> chol (length (pX d)) (mat_at (pK d)) = Some L -> inverts_all inv' -> settled sp P r (length (pX d)) L inv' (pF d) ->
  exists mu var, pgp_predict inv k (Some d) X = Ok (mu, var) /\ length mu = length X /\ forall i, (i < length X)%nat ->
    nth i mu 0 = rsum (map (fun p => pull (p_sigma (ps_p P)) (entries (pF d)) p * margin (fun a => kcall k (pt X i) (pt (pX d) a)) p) r).
Proof.
  intros GP WF HQ DX DY HX HY EK EL HI St. assert (HZ := separate_no_zeroed _ _ _ HQ). set (n := length (pX d)) in *. assert (HK := stored_K k (pX d) (pK d) HZ HY EK). fold n in HK.
  assert (SK : symmetric n (mat_at (pK d))). { intros i j Hi Hj. rewrite !HK by auto. now apply (train_cov_sym k (pX d) nil n). }
  apply (settled_iff sp P n (mat_at (pK d)) L inv' GP SK EL HI r (pF d) WF) in St. destruct St as [_ [_ M]].
  exact (mode_predict sp P inv k d dm r (k_inv n L) X GP WF HQ DX DY HX HY EK (chol_pd n _ L SK EL) (k_inv_inverse n _ L SK EL) M).
Qed.
