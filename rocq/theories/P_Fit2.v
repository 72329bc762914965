(** The log posterior of the preference Gaussian process and its derivatives. *)
From Coquelicot Require Import Coquelicot.
From Coq Require Import Reals Lra Lia List.
From Verif Require Import M_RBase M_Normal M_PrefProbit M_OrdProbit M_AbsProbit M_Acq M_GP M_Fit S_PrefProbit S_OrdProbit S_AbsProbit S_GP S_Fit P_RBase P_Acq P_Normal P_PrefProbit P_Put P_OrdProbit P_AbsProbit P_Chol P_GP P_GP3 P_Fit.
From Verif Require Import S_Psd P_Psd.
Local Open Scope R_scope.

Lemma dir_plus f g F e a b : has_direction f F e a -> has_direction g F e b -> has_direction (fun G => f G + g G) F e (a + b).
Proof. intros A B. exact (rplus_derive (fun t => f (along F e t)) (fun t => g (along F e t)) 0 a b A B). Qed.
Lemma dir_minus f g F e a b : has_direction f F e a -> has_direction g F e b -> has_direction (fun G => f G - g G) F e (a - b).
Proof. intros A B. exact (rminus_derive (fun t => f (along F e t)) (fun t => g (along F e t)) 0 a b A B). Qed.
Lemma dir_const c F e : has_direction (fun _ => c) F e 0.
Proof. exact (rconst_derive c 0). Qed.
Lemma dotn_plus n x y e : dotn n (fun i => x i + y i) e = dotn n x e + dotn n y e.
Proof. unfold dotn. rewrite <- sumn_plus. apply sumn_ext. intros; ring. Qed.
Lemma dotn_minus n x y e : dotn n (fun i => x i - y i) e = dotn n x e - dotn n y e.
Proof. unfold dotn. rewrite <- sumn_minus. apply sumn_ext. intros; ring. Qed.
Lemma dotn_0 n e : dotn n (fun _ => 0) e = 0.
Proof. unfold dotn. apply sumn_zero. intros; ring. Qed.
Lemma dotn_ext n x y e : (forall i, (i < n)%nat -> x i = y i) -> dotn n x e = dotn n y e.
Proof. intro H. unfold dotn. apply sumn_ext. intros i Hi. now rewrite H. Qed.
Lemma dotn_comm n x y : dotn n x y = dotn n y x.
Proof. unfold dotn. apply sumn_ext. intros; ring. Qed.
Lemma bform_plus n A B x y : bform n (fun i j => A i j + B i j) x y = bform n A x y + bform n B x y.
Proof. unfold bform. rewrite <- sumn_plus. apply sumn_ext. intros i _. rewrite <- sumn_plus. apply sumn_ext. intros; ring. Qed.
Lemma bform_0 n x y : bform n (fun _ _ => 0) x y = 0.
Proof. unfold bform. apply sumn_zero. intros i _. apply sumn_zero. intros; ring. Qed.
Lemma bform_ext n A B x y : (forall i j, (i < n)%nat -> (j < n)%nat -> A i j = B i j) -> bform n A x y = bform n B x y.
Proof. intro H. unfold bform. apply sumn_ext. intros i Hi. apply sumn_ext. intros j Hj. now rewrite H. Qed.
Lemma bform_qform n A x : bform n A x x = qform n A x.
Proof. unfold bform, qform. apply sumn_ext. intros i _. apply sumn_ext. intros; ring. Qed.
Lemma bform_dot n A x y : bform n A x y = dotn n (fun i => sumn n (fun j => A i j * y j)) x.
Proof. unfold bform, dotn. apply sumn_ext. intros i _. rewrite <- sumn_scale_r. apply sumn_ext. intros; ring. Qed.
Lemma bform_sym n A x y : symmetric n A -> bform n A x y = bform n A y x.
Proof. intro H. unfold bform. rewrite sumn_swap. apply sumn_ext. intros j Hj. apply sumn_ext. intros i Hi. rewrite (H i j) by auto. ring. Qed.

(** comparisons: the value of the code *)
Lemma pref_value s y F : s <> 0 -> unclipped s y F -> log_likelihood s y F = LLp s y F.
Proof. intros Hs U. rewrite ll_sum, LLp_z by auto. apply rsum_ext. intros p Hp. assert (Z := z_clip s y F Hs U p Hp). rewrite rclip_id; auto. lra. Qed.

Section Total.
Variables (sp : special) (P : probit_set) (n : nat) (y : labels) (F : nat -> R).
Hypothesis GP : good_probits sp P.
Hypothesis GL : good_labels P n y.
Hypothesis O : ordinary P y F.

Lemma total_derivatives : exists W g, derivatives sp P y F = Ok (W, g, Some (LL sp P y F)) /\ (forall e, has_direction (LL sp P y) F e (dotn n g e)) /\
  log_likelyhood_training sp P y n F = Ok (Some (LL sp P y F)).
Proof.
  destruct GP as [Hp [Ho [Hv [He Hg]]]]. destruct GL as [G1 [G2 G3]]. destruct O as [O1 [O2 O3]].
  set (d1 := match y_rel y with None => (fun _ _ => 0, fun _ => 0, Some 0) | Some r => derivs_add (fun _ _ => 0, fun _ => 0, Some 0) (calc_W (p_sigma (ps_p P)) r F, derv_log_likelyhood (p_sigma (ps_p P)) r F, Some (log_likelihood (p_sigma (ps_p P)) r F)) end : derivs).
  assert (D1 : snd d1 = Some (part (y_rel y) (fun r => LLp (p_sigma (ps_p P)) r F)) /\ (forall e, has_direction (fun G => part (y_rel y) (fun r => LLp (p_sigma (ps_p P)) r G)) F e (dotn n (snd (fst d1)) e))).
  { unfold d1. destruct (y_rel y) as [r|] eqn:Er; cbn [part derivs_add fst snd oplus].
    - split; [rewrite Rplus_0_l, pref_value; auto|]. intro e. rewrite dotn_plus, dotn_0, Rplus_0_l, derv_dot by auto. apply LLp_direction; auto.
    - split; [reflexivity|]. intro e. rewrite dotn_0. apply dir_const. }
  destruct D1 as [V1 D1].
  assert (D2 : exists d2, match y_ord y with None => Ok d1 | Some o => do d <- ord_derivatives (ps_o P) (ps_eps P) o F; Ok (derivs_add d1 d) end = Ok d2 /\
    snd d2 = Some (part (y_rel y) (fun r => LLp (p_sigma (ps_p P)) r F) + part (y_ord y) (fun o => LLo (ps_o P) o F)) /\
    forall e, has_direction (fun G => part (y_rel y) (fun r => LLp (p_sigma (ps_p P)) r G) + part (y_ord y) (fun o => LLo (ps_o P) o G)) F e (dotn n (snd (fst d2)) e)).
  { destruct (y_ord y) as [o|] eqn:Eo; cbn [part].
    - destruct (G2 o eq_refl) as [N2 [V2 B2]]. destruct (ordinal_direction (ps_o P) (ps_eps P) o F n Ho He N2 V2 B2 (O2 o eq_refl)) as [Wo [go [Q1 Q2]]]. rewrite Q1. cbn [bind].
      eexists. split; [reflexivity|]. cbn [derivs_add fst snd]. rewrite V1. cbn [oplus]. split; [reflexivity|]. intro e. rewrite dotn_plus. apply dir_plus; auto.
    - exists d1. split; [reflexivity|]. split; [rewrite V1; f_equal; ring|]. intro e. rewrite <- (Rplus_0_r (dotn n _ e)). apply dir_plus; auto. apply dir_const. }
  destruct D2 as [d2 [Q2 [V2 D2]]].
  assert (T : log_likelyhood_training sp P y n F = Ok (Some (LL sp P y F))).
  { unfold log_likelyhood_training, LL. destruct (y_rel y) as [r|] eqn:Er; destruct (y_ord y) as [o|] eqn:Eo; cbn [part].
    all: try (destruct (G2 o eq_refl) as [N2 [V2' B2]]; rewrite (ord_log_lik (ps_o P) o F V2') by (intros p Hp'; destruct (O2 o eq_refl p Hp'); split; auto; lra)); cbn [bind oplus].
    all: destruct (y_abs y) as [a|] eqn:Ea; cbn [part oplus]; try (destruct (G3 a eq_refl) as [N3 B3]; rewrite abs_ll_same, abs_value by auto); rewrite ?pref_value by auto; do 2 f_equal; ring. }
  unfold derivatives. fold d1. rewrite Q2. cbn [bind]. destruct d2 as [[W2 g2] v2]. cbn [fst snd] in *. subst v2. unfold LL in *. destruct (y_abs y) as [a|] eqn:Ea; cbn [part] in *.
  - destruct (G3 a eq_refl) as [N3 B3]. eexists. eexists. split; [|split; [|exact T]].
    + cbn [derivs_add fst snd oplus]. rewrite abs_value by auto. reflexivity.
    + intro e. rewrite dotn_plus. apply dir_plus; [apply D2|]. apply (rating_direction sp (ps_a P) (ps_eps P)); auto.
  - exists W2, g2. split; [rewrite Rplus_0_r; reflexivity|]. split; [|exact T]. intro e. rewrite <- (Rplus_0_r (dotn n g2 e)). apply dir_plus; [apply D2|apply dir_const].
Qed.
End Total.
