(** Lemmas about the updates of the hyper-parameters. *)
From Coquelicot Require Import Coquelicot.
From Coq Require Import Reals Lra Lia List.
From Verif Require Import M_RBase M_Base M_Fake M_Util M_Kernel M_Hyper M_HyperRun S_Hyper S_HyperRun S_Gamma P_RBase P_Hyper P_HyperPrior P_Gamma.
Import ListNotations.
Local Open Scope R_scope.

Lemma getitem_in {A} (l : list A) i x : getitem l i = Ok x -> In x l.
Proof. unfold getitem. destruct (nth_error l i) eqn:E; intro H; [injection H as <-; eapply nth_error_In; eauto|discriminate]. Qed.
Lemma firstn_in {A} n (l : list A) x : In x (firstn n l) -> In x l.
Proof. intro H. rewrite <- (firstn_skipn n l). apply in_or_app. now left. Qed.
Lemma skipn_in {A} n (l : list A) x : In x (skipn n l) -> In x l.
Proof. intro H. rewrite <- (firstn_skipn n l). apply in_or_app. now right. Qed.
(** set_hyper keeps the switches *)
Definition switches (m m' : hmodel) : Prop :=
  h_rel m' = h_rel m /\ h_abs m' = h_abs m /\ h_only_probit m' = h_only_probit m /\ p_opt (h_p m') = p_opt (h_p m) /\ a_opt (h_a m') = a_opt (h_a m) /\ a_v_only (h_a m') = a_v_only (h_a m).
Lemma probit_set_in m x m' : set_probit_hyper m x = Ok m' -> switches m m' /\
  (h_rel m = true -> p_opt (h_p m) = true -> In (p_sigma (h_p m')) x) /\
  (h_abs m = true -> a_opt (h_a m) = true -> In (a_v (h_a m')) x /\ (a_v_only (h_a m) = false -> In (a_sigma (h_a m')) x)).
Proof.
  unfold set_probit_hyper. cbv zeta. set (n0 := if h_rel m then length (pref_get (h_p m)) else 0%nat). set (n1 := if h_ord m then length (ord_get (h_o m)) else 0%nat).
  destruct (if h_rel m then pref_set (h_p m) _ else _) as [p|] eqn:Ep; [|discriminate]. cbn [bind]. destruct (if h_ord m then ord_set (h_o m) _ else _) as [o|] eqn:Eo; [|discriminate]. cbn [bind].
  destruct (if h_abs m then abs_set (h_a m) _ else _) as [a|] eqn:Ea; [|discriminate]. cbn [bind]. intro E. injection E as <-. unfold switches. cbn [h_rel h_abs h_only_probit h_p h_a].
  assert (Pp : p_opt p = p_opt (h_p m) /\ (h_rel m = true -> p_opt (h_p m) = true -> In (p_sigma p) x)).
  { destruct (h_rel m); [|injection Ep as <-; split; [reflexivity|discriminate]]. unfold pref_set in Ep. destruct (p_opt (h_p m)) eqn:Po; [|injection Ep as <-; split; [auto|discriminate]].
    destruct (getitem _ 0) as [s|] eqn:G; [|discriminate]. cbn [bind] in Ep. injection Ep as <-. split; [reflexivity|]. intros _ _. apply getitem_in, firstn_in in G. exact G. }
  assert (Pa : a_opt a = a_opt (h_a m) /\ a_v_only a = a_v_only (h_a m) /\ (h_abs m = true -> a_opt (h_a m) = true -> In (a_v a) x /\ (a_v_only (h_a m) = false -> In (a_sigma a) x))).
  { destruct (h_abs m); [|injection Ea as <-; split; [reflexivity|split; [reflexivity|discriminate]]]. unfold abs_set in Ea. destruct (a_opt (h_a m)) eqn:Ao; [|injection Ea as <-; split; [auto|split; [auto|discriminate]]].
    destruct (a_v_only (h_a m)) eqn:Av.
    - destruct (getitem _ 0) as [v|] eqn:G; [|discriminate]. cbn [bind] in Ea. injection Ea as <-. cbn. split; [auto|]. split; [auto|]. intros _ _. split; [|discriminate]. now apply getitem_in, firstn_in, skipn_in in G.
    - destruct (getitem _ 1) as [v|] eqn:G; [|discriminate]. cbn [bind] in Ea. destruct (getitem _ 0) as [s|] eqn:G'; [|discriminate]. cbn [bind] in Ea. injection Ea as <-. cbn. split; [auto|]. split; [auto|]. intros _ _.
      split; [now apply getitem_in, firstn_in, skipn_in in G|intros _; now apply getitem_in, firstn_in, skipn_in in G']. }
  destruct Pp as [P1 P2], Pa as [A1 [A2 A3]]. repeat split; auto; now apply A3.
Qed.
Lemma kset_in k th k' : kset k th = Ok k' -> forall x, In x (kparam k') -> In x th.
Proof.
  revert th k'. induction k as [s l e|s sb c|s l p|s l e z|a IHa b IHb|a IHa b IHb]; intros th k'; cbn [kset]; intro E.
  1,4: destruct (getitem th 0) eqn:G0; [|discriminate]; cbn [bind] in E; destruct (getitem th 1) eqn:G1; [|discriminate]; cbn [bind] in E; injection E as <-; apply getitem_in in G0; apply getitem_in in G1;
    cbn [kparam]; intros x [<- |[<- |[]]]; auto.
  1,2: destruct (getitem th 0) eqn:G0; [|discriminate]; cbn [bind] in E; destruct (getitem th 1) eqn:G1; [|discriminate]; cbn [bind] in E; destruct (getitem th 2) eqn:G2; [|discriminate]; cbn [bind] in E; injection E as <-;
    apply getitem_in in G0; apply getitem_in in G1; apply getitem_in in G2; cbn [kparam]; intros x [<- |[<- |[<- |[]]]]; auto.
  all: destruct (kset a _) as [a'|] eqn:Ea; [|discriminate]; cbn [bind] in E; destruct (kset b _) as [b'|] eqn:Eb; [|discriminate]; cbn [bind] in E; injection E as <-; cbn [kparam];
    intros x H; apply in_app_or in H as [H|H]; [apply (IHa _ _ Ea) in H; now apply firstn_in in H|apply (IHb _ _ Eb) in H; now apply skipn_in in H].
Qed.
Lemma kset_atomic k th k' : kset k th = Ok k' -> (atomic k <-> atomic k').
Proof.
  destruct k; cbn [kset]; intro E; repeat match type of E with context [bind ?r _] => destruct r; cbn [bind] in E; [|discriminate] end; injection E as <-; cbn; tauto.
Qed.
Definition single (m : hmodel) : Prop := h_only_probit m = false -> forall k, h_kern m = Some k -> atomic k.
Lemma set_hyper_in m x m' : set_hyper m x = Ok m' -> switches m m' /\
  (h_rel m = true -> p_opt (h_p m) = true -> In (p_sigma (h_p m')) x) /\
  (h_abs m = true -> a_opt (h_a m) = true -> In (a_v (h_a m')) x /\ (a_v_only (h_a m) = false -> In (a_sigma (h_a m')) x)) /\
  (h_only_probit m = false -> forall k, h_kern m' = Some k -> forall t, In t (kparam k) -> In t x) /\ (single m -> single m') /\ (h_kern m = None <-> h_kern m' = None).
Proof.
  intro E. pose proof (set_hyper_kern m x m' E) as HK.
  assert (A : exists y m1, set_probit_hyper m y = Ok m1 /\ (forall t, In t y -> In t x) /\ h_p m' = h_p m1 /\ h_a m' = h_a m1 /\ h_rel m' = h_rel m1 /\ h_abs m' = h_abs m1 /\ h_only_probit m' = h_only_probit m1).
  { unfold set_hyper in E. destruct (h_kern m) as [k|]; [|exists x, m'; auto 10].
    destruct (set_probit_hyper m _) as [m1|] eqn:E1; [|discriminate]. cbn [bind] in E. exists (firstn (length (probit_hyper m)) x), m1. split; [exact E1|]. split; [intro; apply firstn_in|].
    pose proof (probit_set_in _ _ _ E1) as [[s1 [s2 [s3 _]]] _].
    destruct (h_only_probit m); [injection E as <-; auto 10|]. destruct (kset k _); [|discriminate]. cbn [bind] in E. injection E as <-. cbn. repeat split; congruence. }
  destruct A as [y [m1 [E1 [I [q1 [q2 [q3 [q4 q5]]]]]]]]. pose proof (probit_set_in _ _ _ E1) as [S [P1 P2]]. unfold switches in S. rewrite <- q1, <- q2, <- q3, <- q4, <- q5 in S. rewrite <- q1 in P1. rewrite <- q2 in P2.
  split; [exact S|]. split; [intros a b; apply I; auto|]. split; [intros a b; destruct (P2 a b) as [u v]; split; [now apply I|intro c; now apply I, v]|].
  destruct S as [_ [_ [S3 _]]].
  destruct (h_kern m) as [k|] eqn:Ek; [|split; [intros _ k' Hk; congruence|split; [intros _ _ k' Hk; congruence|tauto]]].
  destruct (h_only_probit m) eqn:Oo.
  - split; [discriminate|]. split; [intros _ C; congruence|]. rewrite HK. split; discriminate.
  - destruct HK as [k' [E2 E3]]. split; [intros _ k2 Hk t Ht; rewrite E3 in Hk; injection Hk as <-; apply (kset_in _ _ _ E2) in Ht; now apply skipn_in in Ht|].
    split; [|rewrite E3; split; discriminate]. intros Sg _ k2 Hk. rewrite E3 in Hk. injection Hk as <-. apply (kset_atomic _ _ _ E2). now apply Sg.
Qed.

(** ---- the priors ---- *)
Lemma clip_pos x : 1 / 1000000 <= gamma_clip x.
Proof. unfold gamma_clip. destruct (Rltb x (1 / 1000000)) eqn:E; [lra|]. apply Rltb_false in E. lra. Qed.
Lemma log_gamma_le g x k theta b l : 1 <= g k -> 1 <= k -> 0 < theta -> (k - 1) * theta <= 1 -> k * (/ theta - 1) <= b -> log_pdf_gamma g x k theta = Some l -> l <= b.
Proof.
  intros Hg Hk Ht Hm Hb0.
  assert (Hb : / Rpower theta k <= exp b).
  { unfold Rpower. rewrite <- exp_Ropp. destruct (Rle_lt_or_eq_dec (- (k * ln theta)) b) as [Q|Q]; [|left; now apply exp_increasing|right; now rewrite Q].
    assert (Z : ln (/ theta) <= / theta - 1). { pose proof (exp_ineq1_le (ln (/ theta))) as X. rewrite exp_ln in X by now apply Rinv_0_lt_compat. lra. }
    rewrite ln_Rinv in Z by lra. nra. }
  unfold log_pdf_gamma. cbv zeta. destruct (Rltb x 0); [discriminate|]. intro E. injection E as <-. assert (C := clip_pos x). set (y := gamma_clip x) in *.
  assert (RP : 0 < Rpower theta k) by apply exp_pos.
  assert (L1 : ln (1 / (g k * Rpower theta k)) <= b).
  { rewrite <- (ln_exp b). apply ln_le; [apply Rdiv_lt_0_compat; [lra|apply Rmult_lt_0_compat; lra]|]. apply Rle_trans with (2 := Hb). unfold Rdiv. rewrite Rmult_1_l. apply Rinv_le_contravar; [exact RP|]. nra. }
  assert (L2 : (k - 1) * ln y <= y / theta).
  { destruct (Req_dec k 1) as [->|Nk]; [replace ((1 - 1) * ln y) with 0 by ring; apply Rlt_le, Rdiv_lt_0_compat; lra|].
    assert (K : 0 < (k - 1) * theta) by (apply Rmult_lt_0_compat; lra).
    assert (Ly : ln y <= y / ((k - 1) * theta)).
    { assert (Y := Rmult_le_compat_l y _ _ ltac:(lra) (Rinv_le_contravar ((k - 1) * theta) 1 K Hm)). rewrite Rinv_1 in Y. assert (Z : ln y <= y - 1). { pose proof (exp_ineq1_le (ln y)) as X. rewrite exp_ln in X by lra. lra. } unfold Rdiv. lra. }
    apply (Rmult_le_compat_l (k - 1)) in Ly; [|lra]. replace ((k - 1) * (y / ((k - 1) * theta))) with (y / theta) in Ly by (field; lra). exact Ly. }
  lra.
Qed.

Definition gamma_ge (g : R -> R) : Prop := 1 <= g 1 /\ 1 <= g 2 /\ 1 <= g 3 /\ 1 <= g 4 /\ 1 <= g 10.
Lemma true_gamma_ge : gamma_ge true_gamma.
Proof.
  assert (H : forall n, 1 <= true_gamma (INR n + 1)).
  { intro n. unfold true_gamma. rewrite lgam_fact, exp_ln; [|apply lt_0_INR, lt_O_fact]. change 1 with (INR 1). apply le_INR. exact (lt_O_fact n). }
  repeat split; [rewrite <- (Rplus_0_l 1) at 2; exact (H 0%nat)|replace 2 with (INR 1 + 1) by (cbn; lra)|replace 3 with (INR 2 + 1) by (cbn; lra)|replace 4 with (INR 3 + 1) by (cbn; lra)|replace 10 with (INR 9 + 1) by (cbn; lra)]; apply H.
Qed.
(** the prior of a single kernel is defined exactly for parameters which are not negative, and bounded *)
Lemma log_gamma_some g x k theta l : log_pdf_gamma g x k theta = Some l -> 0 <= x.
Proof. unfold log_pdf_gamma. cbv zeta. destruct (Rltb x 0) eqn:E; [discriminate|]. intros _. apply Rltb_false in E. lra. Qed.
Lemma kprior_dom g k l : kprior g k = Some l -> Forall (fun x => 0 <= x) (kparam k).
Proof.
  revert l. induction k as [s l0 e|s sb c|s l0 p|s l0 e z|a IHa b IHb|a IHa b IHb]; intro l; cbn [kprior kparam]; unfold M_Kernel.oplus.
  1,4: destruct (log_pdf_gamma g s _ _) eqn:E1; [|discriminate]; destruct (log_pdf_gamma g l0 _ _) eqn:E2; [|discriminate]; intros _; apply log_gamma_some in E1; apply log_gamma_some in E2; auto.
  1: destruct (log_pdf_gamma g s _ _) eqn:E1; [|discriminate]; destruct (log_pdf_gamma g sb _ _) eqn:E2; [|discriminate]; destruct (log_pdf_gamma g c _ _) eqn:E3; [|discriminate];
     intros _; apply log_gamma_some in E1; apply log_gamma_some in E2; apply log_gamma_some in E3; auto.
  1: destruct (log_pdf_gamma g s _ _) eqn:E1; [|discriminate]; destruct (log_pdf_gamma g l0 _ _) eqn:E2; [|discriminate]; destruct (log_pdf_gamma g p _ _) eqn:E3; [|discriminate];
     intros _; apply log_gamma_some in E1; apply log_gamma_some in E2; apply log_gamma_some in E3; auto.
  all: destruct (kprior g a) eqn:E1; [|discriminate]; destruct (kprior g b) eqn:E2; [|discriminate]; intros _; apply Forall_app; eauto.
Qed.
Lemma kprior_le g k l : gamma_ge g -> atomic k -> kprior g k = Some l -> l <= 200.
Proof.
  intros [g1 [g2 [g3 [g4 g10]]]] A. destruct k as [s l0 e|s sb c|s l0 p|s l0 e z|a b|a b]; try contradiction; cbn [kprior]; unfold M_Kernel.oplus.
  1,4: destruct (log_pdf_gamma g s _ _) eqn:E1; [|discriminate]; destruct (log_pdf_gamma g l0 _ _) eqn:E2; [|discriminate]; intro E; injection E as <-;
    apply (log_gamma_le _ _ _ _ 100) in E1; try lra; apply (log_gamma_le _ _ _ _ 100) in E2; lra.
  1: destruct (log_pdf_gamma g s _ _) eqn:E1; [|discriminate]; destruct (log_pdf_gamma g sb _ _) eqn:E2; [|discriminate]; destruct (log_pdf_gamma g c _ _) eqn:E3; [|discriminate];
     intro E; injection E as <-; apply (log_gamma_le _ _ _ _ 20) in E1; try lra; apply (log_gamma_le _ _ _ _ 20) in E2; try lra; apply (log_gamma_le _ _ _ _ 20) in E3; lra.
  destruct (log_pdf_gamma g s _ _) eqn:E1; [|discriminate]; destruct (log_pdf_gamma g l0 _ _) eqn:E2; [|discriminate]; destruct (log_pdf_gamma g p _ _) eqn:E3; [|discriminate];
     intro E; injection E as <-; apply (log_gamma_le _ _ _ _ 20) in E1; try lra; apply (log_gamma_le _ _ _ _ 20) in E2; try lra; apply (log_gamma_le _ _ _ _ 20) in E3; lra.
Qed.
Lemma abs_prior_le g a l : gamma_ge g -> abs_prior g a = Some l -> l <= 0 /\ (a_opt a = true -> (a_v a < 0 -> l <= -5000) /\ (a_v_only a = false -> 0 <= a_sigma a)).
Proof.
  intros [g1 _]. unfold abs_prior. destruct (a_opt a); [|intro E; injection E as <-; split; [lra|discriminate]]. cbv zeta. destruct (a_v_only a).
  - intro E. injection E as <-. destruct (Rltb (a_v a) 0) eqn:Ev; (split; [lra|]); intros _; (split; [|discriminate]); intro V; [lra|]. apply Rltb_false in Ev. lra.
  - unfold M_Kernel.oplus. destruct (log_pdf_gamma g (a_sigma a) 1 1) as [q|] eqn:Eq; [|discriminate]. intro E. injection E as <-. assert (Q := log_gamma_some _ _ _ _ _ Eq).
    apply (log_gamma_le _ _ _ _ 0) in Eq; try lra. destruct (Rltb (a_v a) 0) eqn:Ev; (split; [lra|]); intros _; (split; [|auto]); intro V; [lra|]. apply Rltb_false in Ev. lra.
Qed.
(** parameters which are not terrible are in the domain *)
Lemma kept_in_domain g m : gamma_ge g -> single m -> terrible (hyper_likelihood g m) = false -> in_domain m.
Proof.
  intros G Sg T. destruct (hyper_likelihood g m) as [l|] eqn:E; [|discriminate]. cbn [terrible] in T. apply Rltb_false in T.
  unfold hyper_likelihood in E. cbv zeta in E.
  set (pr := if h_rel m then pref_prior (h_p m) else Some 0) in *. set (ap := if h_abs m then abs_prior g (h_a m) else Some 0) in *.
  assert (Pp : exists a, pr = Some a /\ a <= 0 /\ (h_rel m = true -> p_opt (h_p m) = true -> p_sigma (h_p m) <= 0 -> a = -5000)).
  { unfold pr. destruct (h_rel m); [|exists 0; repeat split; [lra|discriminate]]. unfold pref_prior. destruct (p_opt (h_p m)); [|exists 0; repeat split; [lra|discriminate]].
    destruct (Rleb (p_sigma (h_p m)) 0) eqn:Q; [exists (-5000); repeat split; lra|]. exists 0. repeat split; [lra|]. intros _ _ Z. apply Rleb_false in Q. lra. }
  destruct Pp as [a [Ea [La Na]]].
  assert (Pa : forall b, ap = Some b -> b <= 0 /\ (h_abs m = true -> a_opt (h_a m) = true -> (a_v (h_a m) < 0 -> b <= -5000) /\ (a_v_only (h_a m) = false -> 0 <= a_sigma (h_a m)))).
  { unfold ap. intro b. destruct (h_abs m); [|intro Q; injection Q as <-; split; [lra|discriminate]]. intro Q. destruct (abs_prior_le g _ _ G Q) as [u v]. split; [exact u|]. intros _ o. exact (v o). }
  rewrite Ea in E. unfold M_Kernel.oplus in E at 2 3. destruct ap as [b|] eqn:Eb; [|unfold M_Kernel.oplus in E; destruct (h_kern m) as [k|]; [destruct (h_only_probit m); [discriminate|destruct (kprior g k); discriminate]|discriminate]].
  destruct (Pa b eq_refl) as [Lb Nb].
  assert (M : exists c, l = c + (a + 0 + b) /\ c <= 200 /\ (h_only_probit m = false -> forall k, h_kern m = Some k -> Forall (fun x => 0 <= x) (kparam k))).
  { destruct (h_kern m) as [k|] eqn:Ek; [|exists 0; injection E as <-; repeat split; [lra|lra|intros _ k Hk; discriminate]].
    destruct (h_only_probit m) eqn:Oo; [exists 0; injection E as <-; repeat split; [lra|lra|discriminate]|].
    unfold M_Kernel.oplus in E. destruct (kprior g k) as [c|] eqn:Kc; [|discriminate]. injection E as <-. exists c. split; [lra|]. split; [apply (kprior_le g k); auto|].
    intros _ k' Hk. injection Hk as <-. eapply kprior_dom; eauto. }
  destruct M as [c [El [Lc Nc]]]. split; [|split; [|exact Nc]].
  - intros r o. destruct (Rlt_or_le 0 (p_sigma (h_p m))) as [?|Z]; [auto|]. specialize (Na r o Z). lra.
  - intros r o. destruct (Nb r o) as [N1 N2]. split; [|exact N2]. destruct (Rlt_or_le (a_v (h_a m)) 0) as [Z|?]; [|auto]. specialize (N1 Z). lra.
Qed.
(** ---- drawing parameters ---- *)
Lemma interior_domain m : in_interior m -> in_domain m.
Proof.
  intros [A [B C]]. split; [exact A|]. split; [intros r o; destruct (B r o) as [u v]; split; [lra|intro w; specialize (v w); lra]|]. intros o k Hk. eapply Forall_impl; [|exact (C o k Hk)]. cbn; intros; lra.
Qed.
Lemma samples_pos m d k : positive_draws d -> forall x, In x ((pref_samples (h_p m) d ++ [] ++ abs_samples (h_a m) d) ++ kern_samples k d) -> 0 < x.
Proof.
  intros [p [s [v K]]] x H. apply in_app_or in H as [H|H].
  - apply in_app_or in H as [H|H]; [unfold pref_samples in H; destruct (p_opt (h_p m)); [destruct H as [<- |[]]; auto|contradiction]|]. cbn [app] in H. unfold abs_samples in H. destruct (a_v_only (h_a m)); [destruct H as [<- |[]]; auto|destruct H as [<- |[<- |[]]]; auto].
  - rewrite Forall_forall in K. apply K. destruct k; cbn [kern_samples] in H; try contradiction; now apply firstn_in in H.
Qed.
Lemma kparam_two k : (2 <= length (kparam k))%nat.
Proof. induction k; cbn [kparam length]; try rewrite app_length; lia. Qed.
Lemma randomize_dom m d m' : positive_draws d -> randomize_hyper m d = Ok m' -> in_interior m' /\ single m' /\ switches m m'.
Proof.
  intros Pd E. unfold randomize_hyper in E. destruct (h_kern m) as [k|] eqn:Ek; [|discriminate]. cbv zeta in E.
  destruct (if h_only_probit m then _ else Ok m) as [m1|] eqn:E1; [|discriminate]. cbn [bind] in E.
  assert (S1 : switches m m1 /\ (h_only_probit m = false -> m1 = m)).
  { destruct (h_only_probit m) eqn:Oo; [split; [exact (proj1 (set_hyper_in _ _ _ E1))|discriminate]|injection E1 as <-; split; [unfold switches; auto 10|auto]]. }
  destruct S1 as [S1 Q1]. destruct (set_hyper_in _ _ _ E) as [S2 [I1 [I2 [I3 [_ _]]]]]. assert (SP := samples_pos m d k Pd). set (x := (pref_samples (h_p m) d ++ [] ++ abs_samples (h_a m) d) ++ kern_samples k d) in *.
  assert (S3 : switches m m'). { unfold switches in *. destruct S1 as [? [? [? [? [? ?]]]]], S2 as [? [? [? [? [? ?]]]]]. repeat split; congruence. }
  split; [|split; [|exact S3]].
  - destruct S2 as [s1 [s2 [s3 [s4 [s5 s6]]]]]. split; [intros r o; apply SP, I1; congruence|]. split.
    + intros r o. destruct (I2 ltac:(congruence) ltac:(congruence)) as [u v]. split; [now apply SP|]. intro w. apply SP, v. congruence.
    + intros o k' Hk. apply Forall_forall. intros t Ht. apply SP. apply (I3 ltac:(congruence) k' Hk t Ht).
  - intros Oo k' Hk. destruct S3 as [_ [_ [s3 _]]]. assert (Om : h_only_probit m = false) by congruence. specialize (Q1 Om). subst m1.
    pose proof (set_hyper_kern m x m' E) as HK. rewrite Ek, Om in HK. destruct HK as [k2 [K1 K2]]. rewrite K2 in Hk. injection Hk as <-. apply (kset_atomic _ _ _ K1).
    destruct k as [s l e|s sb c|s l p|s l e z|a b|a b]; cbn; auto; exfalso; apply set_hyper_short in E; unfold get_hyper in E; rewrite Ek, Om, app_length in E; cbn [kparam] in E; rewrite app_length in E;
      pose proof (kparam_two a); pose proof (kparam_two b); unfold x in E; cbn [kern_samples app] in E; rewrite !app_length in E; cbn [length] in E; unfold pref_samples, abs_samples in E;
      destruct (p_opt (h_p m)), (a_v_only (h_a m)); cbn [length] in E; lia.
Qed.
Lemma update_dom g m grad d m' : gamma_ge g -> single m -> positive_draws d -> update_hyper g m grad d = Ok m' -> in_domain m' /\ single m' /\ switches m m'.
Proof.
  intros G Sg Pd E. unfold update_hyper in E. cbv zeta in E. destruct (set_hyper m (get_hyper m)) as [m0|] eqn:E0; [|discriminate]. cbn [bind] in E. destruct (gradient_step _ _) as [x|]; [|discriminate]. cbn [bind] in E.
  destruct (set_hyper m0 x) as [m1|] eqn:E1; [|discriminate]. cbn [bind] in E.
  destruct (set_hyper_in _ _ _ E0) as [S0 [_ [_ [_ [G0 _]]]]]. destruct (set_hyper_in _ _ _ E1) as [S1 [_ [_ [_ [G1 _]]]]]. specialize (G1 (G0 Sg)).
  assert (S2 : switches m m1). { unfold switches in *. destruct S0 as [? [? [? [? [? ?]]]]], S1 as [? [? [? [? [? ?]]]]]. repeat split; congruence. }
  destruct (terrible _) eqn:T.
  - destruct (randomize_dom _ _ _ Pd E) as [A [B C]]. split; [now apply interior_domain|]. split; [exact B|]. unfold switches in *. destruct S2 as [? [? [? [? [? ?]]]]], C as [? [? [? [? [? ?]]]]]. repeat split; congruence.
  - injection E as <-. split; [now apply (kept_in_domain g)|]. auto.
Qed.
Lemma switches_trans m m1 m2 : switches m m1 -> switches m1 m2 -> switches m m2.
Proof. unfold switches. intros [? [? [? [? [? ?]]]]] [? [? [? [? [? ?]]]]]. repeat split; congruence. Qed.
Lemma updates_dom g l : gamma_ge g -> Forall (fun u => positive_draws (snd u)) l -> forall m m', in_domain m -> single m -> hyper_updates g m l = Ok m' -> in_domain m' /\ switches m m'.
Proof.
  intros G Pl. induction Pl as [|[gr d'] l Pd' Pl IH]; intros m m' A B E; cbn [hyper_updates] in E; [injection E as <-; split; [auto|unfold switches; auto 10]|].
  destruct (update_hyper g m gr d') as [m2|] eqn:E2; [|discriminate]. cbn [bind] in E. destruct (update_dom _ _ _ _ _ G B Pd' E2) as [A' [B' C']].
  destruct (IH _ _ A' B' E) as [X Y]. split; [exact X|]. eapply switches_trans; eauto.
Qed.
Lemma run_dom g m d l m' : gamma_ge g -> positive_draws d -> Forall (fun u => positive_draws (snd u)) l -> hyper_run g m d l = Ok m' -> in_domain m' /\ switches m m'.
Proof.
  intros G Pd Pl E. unfold hyper_run in E. destruct (randomize_hyper m d) as [m1|] eqn:E1; [|discriminate]. cbn [bind] in E. destruct (randomize_dom _ _ _ Pd E1) as [A [B C]].
  destruct (updates_dom g l G Pl _ _ (interior_domain _ A) B E) as [X Y]. split; [exact X|]. eapply switches_trans; eauto.
Qed.
Lemma run_combination g m d l k m' : h_only_probit m = false -> h_kern m = Some k -> ~ atomic k -> hyper_run g m d l <> Ok m'.
Proof.
  intros Om Ek A E. unfold hyper_run in E. destruct (randomize_hyper m d) as [m1|] eqn:E1; [|discriminate]. unfold randomize_hyper in E1. rewrite Ek, Om in E1. cbv zeta in E1. cbn [bind] in E1.
  apply set_hyper_short in E1. unfold get_hyper in E1. rewrite Ek, Om, !app_length in E1.
  destruct k as [s l0 e|s sb c|s l0 p|s l0 e z|a b|a b]; try (exfalso; apply A; exact I); cbn [kparam kern_samples length] in E1; rewrite app_length in E1;
    pose proof (kparam_two a); pose proof (kparam_two b); unfold pref_samples, abs_samples in E1; destruct (p_opt (h_p m)), (a_v_only (h_a m)); cbn [length] in E1; lia.
Qed.
Lemma zipw_len {A B C} (f : A -> B -> C) l l' : length l = length l' -> length (zipw f l l') = length l.
Proof. revert l'. induction l as [|a l IH]; intros [|b l'] H; cbn in *; try discriminate; auto. Qed.
Lemma kset_same k rest : kset k (kparam k ++ rest) = Ok k.
Proof.
  revert rest. induction k as [s l e|s sb c|s l p|s l e z|a IHa b IHb|a IHa b IHb]; intro rest; try reflexivity;
  cbn [kset kparam]; rewrite <- app_assoc, firstn_exact, skipn_exact; rewrite <- (app_nil_r (kparam a)) at 1; rewrite IHa; cbn [bind]; rewrite IHb; reflexivity.
Qed.
Lemma set_same m : h_ord m = false -> set_hyper m (get_hyper m) = Ok m.
Proof.
  intro Ho. assert (P : forall rest, set_probit_hyper m (firstn (length (probit_hyper m)) (probit_hyper m ++ rest)) = Ok m).
  { intro rest. rewrite firstn_exact. destruct m as [r o a p oo ab op k]. cbn in Ho. subst o. destruct p as [s po], ab as [sa v ao av]. unfold set_probit_hyper, probit_hyper. cbn. destruct r, a, po, ao, av; reflexivity. }
  unfold set_hyper, get_hyper. destruct (h_kern m) as [k|] eqn:Ek.
  - destruct (h_only_probit m) eqn:Oo.
    + assert (Q := P nil). rewrite app_nil_r in Q. rewrite Q. reflexivity.
    + rewrite P. cbn [bind]. rewrite skipn_exact. rewrite <- (app_nil_r (kparam k)), kset_same. cbn [bind]. destruct m; cbn in *. subst. reflexivity.
  - assert (Q := P nil). rewrite app_nil_r, firstn_all in Q. exact Q.
Qed.
(** with one gradient entry per parameter and without ordinal labels the step is taken as it is, unless its prior is too low *)
Lemma update_step g m grad d : h_ord m = false -> length grad = length (get_hyper m) ->
  exists m1, set_hyper m (zipw (fun x h => x - h * (1 / 100)) (get_hyper m) grad) = Ok m1 /\ get_hyper m1 = zipw (fun x h => x - h * (1 / 100)) (get_hyper m) grad /\ same_setup m m1 /\
    update_hyper g m grad d = if terrible (hyper_likelihood g m1) then randomize_hyper m1 d else Ok m1.
Proof.
  intros Ho L. set (x := zipw (fun x h => x - h * (1 / 100)) (get_hyper m) grad). assert (Lx : length x = length (get_hyper m)) by (unfold x; rewrite zipw_len; auto).
  destruct (hyper_rt m x Lx) as [m1 [E1 [G1 S1]]]; [rewrite Ho; discriminate|]. exists m1. split; [exact E1|]. split; [exact G1|]. split; [exact S1|].
  unfold update_hyper. cbv zeta. rewrite set_same by exact Ho. cbn [bind]. unfold gradient_step. rewrite L, Nat.eqb_refl. cbn [bind]. fold x. rewrite E1. reflexivity.
Qed.
Lemma aligned_setup m x m1 : set_hyper m x = Ok m1 -> same_setup m m1 -> aligned m -> aligned m1.
Proof.
  intros E [a1 [a2 [a3 [a4 [_ [_ [_ [a8 [_ [a10 _]]]]]]]]]] [H1 [H2 H3]]. split; [congruence|]. split; [rewrite a8, a1; exact H2|]. rewrite a3, a4, a10. destruct H3 as [H3|[H3 [H4 H5]]]; [now left|].
  destruct (h_only_probit m) eqn:Oo; [now left|right]. split; [auto|]. split; [auto|]. intros k' Hk. pose proof (set_hyper_kern m x m1 E) as HK. rewrite Oo in HK. destruct (h_kern m) as [k|]; [|congruence].
  destruct HK as [k2 [K1 K2]]. rewrite K2 in Hk. injection Hk as <-. apply (kset_atomic _ _ _ K1). now apply H5.
Qed.
Lemma kset_len k th k' : kset k th = Ok k' -> length (kparam k') = length (kparam k).
Proof.
  revert th k'. induction k as [s l e|s sb c|s l p|s l e z|a IHa b IHb|a IHa b IHb]; intros th k'; cbn [kset]; intro E;
  repeat match type of E with context [bind ?r _] => destruct r eqn:?; cbn [bind] in E; [|discriminate] end; injection E as <-; cbn [kparam length]; rewrite ?app_length; eauto.
Qed.
Lemma no_rollback g m grad d k m1 : h_ord m = false -> length grad = length (get_hyper m) -> aligned m -> h_kern m = Some k -> (length (kparam k) <= length (d_k d))%nat ->
  set_hyper m (zipw (fun x h => x - h * (1 / 100)) (get_hyper m) grad) = Ok m1 -> terrible (hyper_likelihood g m1) = true ->
  exists m', update_hyper g m grad d = Ok m' /\ own_draws d m m'.
Proof.
  intros Ho L A K D E1 T. destruct (update_step g m grad d Ho L) as [m2 [E2 [_ [S U]]]]. rewrite E1 in E2. injection E2 as <-. rewrite T in U.
  assert (K1 : exists k1, h_kern m1 = Some k1 /\ length (kparam k1) = length (kparam k)).
  { pose proof (set_hyper_kern m _ m1 E1) as HK. rewrite K in HK. destruct (h_only_probit m); [eauto|]. destruct HK as [k' [Q1 Q2]]. exists k'. split; [auto|]. eapply kset_len; eauto. }
  destruct K1 as [k1 [K1 L1]]. destruct (randomize_aligned m1 d k1 (aligned_setup _ _ _ E1 S A) K1 ltac:(lia)) as [m' [E O]]. exists m'. split; [congruence|].
  destruct S as [a1 [a2 [a3 [a4 [_ [_ [_ [a8 [_ [a10 a11]]]]]]]]]]. destruct O as [O1 [O2 O3]]. split; [intros; apply O1; congruence|]. split; [intros r o; destruct (O2 ltac:(congruence) ltac:(congruence)) as [u v]; split; [exact u|intro w; apply v; congruence]|].
  - intros k' Hk o. rewrite K in Hk. injection Hk as <-. destruct (O3 k1 K1 ltac:(congruence)) as [k2 [Q1 Q2]]. exists k2. split; [auto|]. congruence.
Qed.
