(** The linear model with ordinal labels: the matrix of second derivatives is wrong. *)
From Coquelicot Require Import Coquelicot.
From Coq Require Import Reals Lra Lia List.
From Verif Require Import M_RBase M_Normal M_PrefProbit M_OrdProbit M_AbsProbit M_Acq M_GP M_Search M_Fit S_PrefProbit S_OrdProbit S_AbsProbit S_GP S_Fit P_RBase P_Acq P_Normal P_PrefProbit P_Put P_OrdProbit P_AbsProbit P_Chol P_GP P_GP2 P_GP3 P_Search P_Fit P_Fit2 P_Fit3 P_Fit4 P_Fit5.
From Verif Require Import S_Psd P_Psd.
Local Open Scope R_scope.

Lemma lin_bo sp P s v : 0 < s -> ps_o P = bo s -> LL sp P (ord_only ((2%nat, 0%nat) :: nil)) (lin_F 1 (fun _ _ => 1) v) = ln (ndtr (v 0%nat / s)).
Proof.
  intros Hs Ho. unfold LL, part. cbn [y_rel y_ord y_abs ord_only]. rewrite Ho. unfold LLo, S_OrdProbit.LLo. cbn. rewrite bo_prob2. unfold lin_F; cbn. replace (1 * v 0%nat + 0) with (v 0%nat) by ring. ring.
Qed.
Lemma lin_bo_slope sp P s t : 0 < s -> ps_o P = bo s ->
  direction (fun v => LL sp P (ord_only ((2%nat, 0%nat) :: nil)) (lin_F 1 (fun _ _ => 1) v)) (fun _ => 1) (along (fun _ => 0) (fun _ => 1) t) = hazard (t / s) / s.
Proof.
  intros Hs Ho. unfold direction. rewrite (Derive_ext _ (fun u => log_ndtr ((t + u) / s))).
  - apply is_derive_unique. replace (hazard (t / s) / s) with (hazard ((t + 0) / s) * (1 / s)) by (rewrite Rplus_0_r; field; lra). apply (comp_derive log_ndtr (fun u => (t + u) / s)); [apply log_ndtr_derive|]. auto_derive; auto.
  - intro u. rewrite (lin_bo sp P s _ Hs Ho). unfold along. replace (0 + t * 1 + u * 1) with (t + u) by ring. reflexivity.
Qed.
Lemma lin_ord_wrong sp P s : 0 < s -> ps_o P = bo s -> 0 < ps_eps P <= 1 / 2 -> exists W g p,
  lin_derivatives sp P (ord_only ((2%nat, 0%nat) :: nil)) 1 1 (fun _ _ => 1) (fun _ => 0) = Ok (W, g, p) /\ W 0%nat 0%nat < 0 /\
  ~ has_direction (direction (fun v => LL sp P (ord_only ((2%nat, 0%nat) :: nil)) (lin_F 1 (fun _ _ => 1) v)) (fun _ => 1)) (fun _ => 0) (fun _ => 1) (- bform 1 W (fun _ => 1) (fun _ => 1)).
Proof.
  intros Hs Ho He. destruct (bo_derivatives s (ps_eps P) Hs He) as [W' [g' [p' [ED [EW EG]]]]].
  assert (F0 : lin_F 1 (fun _ _ => 1) (fun _ => 0) = fun _ => 0) by (apply FunctionalExtensionality.functional_extensionality; intro i; unfold lin_F; cbn; ring).
  unfold lin_derivatives, derivatives. rewrite F0. cbn [y_rel y_ord y_abs ord_only]. rewrite Ho, ED. cbn [bind]. do 3 eexists. split; [reflexivity|].
  assert (N := npdf_0_value). assert (I : 0 < ivar (bo s)) by (unfold ivar, isigma, bo; cbn [o_sigma]; replace ((1 / s) ^ 2) with (/ (s * s)) by (field; lra); apply Rinv_0_lt_compat; nra).
  assert (Wn : W' 0%nat 0%nat < 0) by (rewrite EW; nra).
  match goal with |- ?w < 0 /\ _ => assert (E : w = W' 0%nat 0%nat) by (cbn; ring) end. cbv beta in E |- *. split; [rewrite E; exact Wn|]. intro D.
  match type of D with has_direction _ _ _ ?q => assert (EB : q = - W' 0%nat 0%nat) by (unfold bform; cbn; ring) end. rewrite EB in D.
  destruct (derive_raises _ _ D ltac:(lra)) as [dd [Hd K]]. specialize (K (dd / 2) ltac:(lra)). rewrite !(lin_bo_slope sp P s _ Hs Ho) in K.
  assert (T : 0 / s < dd / 2 / s) by (unfold Rdiv; apply Rmult_lt_compat_r; [now apply Rinv_0_lt_compat|lra]). apply hazard_decreasing in T. assert (Is : 0 < / s) by (now apply Rinv_0_lt_compat). unfold Rdiv in *. nra.
Qed.
