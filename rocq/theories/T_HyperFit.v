(** C162: optimisation with hyper-parameters as a whole. *)
From Coquelicot Require Import Coquelicot.
From Coq Require Import Reals Lra Lia List.
From Verif Require Import M_RBase M_Base M_Fake M_Util M_Kernel M_Hyper M_HyperRun M_Mode M_GP M_Fit M_Search M_HyperFit S_Kernel S_GP S_Hyper S_HyperRun S_HyperGrad S_Gamma
  P_RBase P_Hyper P_HyperPrior P_Gamma P_HyperRun P_GP P_GP2 P_GP3 P_HyperGrad3 P_HyperGrad4 P_HyperFit.
From Verif Require Import S_Fit P_Chol S_Psd P_Psd.
Import ListNotations.
Local Open Scope R_scope.

(** if optimize returns, the fitted values are the mode search on all stored points with the final hyper-parameters, one value per point *)
Theorem C162_success : forall c X y o d l draw o', optimize_hyper c X y o d l draw = (o', None) ->
  ho_optimized o' = true /\ exists f, ho_fit o' = LFit f /\ fit_points c (ho_m o') X y draw = Ok f /\ length (hf_F f) = length X.
Proof. intros c X y o d l draw o' E. destruct (optimize_success _ _ _ _ _ _ _ _ E) as [A [B _]]. auto. Qed.
Print Assumptions C162_success.
(** ... and these hyper-parameters are in their domain *)
Theorem C162_domain : forall c X y o d l draw o', hc_gamma c = true_gamma -> positive_draws d -> Forall (fun s => positive_draws (sc_d s)) l ->
  optimize_hyper c X y o d l draw = (o', None) -> in_domain (ho_m o').
Proof. exact optimize_domain. Qed.
Print Assumptions C162_domain.
(** with fewer than four points no search is made; then a failure leaves the model to be fitted again *)
Theorem C162_small : forall c X y o d draw o' e, optimize_hyper c X y o d [] draw = (o', Some e) -> ho_optimized o' = ho_optimized o.
Proof. exact optimize_small. Qed.
Print Assumptions C162_small.
(** refuted: a failed optimisation is repeated.  If a point was stored twice and the kernel has no noise, the search fails, the values of one
    part of the data stay, the model counts as optimised, and every prediction fails from then on *)
Theorem C162_repeated_refuted : forall c X y o d s l draw m1 f i j, randomize_hyper (ho_m o) d = Ok m1 -> (forall k, h_kern (ho_m o) = Some k -> noiseless k) ->
  fit_points c m1 (sc_X s) (sc_y s) (sc_draw s) = Ok f -> length (sc_X s) <> length X ->
  (i < length X)%nat -> (j < length X)%nat -> i <> j -> pt X i = pt X j ->
  exists o1 e, optimize_hyper c X y o d (s :: l) draw = (o1, Some e) /\ ho_optimized o1 = true /\ forall Q d' l' draw', lazy_predict c X y o1 Q d' l' draw' = (o1, Some (Raise ValueError)).
Proof. exact half_used_repeated. Qed.
Print Assumptions C162_repeated_refuted.
(** the same with any ordinal label *)
Theorem C162_ordinal_refuted : forall c X y o d s l draw m1 f u, randomize_hyper (ho_m o) d = Ok m1 -> y_ord y = Some u -> fit_points c m1 (sc_X s) (sc_y s) (sc_draw s) = Ok f -> length (sc_X s) <> length X ->
  exists o1 e, optimize_hyper c X y o d (s :: l) draw = (o1, Some e) /\ ho_optimized o1 = true /\ forall Q d' l' draw', lazy_predict c X y o1 Q d' l' draw' = (o1, Some (Raise ValueError)).
Proof. exact half_used_ordinal. Qed.
Print Assumptions C162_ordinal_refuted.

(** ---- examples ---- *)
Definition e_c (sp : special) : hconfig := mkHC sp (1 / 10) (fun _ A => Some A) (fun _ A => A) 1 3 true_gamma.
Definition e_d : draws := mkDraws 1 1 1 [1; 1; 1].
Lemma e_pos : positive_draws e_d.
Proof. unfold positive_draws, e_d. cbn. repeat split; try lra. repeat constructor; lra. Qed.
(** one search on the points 1 and 2 with the linear kernel *)
Definition e_s : search_call := mkCall w_X (only w_r) (fun _ => 0) e_d.
Definition e_o : hobject := mkHO w_m LNone false.
Lemma e_set x m1 : length x = 4%nat -> set_hyper w_m x = Ok m1 -> exists a b g h, m1 = mkH true false false (mkPref a true) (mkOrd 3 1 (0 :: 1 :: nil)) (mkAbs 1 1 false false) false (Some (Lin b g h)).
Proof. intros L E. destruct x as [|a [|b [|g [|h [|? ?]]]]]; try discriminate. cbn in E. injection E as <-. eauto. Qed.
Example C162_success_ex : forall sp, exists o', optimize_hyper (e_c sp) w_X (only w_r) e_o e_d [e_s] (fun _ => 0) = (o', None).
Proof.
  intro sp. unfold optimize_hyper. change (randomize_hyper (ho_m e_o) e_d) with (Ok w_m). cbn [search_all]. unfold search_once. cbn [ho_m].
  destruct (fit_points_rel (e_c sp) w_m (Lin 1 1 1) w_X w_r (fun _ => 0) eq_refl I ltac:(discriminate)) as [f [K [EF [EK FK]]]]. cbn [sc_X sc_y sc_draw e_s]. rewrite EF.
  change (kcov (Lin 1 1 1) w_X w_X) with (Ok (w_K 1)) in EK. injection EK as <-.
  assert (G : exists gr, hyperparamter_obj_grad (hc_sp (e_c sp)) (hc_eps (e_c sp)) (hc_inv' (e_c sp)) w_m (mkFold w_X (hf_F f) (hf_K f) (only w_r)) w_X (only w_r) (get_hyper w_m) = Ok gr /\ length gr = length (get_hyper w_m)).
  { assert (PR : exists F, predicted (hc_sp (e_c sp)) (hc_eps (e_c sp)) (hc_inv' (e_c sp)) w_m (Lin 1 1 1) (mkFold w_X (hf_F f) (hf_K f) (only w_r)) w_X = Ok F).
    { unfold predicted. cbn [fo_y fo_F fo_X fo_K]. match goal with |- context [derivatives ?sp ?P (only w_r) ?F] => destruct (derivatives_total sp P (only w_r) F eq_refl) as [dd ->] end. cbn [bind]. unfold pgp_predict. cbn [pX pK pF pW].
      change (kcov (Lin 1 1 1) w_X w_X) with (Ok (w_K 1)). cbn [bind]. rewrite FK. destruct (chol_complete 2 (mat_at (w_K 1)) (w_K_sym 1) (w_K_pd 1 ltac:(lra))) as [L EL]. change (length w_X) with 2%nat. rewrite EL. cbn [bind]. eauto. }
    destruct PR as [F PR]. apply (grad_defined _ _ _ _ _ _ _ _ w_m (Lin 1 1 1) F (w_K 1)); auto; try reflexivity; try (now left).
    - repeat split; cbn; intros; try discriminate; auto; congruence.
    - exact (w_K_sym 1).
    - exact (w_K_pd 1 ltac:(lra)). }
  destruct G as [gr [EG LG]]. rewrite EG.
  destruct (update_step (hc_gamma (e_c sp)) w_m gr (sc_d e_s) eq_refl LG) as [m1 [E1 [_ [_ U]]]]. rewrite U.
  assert (LZ : length (zipw (fun x h : R => x - h * (1 / 100)) (get_hyper w_m) gr) = 4%nat) by (destruct gr as [|? [|? [|? [|? [|? ?]]]]]; try discriminate LG; reflexivity).
  destruct (e_set _ m1 LZ E1) as [a [b [g [h E2]]]].
  assert (M : exists m2 a' b' g' h', (if terrible (hyper_likelihood (hc_gamma (e_c sp)) m1) then randomize_hyper m1 (sc_d e_s) else Ok m1) = Ok m2 /\ m2 = mkH true false false (mkPref a' true) (mkOrd 3 1 (0 :: 1 :: nil)) (mkAbs 1 1 false false) false (Some (Lin b' g' h'))).
  { destruct (terrible _); [|exists m1, a, b, g, h; auto]. subst m1. do 5 eexists. split; [cbn; reflexivity|reflexivity]. }
  destruct M as [m2 [a' [b' [g' [h' [-> E3]]]]]]. cbn [ho_m]. destruct (fit_points_rel (e_c sp) m2 (Lin b' g' h') w_X w_r (fun _ => 0) ltac:(now rewrite E3) I ltac:(discriminate)) as [f2 [_ [-> _]]]. eauto.
Qed.
(** the same two points compared twice, an RBF kernel without noise, two parts of two points *)
Definition e_X : list point := [[0]; [1]; [0]; [1]].
Definition e_y : labels := only [(1%Z, 0%nat, 1%nat); (1%Z, 2%nat, 3%nat)].
Definition e_m : hmodel := mkH true false false (mkPref 1 true) (mkOrd 5 1 (linspace0 1 4)) (mkAbs 1 80 true true) false (Some (RBF 1 1 0)).
Example C162_repeated_ex : forall sp, exists o1 e, optimize_hyper (e_c sp) e_X e_y (mkHO e_m LNone false) e_d [mkCall [[0]; [1]] (only w_r) (fun _ => 0) e_d] (fun _ => 0) = (o1, Some e) /\ ho_optimized o1 = true /\
  forall Q d' l' draw', lazy_predict (e_c sp) e_X e_y o1 Q d' l' draw' = (o1, Some (Raise ValueError)).
Proof.
  intro sp. destruct (fit_points_rel (e_c sp) e_m (RBF 1 1 0) [[0]; [1]] w_r (fun _ => 0) eq_refl I ltac:(discriminate)) as [f [K [EF _]]].
  apply (C162_repeated_refuted (e_c sp) e_X e_y (mkHO e_m LNone false) e_d (mkCall [[0]; [1]] (only w_r) (fun _ => 0) e_d) [] (fun _ => 0) e_m f 0 2); auto; try (cbn; lia).
  intros k Hk. injection Hk as <-. reflexivity.
Qed.
(** a comparison and an ordinal label; the rating probit has its sigma optimised too, otherwise drawing the parameters fails already *)
Definition e_mo : hmodel := mkH true true false (mkPref 1 true) (mkOrd 3 1 [0; 1]) (mkAbs 1 80 true false) false (Some (RBF 1 1 0)).
Definition e_yo : labels := mkLabels (Some w_r) (Some [(1%nat, 2%nat)]) None.
Example C162_ordinal_ex : forall sp, exists o1 e, optimize_hyper (e_c sp) [[0]; [1]; [2]] e_yo (mkHO e_mo LNone false) e_d [mkCall [[0]; [1]] (only w_r) (fun _ => 0) e_d] (fun _ => 0) = (o1, Some e) /\ ho_optimized o1 = true /\
  forall Q d' l' draw', lazy_predict (e_c sp) [[0]; [1]; [2]] e_yo o1 Q d' l' draw' = (o1, Some (Raise ValueError)).
Proof.
  intro sp. pose (m1 := mkH true true false (mkPref 1 true) (ord_set_b (mkOrd 3 1 [0; 1]) 1) (mkAbs 1 80 true false) false (Some (RBF 1 1 0))).
  destruct (fit_points_rel (e_c sp) m1 (RBF 1 1 0) [[0]; [1]] w_r (fun _ => 0) eq_refl I ltac:(discriminate)) as [f [K [EF _]]].
  apply (C162_ordinal_refuted (e_c sp) [[0]; [1]; [2]] e_yo (mkHO e_mo LNone false) e_d (mkCall [[0]; [1]] (only w_r) (fun _ => 0) e_d) [] (fun _ => 0) m1 f [(1%nat, 2%nat)]); [reflexivity|reflexivity|exact EF|discriminate].
Qed.
(** a sum of two kernels: drawing the parameters fails *)
Definition e_ms : hmodel := mkH true false false (mkPref 1 true) (mkOrd 3 1 [0; 1]) (mkAbs 1 80 true true) false (Some (KAdd (RBF 1 1 0) (Lin 1 1 1))).
Example C162_small_ex : forall sp, optimize_hyper (e_c sp) w_X (only w_r) (mkHO e_ms LNone false) e_d [] (fun _ => 0) = (mkHO e_ms LNone false, Some IndexError).
Proof. reflexivity. Qed.
