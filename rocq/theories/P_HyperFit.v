(** Lemmas about optimisation with hyper-parameters. *)
From Coquelicot Require Import Coquelicot.
From Coq Require Import Reals Lra Lia List.
From Verif Require Import M_RBase M_Base M_Fake M_Util M_Kernel M_Hyper M_HyperRun M_Mode M_GP M_Fit M_Search M_HyperFit S_Kernel S_GP S_Hyper S_HyperRun S_Gamma
  P_RBase P_Hyper P_HyperPrior P_Gamma P_HyperRun P_GP P_GP2 P_GP3 P_NormMode P_HyperGrad3.
From Verif Require P_Whole.
From Verif Require Import S_Fit P_Chol S_Psd P_Psd.
Import ListNotations.
Local Open Scope R_scope.

Lemma fit_mode_len sp P y n K inv d maxloops F0 k F : length F0 = n -> fit_mode sp P y n K inv d maxloops F0 = Ok (k, F) -> length F = n.
Proof.
  intros L0 H. unfold fit_mode in H. destruct (chol n K) as [L|]; unfold find_mode in H; [|injection H as _ <-; exact L0].
  refine (mode_loop_inv (fun v => length v = n) _ _ _ _ _ _ _ _ _ _ H); [|exact L0].
  intros i w z Hw E. exact (mode_step_length _ _ _ _ _ _ _ _ Hw E).
Qed.
Lemma fit_points_len c m X y draw f : fit_points c m X y draw = Ok f -> length (hf_F f) = length X.
Proof.
  unfold fit_points. destruct (h_kern m) as [k|]; [|discriminate]. cbv zeta. destruct (kcov k X X) as [K|]; [|discriminate]. cbn [bind].
  destruct (fit_mode _ _ _ _ _ _ _ _ _) as [[i F]|] eqn:E; [|discriminate]. cbn [bind]. destruct (derivatives _ _ _ _) as [d|]; [|discriminate]. cbn [bind]. intro H. injection H as <-. cbn [hf_F snd].
  eapply fit_mode_len; [|exact E]. now rewrite map_length, seq_length.
Qed.
(** the hyper-parameters of a search are those of a run of updates *)
Lemma search_updates c X y l : forall o o', search_all c X y o l = (o', None) -> exists gs, length gs = length l /\ (forall u, In u gs -> In (snd u) (map sc_d l)) /\ hyper_updates (hc_gamma c) (ho_m o) gs = Ok (ho_m o').
Proof.
  induction l as [|s l IH]; intros o o' E; cbn [search_all] in E; [injection E as <-; exists []; split; [reflexivity|split; [intros u []|reflexivity]]|].
  unfold search_once in E. destruct (fit_points _ _ _ _ _) as [f|]; [|discriminate]. destruct (hyperparamter_obj_grad _ _ _ _ _ _ _ _) as [gr|]; [|discriminate].
  destruct (update_hyper _ _ _ _) as [m'|] eqn:EU; [|discriminate]. destruct (IH _ _ E) as [gs [L [I U]]]. exists ((gr, sc_d s) :: gs).
  split; [cbn; congruence|]. split; [intros u [<- |H]; [left; reflexivity|right; now apply I]|]. cbn [hyper_updates]. rewrite EU. exact U.
Qed.
Lemma optimize_success c X y o d l draw o' : optimize_hyper c X y o d l draw = (o', None) ->
  ho_optimized o' = true /\ (exists f, ho_fit o' = LFit f /\ fit_points c (ho_m o') X y draw = Ok f /\ length (hf_F f) = length X) /\
  exists gs, (forall u, In u gs -> In (snd u) (map sc_d l)) /\ hyper_run (hc_gamma c) (ho_m o) d gs = Ok (ho_m o').
Proof.
  unfold optimize_hyper, hyper_run. destruct (randomize_hyper (ho_m o) d) as [m1|] eqn:ER; [|discriminate]. destruct (search_all _ _ _ _ l) as [o1 [e|]] eqn:ES; [discriminate|].
  destruct (fit_points c (ho_m o1) X y draw) as [f|] eqn:EF; [|discriminate]. intro H. injection H as <-. cbn. split; [reflexivity|]. split; [exists f; split; [auto|split; [auto|eapply fit_points_len; eauto]]|].
  apply search_updates in ES as [gs [_ [I U]]]. exists gs. split; [exact I|]. exact U.
Qed.
Lemma optimize_domain c X y o d l draw o' : hc_gamma c = true_gamma -> positive_draws d -> Forall (fun s => positive_draws (sc_d s)) l ->
  optimize_hyper c X y o d l draw = (o', None) -> in_domain (ho_m o').
Proof.
  intros G Pd Pl E. destruct (optimize_success _ _ _ _ _ _ _ _ E) as [_ [_ [gs [I U]]]]. rewrite G in U. apply (run_dom true_gamma _ d gs _ true_gamma_ge Pd) in U; [exact (proj1 U)|].
  apply Forall_forall. intros u Hu. apply I in Hu. apply in_map_iff in Hu as [s [<- Hs]]. rewrite Forall_forall in Pl. now apply Pl.
Qed.
Lemma optimize_small c X y o d draw o' e : optimize_hyper c X y o d [] draw = (o', Some e) -> ho_optimized o' = ho_optimized o.
Proof.
  unfold optimize_hyper. destruct (randomize_hyper _ _) as [m1|]; [|intro H; injection H as <- _; reflexivity]. cbn [search_all].
  destruct (fit_points _ _ _ _ _); intro H; [discriminate|]. injection H as <- _. reflexivity.
Qed.
(** a matrix with two equal rows has no Cholesky factor *)
Lemma equal_rows_not_pd n A i j : symmetric n A -> (i < n)%nat -> (j < n)%nat -> i <> j -> (forall k, (k < n)%nat -> A i k = A j k) -> ~ pd n A.
Proof.
  intros S Hi Hj N R P. set (c := fun b => unitv i b - unitv j b).
  assert (Q : qform n A c = 0).
  { unfold qform. apply sumn_zero. intros a Ha. rewrite (sumn_ext n _ (fun b => unitv i b * (c a * A a b) - unitv j b * (c a * A a b))) by (intros; unfold c; ring).
    rewrite sumn_minus, !sumn_unit by auto. rewrite (S a i), (S a j), R by auto. ring. }
  assert (Z : 0 < qform n A c); [|lra]. apply P. exists i. split; [auto|]. unfold c, unitv. rewrite Nat.eqb_refl. destruct (Nat.eqb_spec i j); [congruence|]. destruct (Nat.eqb_spec j i); [congruence|]. lra.
Qed.
Lemma repeated_no_chol k X M i j : noiseless k -> kcov k X X = Ok M -> (i < length X)%nat -> (j < length X)%nat -> i <> j -> pt X i = pt X j -> chol (length X) (mat_at M) = None.
Proof.
  intros NK EM Hi Hj N P. assert (HX : X <> []) by (intros ->; cbn in Hi; lia). assert (HZ := noiseless_no_zeroed k NK). assert (HK := stored_K k X M HZ HX EM).
  assert (T : forall a b, train_cov k X [] a b = kcall k (pt X a) (pt X b)).
  { intros a b. unfold train_cov. destruct (Nat.eqb_spec a b) as [<- |_]; [|reflexivity]. rewrite noiseless_noisy by exact NK. destruct a; cbn [nth]; ring. }
  assert (S : symmetric (length X) (mat_at M)).
  { intros a b Ha Hb. rewrite !HK by auto. now apply (train_cov_sym k X [] (length X)). }
  destruct (chol (length X) (mat_at M)) as [L|] eqn:E; [|reflexivity]. exfalso. apply (equal_rows_not_pd (length X) (mat_at M) i j S Hi Hj N).
  - intros b Hb. rewrite !HK by auto. rewrite !T. now rewrite P.
  - exact (chol_pd _ _ L S E).
Qed.
Lemma kset_noiseless k th k' : kset k th = Ok k' -> noiseless k -> noiseless k'.
Proof.
  revert th k'. induction k as [s l e|s sb c|s l p|s l e z|a IHa b IHb|a IHa b IHb]; intros th k'; cbn [kset]; intro E;
  repeat match type of E with context [bind ?r _] => destruct r eqn:?; cbn [bind] in E; [|discriminate] end; injection E as <-; cbn [noiseless]; try tauto; intros [? ?]; split; eauto.
Qed.
Lemma set_noiseless m x m' k : set_hyper m x = Ok m' -> (forall k, h_kern m = Some k -> noiseless k) -> h_kern m' = Some k -> noiseless k.
Proof.
  intros E H Hk. pose proof (set_hyper_kern m x m' E) as HK. destruct (h_kern m) as [k0|]; [|congruence]. destruct (h_only_probit m); [rewrite HK in Hk; injection Hk as <-; auto|].
  destruct HK as [k1 [K1 K2]]. rewrite K2 in Hk. injection Hk as <-. eapply kset_noiseless; eauto.
Qed.
Lemma grad_singular sp eps inv m f X y x gr : (forall m' k M, set_hyper m x = Ok m' -> h_kern m' = Some k -> kcov k X X = Ok M -> chol (length X) (mat_at M) = None) ->
  hyperparamter_obj_grad sp eps inv m f X y x <> Ok gr.
Proof.
  intros H E. unfold hyperparamter_obj_grad in E. destruct (set_hyper m x) as [m'|] eqn:ES; [|discriminate]. cbn [bind] in E. destruct (h_kern m') as [k|] eqn:EK; [|discriminate].
  destruct (predicted _ _ _ _ _ _ _) as [F|]; [|discriminate]. cbn [bind] in E. destruct (kcov k X X) as [M|] eqn:EM; [|discriminate]. cbn [bind] in E.
  destruct (kcov_grad k X X) as [dK|]; [|discriminate]. cbn [bind] in E. unfold grad_likli_f_hyper in E. destruct (derivatives _ _ _ _) as [d|]; [|discriminate]. cbn [bind] in E.
  rewrite (H m' k M eq_refl EK EM) in E. discriminate.
Qed.
Lemma half_used c X y o d s l draw m1 f : randomize_hyper (ho_m o) d = Ok m1 -> fit_points c m1 (sc_X s) (sc_y s) (sc_draw s) = Ok f -> length (sc_X s) <> length X ->
  (forall gr, hyperparamter_obj_grad (hc_sp c) (hc_eps c) (hc_inv' c) m1 (mkFold (sc_X s) (hf_F f) (hf_K f) (sc_y s)) X y (get_hyper m1) <> Ok gr) ->
  exists o1 e, optimize_hyper c X y o d (s :: l) draw = (o1, Some e) /\ ho_optimized o1 = true /\ forall Q d' l' draw', lazy_predict c X y o1 Q d' l' draw' = (o1, Some (Raise ValueError)).
Proof.
  intros ER EF N G. unfold optimize_hyper. rewrite ER. cbn [search_all]. unfold search_once. cbn [ho_m]. rewrite EF.
  destruct (hyperparamter_obj_grad _ _ _ _ _ _ _ _) as [gr|e] eqn:EG; [exfalso; now apply (G gr)|].
  exists (mkHO m1 (LFit f) true), e. split; [reflexivity|]. split; [reflexivity|]. intros Q d' l' draw'. unfold lazy_predict. cbn [ho_optimized]. f_equal. unfold predict_with. cbn [ho_fit ho_m].
  assert (K : exists k, h_kern m1 = Some k) by (unfold fit_points in EF; destruct (h_kern m1); [eauto|discriminate]). destruct K as [k ->].
  rewrite (fit_points_len _ _ _ _ _ _ EF). apply Nat.eqb_neq in N. rewrite N. reflexivity.
Qed.
Lemma half_used_repeated c X y o d s l draw m1 f i j : randomize_hyper (ho_m o) d = Ok m1 -> (forall k, h_kern (ho_m o) = Some k -> noiseless k) -> fit_points c m1 (sc_X s) (sc_y s) (sc_draw s) = Ok f -> length (sc_X s) <> length X ->
  (i < length X)%nat -> (j < length X)%nat -> i <> j -> pt X i = pt X j ->
  exists o1 e, optimize_hyper c X y o d (s :: l) draw = (o1, Some e) /\ ho_optimized o1 = true /\ forall Q d' l' draw', lazy_predict c X y o1 Q d' l' draw' = (o1, Some (Raise ValueError)).
Proof.
  intros ER NK EF N Hi Hj Nij P. apply (half_used c X y o d s l draw m1 f ER EF N). intros gr. apply grad_singular. intros m' k M ES EK EM.
  apply (repeated_no_chol k X M i j); auto. apply (set_noiseless m1 _ m' k ES); [|exact EK]. intros k1 K1.
  unfold randomize_hyper in ER. destruct (h_kern (ho_m o)) as [k0|] eqn:E0; [|discriminate]. cbv zeta in ER. destruct (if h_only_probit (ho_m o) then _ else _) as [m0|] eqn:E1; [|discriminate]. cbn [bind] in ER.
  apply (set_noiseless m0 _ m1 k1 ER); [|exact K1]. intros k2 K2. destruct (h_only_probit (ho_m o)); [|injection E1 as <-; apply NK; congruence].
  apply (set_noiseless (ho_m o) _ m0 k2 E1); [|exact K2]. rewrite E0. exact NK.
Qed.
Lemma half_used_ordinal c X y o d s l draw m1 f u : randomize_hyper (ho_m o) d = Ok m1 -> y_ord y = Some u -> fit_points c m1 (sc_X s) (sc_y s) (sc_draw s) = Ok f -> length (sc_X s) <> length X ->
  exists o1 e, optimize_hyper c X y o d (s :: l) draw = (o1, Some e) /\ ho_optimized o1 = true /\ forall Q d' l' draw', lazy_predict c X y o1 Q d' l' draw' = (o1, Some (Raise ValueError)).
Proof. intros ER YO EF N. apply (half_used c X y o d s l draw m1 f ER EF N). intros gr. eapply grad_ordinal; eauto. Qed.
(** fitting comparisons always ends *)
Lemma fit_points_rel c m k X r draw : h_kern m = Some k -> no_zeroed k -> X <> [] -> exists f K, fit_points c m X (only r) draw = Ok f /\ kcov k X X = Ok K /\ hf_K f = K.
Proof.
  intros Ek HZ HX. unfold fit_points. rewrite Ek. cbv zeta. destruct (kcov_c k X X HX HZ) as [K [EK _]]. rewrite EK. cbn [bind].
  match goal with |- context [fit_mode ?sp ?P (only r) ?n ?K ?i ?d ?m ?F0] => destruct (P_Whole.fit_mode_total sp P r n K i d m F0) as [i0 [F E]] end.
  rewrite E. cbn [bind fst snd]. match goal with |- context [derivatives ?sp ?P (only r) ?F] => destruct (derivatives_total sp P (only r) F eq_refl) as [d ->] end. cbn [bind]. eexists; eexists; eauto.
Qed.
