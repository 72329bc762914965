(** Whole histories of a preference GP. *)
From Coquelicot Require Import Coquelicot.
From Coq Require Import QArith Qreals Permutation.
From Coq Require Import Reals Lra Lia List.
From Verif Require Import M_RBase M_Normal M_PrefProbit M_OrdProbit M_AbsProbit M_Acq M_Kernel M_GP M_Search M_Fit M_Mode S_Search P_Search S_PrefProbit S_OrdProbit S_AbsProbit S_Kernel S_GP S_Fit S_Mode P_RBase P_Acq P_Normal P_PrefProbit P_Put P_OrdProbit P_AbsProbit P_Chol P_Kernel P_GP P_GP2 P_GP3 P_Fit P_Fit2 P_Fit3 P_Fit4 P_Fit5 P_Mode P_Mode2 P_Mode3 P_Mode4 P_Mode5 P_Mode6 P_Mode7 P_Mode8 P_Mode9 P_Mode10 P_HyperGrad3.
From Verif Require Import M_Pareto M_Store M_Whole S_Whole.
From Verif Require Import S_Psd P_Psd.
Local Open Scope R_scope.

(** ---- the data of an object are those given ---- *)
Definition some_pairs (r : list pair) : option (list pair) := match r with nil => None | _ => Some r end.
(** nothing but comparisons is stored, and a model marked as optimised holds a fit to the stored data *)
Definition holds (c : gp_config) (o : gp_object) (X : list row) (r : list pair) : Prop :=
  pts_of (o_S o) = X /\ sRel (o_S o) = some_pairs r /\ sOrd (o_S o) = None /\ sAbs (o_S o) = None /\ sPareto (o_S o) = false /\
  (sX (o_S o) <> None -> sOpt (o_S o) = true -> exists draw f, o_fit o = Some f /\ fit_object c (o_S o) draw = Ok f).
Lemma later_shift n y : (if Nat.ltb 0 n then map (fun p : pair => let '(d, u, v) := p in (d, (u + n)%nat, (v + n)%nat)) y else y) = map (later n) y.
Proof.
  assert (H : map (fun p : pair => let '(d, u, v) := p in (d, (u + n)%nat, (v + n)%nat)) y = map (later n) y).
  { apply map_ext. intros [[d u] v]. unfold later, u_of, v_of. cbn. now rewrite (Nat.add_comm u), (Nat.add_comm v). }
  destruct n; cbn [Nat.ltb Nat.leb]; [|exact H]. rewrite <- H. symmetry. rewrite <- map_id. apply map_ext. intros [[d u] v]. now rewrite !Nat.add_0_r.
Qed.
Lemma npts_pts s : npts s = length (pts_of s).
Proof. unfold npts, pts_of. now destruct (sX s). Qed.
Lemma add_holds c o X r X' y : holds c o X r -> holds c (mkObject (fst (add (o_S o) X' (LRel y))) (o_fit o)) (X ++ X') (r ++ map (later (length X)) y).
Proof.
  intros [H1 [H2 [H3 [H4 [H5 _]]]]]. unfold add. cbn [add_labels]. rewrite later_shift, npts_pts, H1. unfold holds. cbn [o_S].
  destruct (map (later (length X)) y) as [|p q]; unfold add_pareto, append_rel; cbn [sRel add_points sPareto].
  - rewrite H5. cbn [andb fst set_opt add_points sX sRel sOrd sAbs sPareto sOpt pts_of]. rewrite H1, H2, H3, H4, app_nil_r, H5. repeat split; auto. discriminate.
  - rewrite H2. destruct r as [|a r]; cbn [some_pairs sPareto set_rel add_points]; rewrite H5; cbn [andb fst set_opt set_rel add_points sX sRel sOrd sAbs sPareto sOpt pts_of some_pairs app]; rewrite H1, H3, H4, H5; repeat split; auto; discriminate.
Qed.
Lemma reset_holds c o X r : holds c o X r -> holds c (mkObject (reset (o_S o)) (o_fit o)) nil nil.
Proof. intros [_ [_ [_ [_ [H5 _]]]]]. unfold holds. cbn. repeat split; auto. congruence. Qed.
Lemma predict_holds c o X r Q draw : holds c o X r -> holds c (fst (obj_predict c o Q draw)) X r.
Proof.
  intro H. unfold obj_predict. destruct (sX (o_S o)) as [Y|] eqn:EX; [|exact H]. destruct (sOpt (o_S o)) eqn:EO; [exact H|]. destruct (fit_object c (o_S o) draw) as [f|] eqn:EF; [|exact H].
  destruct H as [H1 [H2 [H3 [H4 [H5 _]]]]]. unfold holds. cbn. repeat split; auto. intros _ _. exists draw, f. split; [reflexivity|exact EF].
Qed.
Lemma run_holds c : forall l o X r, comparisons l -> holds c o X r -> holds c (obj_run c o l) (fst (given_from X r l)) (snd (given_from X r l)).
Proof.
  induction l as [|k l IH]; intros o X r HC H; [exact H|]. assert (HC' : comparisons l) by (intros q Hq; apply HC; now right). assert (HK := HC k (or_introl eq_refl)). cbn [obj_run fold_left]. fold (obj_run c (obj_step c o k) l).
  destruct k as [[X' [y| | | | | |]| | |]|Q draw]; try contradiction; cbn [given_from obj_step step].
  - apply IH; auto. now apply add_holds.
  - apply IH; auto. now apply (reset_holds c o X r).
  - apply IH; auto. now apply predict_holds.
Qed.
Lemma new_holds c : holds c (new_object false) nil nil.
Proof. unfold holds. cbn. repeat split; auto. congruence. Qed.
Lemma given_holds c l : comparisons l -> holds c (obj_run c (new_object false) l) (fst (given l)) (snd (given l)).
Proof. intro H. apply run_holds; [exact H|apply new_holds]. Qed.
Lemma given_wf : forall l X r, comparisons l -> well_formed (length X) r -> well_formed (length (fst (given_from X r l))) (snd (given_from X r l)).
Proof.
  induction l as [|k l IH]; intros X r HC H; [exact H|]. assert (HC' : comparisons l) by (intros q Hq; apply HC; now right). assert (HK := HC k (or_introl eq_refl)).
  destruct k as [[X' [y| | | | | |]| | |]|Q draw]; try contradiction; cbn [given_from]; apply IH; auto.
  - intros p Hp. rewrite app_length. apply in_app_iff in Hp. destruct Hp as [Hp|Hp]; [destruct (H p Hp) as [A [B C]]; repeat split; auto; lia|].
    apply in_map_iff in Hp. destruct Hp as [[[d u] v] [<- Hp]]. destruct (HK _ Hp) as [A [B C]]. unfold later, u_of, v_of, dk_of in *. cbn in *. repeat split; auto; lia.
  - intros p [].
Qed.
Lemma given_pts_length l : length (given_pts l) = length (fst (given l)).
Proof. apply map_length. Qed.
Lemma given_well_formed l : comparisons l -> well_formed (length (given_pts l)) (snd (given l)).
Proof. intro H. rewrite given_pts_length. apply given_wf; [exact H|intros p []]. Qed.

(** ---- a fit to comparisons always ends ---- *)
Lemma mode_step_total sp P r n L inv F : exists F', mode_step sp P (only r) n L inv F = Ok F'.
Proof. unfold mode_step. destruct (derivatives_total sp P (only r) (entries F) eq_refl) as [d ->]. cbn [bind]. eexists. reflexivity. Qed.
Lemma fit_mode_total sp P r n K inv d maxloops F0 : exists k F, fit_mode sp P (only r) n K inv d maxloops F0 = Ok (k, F).
Proof.
  unfold fit_mode. destruct (chol n K) as [L|]; [|unfold find_mode; eauto].
  destruct (find_mode_spec (fun _ => mode_step sp P (only r) n L inv) (fun F_new F => Rltb d (f_err F_new F)) true F0 maxloops) as [H _].
  destruct (find_mode _ _ _ _ _ _) as [[k F]|e]; [eauto|]. destruct H as [k [F [_ [_ E]]]]. destruct (mode_step_total sp P r n L inv F) as [F' E']. congruence.
Qed.
Lemma fit_mode_length sp P r n K inv d maxloops F0 k F : length F0 = n -> fit_mode sp P (only r) n K inv d maxloops F0 = Ok (k, F) -> length F = n.
Proof.
  intros L0 E. unfold fit_mode in E. destruct (chol n K) as [L|]; [|unfold find_mode in E; congruence].
  destruct (find_mode_spec (fun _ => mode_step sp P (only r) n L inv) (fun F_new F => Rltb d (f_err F_new F)) true F0 maxloops) as [H _]. rewrite E in H. destruct H as [_ [A _]]. exact (after_length sp P r n L inv F0 L0 k F A).
Qed.
Lemma held_labels c o X r : holds c o X r -> r <> nil -> train_labels (o_S o) = only r.
Proof. intros [_ [H2 [H3 [H4 _]]]] Hr. unfold train_labels. rewrite H2, H3, H4. destruct r; [congruence|reflexivity]. Qed.
(** what a fit to the stored data is *)
Lemma fit_object_spec c o X r draw : holds c o X r -> r <> nil -> X <> nil -> no_zeroed (c_k c) ->
  exists f, fit_object c (o_S o) draw = Ok f.
Proof.
  intros H Hr HX HZ. assert (HL := held_labels c o X r H Hr). destruct H as [H1 _]. unfold fit_object, train_pts. rewrite HL, H1.
  destruct (kcov_c (c_k c) (map (map Q2R) X) (map (map Q2R) X) ltac:(destruct X; [congruence|discriminate]) HZ) as [K [-> _]]. cbn [bind].
  match goal with |- context [fit_mode ?sp ?P (only r) ?n ?K ?i ?d ?m ?F0] => destruct (fit_mode_total sp P r n K i d m F0) as [k [F E]] end.
  rewrite E. cbn [bind fst snd].
  destruct (derivatives_total (c_sp c) (c_P c) (only r) (entries F) eq_refl) as [d ->]. cbn [bind]. eauto.
Qed.
Lemma fit_object_inv c o X r draw f : holds c o X r -> r <> nil -> fit_object c (o_S o) draw = Ok f ->
  let Y : list point := map (map Q2R) X in kcov (c_k c) Y Y = Ok (f_K f) /\ exists F0, length F0 = length Y /\
    fit_mode (c_sp c) (c_P c) (only r) (length Y) (mat_at (f_K f)) (c_inv c) (c_delta_f c) (c_maxloops c) F0 = Ok (f_loops f, f_F f).
Proof.
  intros H Hr E Y. assert (HL := held_labels c o X r H Hr). destruct H as [H1 _]. unfold fit_object, train_pts in E. rewrite HL, H1 in E. fold Y in E.
  destruct (kcov (c_k c) Y Y) as [K|]; [|discriminate]. cbn [bind] in E. remember (map draw (seq 0 (length Y))) as F0 eqn:EF0.
  destruct (fit_mode (c_sp c) (c_P c) (only r) (length Y) (mat_at K) (c_inv c) (c_delta_f c) (c_maxloops c) F0) as [[k F]|] eqn:EF; [|discriminate]. cbn [bind fst snd] in E.
  destruct (derivatives _ _ _ _) as [d|]; [|discriminate]. cbn [bind] in E. injection E as <-. cbn. split; [reflexivity|]. exists F0. split; [subst F0; now rewrite map_length, seq_length|exact EF].
Qed.
(** the next prediction comes from a fit to the data given *)
Lemma predict_fresh c o X r Q draw : holds c o X r -> r <> nil -> X <> nil -> no_zeroed (c_k c) ->
  exists draw' f, o_fit (fst (obj_predict c o Q draw)) = Some f /\ fit_object c (o_S o) draw' = Ok f /\
    snd (obj_predict c o Q draw) = pgp_predict (c_inv' c) (c_k c) (Some (Build_pgp_data (map (map Q2R) X) (f_F f) (f_W f) (f_K f))) Q.
Proof.
  intros H Hr HX HZ. assert (H0 := H). destruct H as [H1 [_ [_ [_ [_ H6]]]]]. assert (NX : sX (o_S o) <> None) by (intro N; apply HX; rewrite <- H1; unfold pts_of; now rewrite N).
  assert (U : forall d f s, fit_object c (o_S o) d = Ok f -> train_pts s = train_pts (o_S o) -> use_fit c (mkObject s (Some f)) Q = pgp_predict (c_inv' c) (c_k c) (Some (Build_pgp_data (map (map Q2R) X) (f_F f) (f_W f) (f_K f))) Q).
  { intros d f s E ES. destruct (fit_object_inv c o X r d f H0 Hr E) as [_ [F0 [L0 EF]]]. unfold use_fit. cbn [o_fit o_S]. rewrite ES. unfold train_pts. rewrite H1, (fit_mode_length _ _ _ _ _ _ _ _ _ _ _ L0 EF), Nat.eqb_refl. reflexivity. }
  unfold obj_predict. destruct (sX (o_S o)) as [Y|] eqn:EX; [|congruence]. destruct (sOpt (o_S o)) eqn:EO.
  - destruct (H6 NX eq_refl) as [d [f [E1 E2]]]. exists d, f. split; [exact E1|]. split; [exact E2|]. cbn [snd]. rewrite <- (U d f (o_S o) E2 eq_refl). rewrite <- E1. now destruct o.
  - destruct (fit_object_spec c o X r draw H0 Hr HX HZ) as [f EF]. rewrite EF. exists draw, f. cbn [fst snd o_fit]. split; [reflexivity|]. split; [exact EF|]. apply (U draw f); [exact EF|reflexivity].
Qed.

(** ---- the prediction ---- *)
Lemma load_ext n s K K' r : well_formed n r -> (forall i j, (i < n)%nat -> (j < n)%nat -> K i j = K' i j) -> load s K r = load s K' r.
Proof. intros WF E. unfold load. f_equal. apply rsum_ext. intros p Hp. destruct (WF p Hp) as [A [B _]]. unfold margin_cov. now rewrite !E. Qed.
Lemma load_perm s K r r' : Permutation r r' -> load s K r = load s K r'.
Proof. intro H. unfold load. f_equal. apply rsum_perm. now apply Permutation_map. Qed.
Lemma whole_predict c dm l Q draw B : good_config dm c -> comparisons l -> snd (given l) <> nil -> separate (c_k c) Q (given_pts l) -> dim dm Q -> dim dm (given_pts l) -> Q <> nil ->
  pd (length (given_pts l)) (prior_cov (c_k c) (given_pts l)) -> right_inverse (length (given_pts l)) (prior_cov (c_k c) (given_pts l)) B ->
  fitted_well c (snd (given l)) (fst (obj_predict c (obj_run c (new_object false) l) Q draw)) ->
  exists mu var, snd (obj_predict c (obj_run c (new_object false) l) Q draw) = Ok (mu, var) /\ length mu = length Q /\
    forall Fs, mode (c_sp c) (c_P c) (only (snd (given l))) (length (given_pts l)) B Fs ->
      forall i, (i < length Q)%nat -> Rabs (nth i mu 0 - gp_mean (c_k c) (given_pts l) B Fs (pt Q i)) <= accuracy (p_sigma (ps_p (c_P c))) (c_k c) (given_pts l) (snd (given l)) B (c_delta_f c) (pt Q i).
Proof.
  intros [GP [SP [Hv [Hp [HI Hd]]]]] HC Hr HQ DQ DY NQ PK IB W. assert (WF := given_well_formed l HC). assert (HZ := separate_no_zeroed _ _ _ HQ).
  assert (NX : fst (given l) <> nil). { intro N. unfold given_pts in WF. rewrite N in WF. destruct (snd (given l)) as [|p r]; [congruence|]. destruct (WF p (or_introl eq_refl)) as [A _]. cbn in A. lia. }
  assert (NY : given_pts l <> nil) by (unfold given_pts; destruct (fst (given l)); [congruence|discriminate]).
  assert (H := given_holds c l HC). set (o := obj_run c (new_object false) l) in *. set (r := snd (given l)) in *.
  destruct (predict_fresh c o _ r Q draw H Hr NX HZ) as [d' [f [E1 [E2 E3]]]]. fold (given_pts l) in E3. destruct (fit_object_inv c o _ r d' f H Hr E2) as [EK [F0 [L0 EF]]]. cbv zeta in EK, EF. fold (given_pts l) in EK, EF, L0. set (Y := given_pts l) in *. set (n := length Y) in *.
  assert (LF := fit_mode_length _ _ _ _ _ _ _ _ _ _ _ L0 EF). unfold fitted_well in W. rewrite E1, LF in W. destruct W as [W1 W2].
  set (d := Build_pgp_data Y (f_F f) (f_W f) (f_K f)) in *. assert (KE : forall i j, (i < n)%nat -> (j < n)%nat -> mat_at (f_K f) i j = prior_cov (c_k c) Y i j) by (intros; now apply stored_K).
  assert (PK' : pd n (mat_at (f_K f))) by (apply (pd_ext n (prior_cov (c_k c) Y)); [intros; symmetry; now apply KE|exact PK]).
  assert (IB' : right_inverse n (mat_at (f_K f)) B) by (apply (right_inverse_ext n (prior_cov (c_k c) Y)); [intros; symmetry; now apply KE|exact IB]).
  assert (SK := stored_sym (c_k c) d HZ NY EK). destruct (predict_form (c_inv' c) (c_k c) d dm Q B HQ DQ DY NQ NY EK SK PK' IB') as [mu [var [E4 [L4 F4]]]].
  exists mu, var. split; [now rewrite E3|]. split; [exact L4|]. intros Fs M i Hi.
  set (d0 := Build_pgp_data Y (map Fs (seq 0 n)) (f_W f) (f_K f)).
  assert (M' : mode (c_sp c) (c_P c) (only r) n B (entries (pF d0))) by (apply (mode_ext _ _ n (only r) B (only_good _ n r WF) (only_discrete _ r) Fs); [intros j Hj; cbn [pF d0]; now rewrite entries_map|exact M]).
  destruct (predict_accuracy (c_sp c) (c_P c) (c_inv' c) (c_inv c) (c_k c) d d0 dm r B Q (c_delta_f c) (c_maxloops c) F0 (f_loops f) GP SP WF HQ Hv Hp DQ DY NQ NY EK PK' IB' HI Hd L0 EF W1 W2 eq_refl eq_refl M') as [m [v [m0 [v0 [G1 [G2 [_ [_ G3]]]]]]]].
  rewrite E4 in G1. injection G1 as <- <-. specialize (G3 i Hi).
  destruct (predict_form (c_inv' c) (c_k c) d0 dm Q B HQ DQ DY NQ NY EK SK PK' IB') as [m1 [v1 [E5 [_ F5]]]]. rewrite E5 in G2. injection G2 as <- <-. rewrite F5 in G3 by exact Hi.
  rewrite Rabs_minus_sym in G3. unfold accuracy. fold n. rewrite <- (load_ext n _ (mat_at (f_K f)) (prior_cov (c_k c) Y) r WF KE).
  replace (gp_mean (c_k c) Y B Fs (pt Q i)) with (bform (length (pX d0)) B (fun a => kcall (c_k c) (pt Q i) (pt (pX d0) a)) (entries (pF d0))); [exact G3|].
  unfold gp_mean, bform. cbn [pX pF d0]. fold n. apply sumn_ext. intros a _. apply sumn_ext. intros b Hb. now rewrite entries_map.
Qed.
(** two histories with the same data *)
Lemma whole_same c dm l l' Q draw draw' B : good_config dm c -> comparisons l -> comparisons l' -> fst (given l) = fst (given l') -> Permutation (snd (given l)) (snd (given l')) ->
  snd (given l) <> nil -> separate (c_k c) Q (given_pts l) -> dim dm Q -> dim dm (given_pts l) -> Q <> nil ->
  pd (length (given_pts l)) (prior_cov (c_k c) (given_pts l)) -> right_inverse (length (given_pts l)) (prior_cov (c_k c) (given_pts l)) B ->
  fitted_well c (snd (given l)) (fst (obj_predict c (obj_run c (new_object false) l) Q draw)) -> fitted_well c (snd (given l')) (fst (obj_predict c (obj_run c (new_object false) l') Q draw')) ->
  exists mu var mu' var', snd (obj_predict c (obj_run c (new_object false) l) Q draw) = Ok (mu, var) /\ snd (obj_predict c (obj_run c (new_object false) l') Q draw') = Ok (mu', var') /\ length mu = length Q /\ length mu' = length Q /\
    forall i, (i < length Q)%nat -> Rabs (nth i mu 0 - nth i mu' 0) <= 2 * accuracy (p_sigma (ps_p (c_P c))) (c_k c) (given_pts l) (snd (given l)) B (c_delta_f c) (pt Q i).
Proof.
  intros GC HC HC' EX EP Hr HQ DQ DY NQ PK IB W W'. assert (EY : given_pts l' = given_pts l) by (unfold given_pts; now rewrite EX).
  assert (Hr' : snd (given l') <> nil) by (intro N; rewrite N in EP; apply Permutation_sym, Permutation_nil in EP; congruence).
  destruct (whole_predict c dm l Q draw B GC HC Hr HQ DQ DY NQ PK IB W) as [mu [var [E [L A]]]].
  destruct (whole_predict c dm l' Q draw' B GC HC' Hr') as [mu' [var' [E' [L' A']]]]; rewrite ?EY; auto.
  exists mu, var, mu', var'. repeat (split; [assumption|]). intros i Hi. rewrite EY in A'. set (Y := given_pts l) in *. set (n := length Y) in *. assert (WF := given_well_formed l HC). fold Y n in WF.
  assert (SK : symmetric n (prior_cov (c_k c) Y)). { intros a b Ha Hb. apply (train_cov_sym (c_k c) Y nil n); auto; apply (separate_no_zeroed _ _ _ HQ). }
  destruct GC as [GP _]. destruct (mode_exists (c_sp c) (c_P c) n (only (snd (given l))) _ B GP (only_good _ n _ WF) (only_discrete _ _) SK PK IB) as [Fs M].
  assert (G := A Fs M i Hi). assert (G' := A' Fs (mode_perm _ _ _ _ _ _ _ EP M) i Hi). unfold accuracy in G' at 1. rewrite <- (load_perm _ _ _ _ EP) in G'. change (Rabs (nth i mu' 0 - gp_mean (c_k c) Y B Fs (pt Q i)) <= accuracy (p_sigma (ps_p (c_P c))) (c_k c) Y (snd (given l)) B (c_delta_f c) (pt Q i)) in G'.
  apply Rabs_le_between in G, G'. apply Rabs_le. lra.
Qed.
(** after a reset the predictions are those of the prior *)
Lemma whole_reset c l Q draw draw' : snd (obj_predict c (obj_run c (new_object false) (l ++ CStore OReset :: nil)) Q draw) = snd (obj_predict c (new_object false) Q draw').
Proof. unfold obj_run. rewrite fold_left_app. reflexivity. Qed.
Lemma whole_once c o X draw r draw' : snd (obj_predict c o X draw) = Ok r ->
  snd (obj_predict c (fst (obj_predict c o X draw)) X draw') = Ok r /\
  forall X' draw'', fst (obj_predict c (fst (obj_predict c o X draw)) X' draw'') = fst (obj_predict c o X draw).
Proof.
  assert (S1 : forall o, sX (o_S o) = None \/ sOpt (o_S o) = true -> forall X d, fst (obj_predict c o X d) = o /\ forall d', snd (obj_predict c o X d) = snd (obj_predict c o X d')).
  { intros o' H X' d. unfold obj_predict. destruct (sX (o_S o')); [|auto]. destruct H as [H|H]; [discriminate|]. rewrite H. auto. }
  intro H. assert (D : (sX (o_S o) = None \/ sOpt (o_S o) = true) \/ exists x f, sX (o_S o) = Some x /\ sOpt (o_S o) = false /\ fit_object c (o_S o) draw = Ok f).
  { unfold obj_predict in H. destruct (sX (o_S o)) as [x|]; [|auto]. destruct (sOpt (o_S o)); [auto|]. right. destruct (fit_object c (o_S o) draw) as [f|e]; [eauto|discriminate]. }
  destruct D as [D|[x [f [Ex [Eo Ef]]]]].
  - destruct (S1 o D X draw) as [E1 E2]. rewrite E1. split; [now rewrite <- E2|]. intros X' d. now apply S1.
  - assert (E : obj_predict c o X draw = (mkObject (set_opt (o_S o) true) (Some f), use_fit c (mkObject (set_opt (o_S o) true) (Some f)) X)) by (unfold obj_predict; now rewrite Ex, Eo, Ef).
    rewrite E in *. cbn [fst snd] in *. split; [|intros X' d; apply S1; right; reflexivity].
    unfold obj_predict. cbn [o_S]. change (sX (set_opt (o_S o) true)) with (sX (o_S o)). change (sOpt (set_opt (o_S o) true)) with true. rewrite Ex. exact H.
Qed.
