(** Lemmas about the set-up of experiments. *)
From Coq Require Import List QArith Bool.
From Verif Require Import M_Base M_Config M_Setup S_Setup.
Import ListNotations.
Local Open Scope string_scope.
Local Open Scope list_scope.

Lemma is_in_iff s l : is_in s l = true <-> In s l.
Proof. unfold is_in. rewrite existsb_exists. split; [intros (x & I & E); apply String.eqb_eq in E; now subst|intro I; exists s; split; [exact I|apply String.eqb_refl]]. Qed.
Lemma checked_lists o : checked o <-> In (o_selector o) possible_selectors /\ In (o_fake o) possible_fake_funcs /\ In (o_model o) possible_models /\
  In (o_seltype o) possible_selection_types /\ (o_pareto o = "true" \/ o_pareto o = "false").
Proof. exact (iff_refl _). Qed.
Lemma setup_checked o k tuned : checked o -> exists b, setup o k tuned = prepare o k b tuned /\ (b = true <-> o_pareto o = "true").
Proof.
  intro H. apply (proj1 (checked_lists o)) in H. destruct H as (A & B & C & D & E). unfold setup. rewrite (proj2 (is_in_iff _ _) A), (proj2 (is_in_iff _ _) B), (proj2 (is_in_iff _ _) C), (proj2 (is_in_iff _ _) D). cbn [negb].
  destruct E as [E|E]; rewrite E; cbn; [exists true|exists false]; repeat split; auto; discriminate.
Qed.
Lemma setup_unchecked o k tuned : ~ checked o -> setup o k tuned = Refused0.
Proof.
  intro N. unfold setup. destruct (is_in (o_selector o) _) eqn:A; [|reflexivity]. destruct (is_in (o_fake o) _) eqn:B; [|reflexivity].
  destruct (is_in (o_model o) _) eqn:C; [|reflexivity]. destruct (is_in (o_seltype o) _) eqn:D; [|reflexivity]. cbn [negb].
  apply is_in_iff in A, B, C, D. destruct (String.eqb_spec (o_pareto o) "true") as [E|E]; [exfalso; apply N, (proj2 (checked_lists o)); repeat split; auto|].
  destruct (String.eqb_spec (o_pareto o) "false") as [F|F]; [exfalso; apply N, (proj2 (checked_lists o)); repeat split; auto|reflexivity].
Qed.
Lemma prepare_folder o k b tuned : folder_made (prepare o k b tuned) = true.
Proof.
  unfold prepare. destruct (get_active_learner _ _) as [l|e]; [|reflexivity]. cbn. unfold get_model.
  destruct (String.eqb _ _); [destruct (String.eqb _ _); [|destruct (String.eqb _ _); [|reflexivity]]|destruct (String.eqb _ _); [|reflexivity]]; cbn;
  unfold get_fake_func; (destruct (find _ _); [|reflexivity]); cbn; unfold get_user; (destruct (String.eqb _ _); [reflexivity|]); (destruct (String.eqb _ _); [|reflexivity]);
  (destruct tuned; [|reflexivity]); cbn; unfold prior_step; destruct (_ && _); reflexivity.
Qed.
Lemma folder_iff o k tuned : folder_made (setup o k tuned) = true <-> checked o.
Proof.
  split.
  - intro H. destruct (is_in (o_selector o) possible_selectors && is_in (o_fake o) possible_fake_funcs && is_in (o_model o) possible_models && is_in (o_seltype o) possible_selection_types && (String.eqb (o_pareto o) "true" || String.eqb (o_pareto o) "false")) eqn:E.
    + rewrite !andb_true_iff, orb_true_iff, !String.eqb_eq, !is_in_iff in E. apply (proj2 (checked_lists o)). tauto.
    + rewrite setup_unchecked in H; [discriminate|]. intro Q. apply (proj1 (checked_lists o)) in Q. destruct Q as (A & B & C & D & F). apply is_in_iff in A, B, C, D. rewrite A, B, C, D in E. cbn in E.
      destruct F as [F|F]; rewrite F in E; discriminate.
  - intro C. destruct (setup_checked o k tuned C) as (b & -> & _). apply prepare_folder.
Qed.
Lemma fake_found o f : get_fake_func o = Next f -> fake_name f = o_fake o /\ (fake_alpha f = None \/ fake_alpha f = Some (o_alpha_fake o)).
Proof.
  unfold get_fake_func. destruct (find _ _) as [[n g]|] eqn:E; [|discriminate]. intro H. injection H as <-. apply find_some in E. destruct E as [I E]. apply String.eqb_eq in E. cbn in E. rewrite E.
  cbn in I. repeat (destruct I as [I|I]; [injection I as <- <-; cbn; auto|]). destruct I.
Qed.
Lemma model_found o k l m : get_model o k l = Next m -> model_name (d_class m) = o_model o /\ parametrised o k m /\ d_learner m = l.
Proof.
  unfold get_model. destruct (String.eqb_spec (o_model o) "gp") as [G|_].
  - destruct (String.eqb_spec (o_hyper o) "no") as [N|_]; [|destruct (String.eqb_spec (o_hyper o) "hyper") as [H|_]; [|discriminate]]; intro X; injection X as <-; unfold parametrised; cbn; repeat split; auto.
  - destruct (String.eqb_spec (o_model o) "linear") as [L|_]; [|discriminate]. intro X. injection X as <-. unfold parametrised. cbn. repeat split; auto.
Qed.
Lemma model_stops o k l m f d : get_model o k l <> Stop (Ready m f d).
Proof. unfold get_model. destruct (String.eqb (o_model o) "gp"); [destruct (String.eqb (o_hyper o) "no"); [discriminate|destruct (String.eqb (o_hyper o) "hyper"); discriminate]|destruct (String.eqb (o_model o) "linear"); discriminate]. Qed.
Lemma fake_stops o m f d : get_fake_func o <> Stop (Ready m f d).
Proof. unfold get_fake_func. destruct (find _ _); discriminate. Qed.
Lemma ready_named o k tuned m f d : setup o k tuned = Ready m f d ->
  checked o /\ model_name (d_class m) = o_model o /\ parametrised o k m /\ fake_name f = o_fake o /\ (fake_alpha f = None \/ fake_alpha f = Some (o_alpha_fake o)) /\ d = k_dim k /\
  o_user o = "human_choice" /\ tuned = Ok tt /\
  get_active_learner (o_selector o) (mkargs (o_seltype o) (o_rep o) (k_scalar k) (String.eqb (o_pareto o) "true") (k_best k) (o_alpha o) (k_file k) false) = Ok (d_learner m).
Proof.
  intro H. assert (C : checked o) by (apply (folder_iff o k tuned); now rewrite H). split; [exact C|]. destruct (setup_checked o k tuned C) as (b & E & B). rewrite E in H.
  assert (P : b = String.eqb (o_pareto o) "true") by (destruct (String.eqb_spec (o_pareto o) "true") as [Q|Q]; destruct b; intuition congruence). rewrite <- P.
  unfold prepare in H. destruct (get_active_learner _ _) as [l|e] eqn:L; [|discriminate]. cbn [step_of andthen] in H.
  destruct (get_model o k l) as [m'|r] eqn:M; [|cbn in H; subst r; now apply model_stops in M].
  cbn [andthen] in H. destruct (get_fake_func o) as [f'|r] eqn:F; [|cbn in H; subst r; now apply fake_stops in F].
  cbn [andthen] in H. unfold get_user in H. destruct (String.eqb_spec (o_user o) "perfect") as [U|U]; [discriminate|]. destruct (String.eqb_spec (o_user o) "human_choice") as [V|V]; [|discriminate].
  destruct tuned as [[]|e]; [|discriminate]. cbn [step_of andthen] in H. unfold prior_step in H. destruct (_ && _); [discriminate|]. cbn in H. injection H as -> -> <-.
  destruct (model_found _ _ _ _ M) as (M1 & M2 & M3). destruct (fake_found _ _ F) as [F1 F2]. subst l. repeat split; auto; apply M2.
Qed.
Lemma fake_total o : In (o_fake o) possible_fake_funcs -> exists f, get_fake_func o = Next f.
Proof. unfold get_fake_func. cbn [In possible_fake_funcs]. intro I. repeat (destruct I as [I|I]; [rewrite <- I; eexists; reflexivity|]). destruct I. Qed.
Lemma ready_if o k l : checked o -> documented o -> o_user o = "human_choice" -> k_prior k && k_pareto k = false ->
  get_active_learner (o_selector o) (mkargs (o_seltype o) (o_rep o) (k_scalar k) (String.eqb (o_pareto o) "true") (k_best k) (o_alpha o) (k_file k) false) = Ok l ->
  exists m f, setup o k (Ok tt) = Ready m f (k_dim k).
Proof.
  intros C (_ & _ & Hy) U P L. destruct (setup_checked o k (Ok tt) C) as (b & -> & B).
  assert (Pb : b = String.eqb (o_pareto o) "true") by (destruct (String.eqb_spec (o_pareto o) "true") as [Q|Q]; destruct b; intuition congruence). subst b.
  unfold prepare. rewrite L. cbn [step_of andthen]. destruct C as (_ & F & M & _). destruct (fake_total o F) as [f E]. 
  assert (X : exists m, get_model o k l = Next m).
  { unfold get_model. cbn in M. destruct M as [M|[M|[]]]; rewrite <- M; cbn; [destruct Hy as [Hy|Hy]; rewrite Hy; cbn; eauto|eauto]. }
  destruct X as [m X]. rewrite X, E. cbn [andthen]. unfold get_user. rewrite U. cbn. unfold prior_step. rewrite P. cbn. eauto.
Qed.
Lemma setup_prepare o k tuned : checked o -> setup o k tuned = prepare o k (String.eqb (o_pareto o) "true") tuned.
Proof.
  intro C. destruct (setup_checked o k tuned C) as (b & -> & B). f_equal. destruct (String.eqb_spec (o_pareto o) "true") as [Q|Q]; destruct b; intuition congruence.
Qed.
Lemma hyper_unchecked o k tuned l : checked o -> learned o k = Ok l -> o_model o = "gp" -> o_hyper o <> "no" -> o_hyper o <> "hyper" -> setup o k tuned = Exit0.
Proof.
  intros C L M N H. rewrite setup_prepare by exact C. unfold prepare. fold (learned o k). rewrite L. cbn [step_of andthen]. unfold get_model. rewrite M. cbn.
  apply String.eqb_neq in N, H. now rewrite N, H.
Qed.
Lemma hyper_ignored o k tuned h : o_model o = "linear" ->
  setup o k tuned = setup (mkoptions (o_model o) (o_selector o) (o_rep o) (o_seltype o) (o_user o) h (o_pareto o) (o_fake o) (o_v o) (o_sabs o) (o_spair o) (o_rbf_sigma o) (o_rbf_l o) (o_alpha o) (o_alpha_fake o)) k tuned.
Proof.
  intro M. unfold setup, prepare, get_model, get_fake_func, get_user. cbn -[possible_selectors get_active_learner possible_fake_funcs possible_models possible_selection_types fake_branches find]. rewrite M. reflexivity.
Qed.
Lemma user_unchecked o k tuned l : checked o -> learned o k = Ok l -> o_hyper o = "no" \/ o_hyper o = "hyper" -> o_user o <> "human_choice" ->
  setup o k tuned = Failed (if String.eqb (o_user o) "perfect" then AttributeError else UnboundLocalError).
Proof.
  intros C L Hy U. rewrite setup_prepare by exact C. unfold prepare. fold (learned o k). rewrite L. cbn [step_of andthen]. destruct C as (_ & F & M & _). destruct (fake_total o F) as [f E].
  assert (X : exists m, get_model o k l = Next m).
  { unfold get_model. cbn in M. destruct M as [M|[M|[]]]; rewrite <- M; cbn; [destruct Hy as [Hy|Hy]; rewrite Hy; cbn; eauto|eauto]. }
  destruct X as [m X]. rewrite X, E. cbn [andthen]. unfold get_user. apply String.eqb_neq in U. rewrite U. destruct (String.eqb (o_user o) "perfect"); reflexivity.
Qed.
Lemma prior_fails o k l : checked o -> documented o -> learned o k = Ok l -> o_user o = "human_choice" -> k_prior k = true -> k_pareto k = true -> setup o k (Ok tt) = Failed TypeError.
Proof.
  intros C (_ & _ & Hy) L U P Q. rewrite setup_prepare by exact C. unfold prepare. fold (learned o k). rewrite L. cbn [step_of andthen]. destruct C as (_ & F & M & _). destruct (fake_total o F) as [f E].
  assert (X : exists m, get_model o k l = Next m).
  { unfold get_model. cbn in M. destruct M as [M|[M|[]]]; rewrite <- M; cbn; [destruct Hy as [Hy|Hy]; rewrite Hy; cbn; eauto|eauto]. }
  destruct X as [m X]. rewrite X, E. cbn [andthen]. unfold get_user. rewrite U. cbn. unfold prior_step. now rewrite P, Q.
Qed.
