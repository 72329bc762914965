(** Lemmas about the configuration of an experiment. *)
From Coq Require Import String List QArith Bool.
From Verif Require Import M_Base M_Config S_Config.
Import ListNotations.
Local Open Scope string_scope.
Local Open Scope list_scope.

Lemma find_in s l b : find_branch s l = Some b -> In (s, b) l.
Proof.
  induction l as [|[n b'] l IH]; [discriminate|]. cbn. destruct (String.eqb_spec s n) as [->|N]; intro H; [injection H as ->; now left|right; auto].
Qed.
(** what holds for every branch holds for every learner that is built *)
Lemma by_branch (P : string -> args -> learner -> Prop) :
  Forall (fun nb => forall e l, snd nb e = Ok l -> P (fst nb) e l) branches ->
  forall s e l, get_active_learner s e = Ok (Some l) -> P s e l.
Proof.
  intros F s e l H. unfold get_active_learner in H. destruct (find_branch s branches) as [b|] eqn:E; [|discriminate].
  apply find_in in E. rewrite Forall_forall in F. specialize (F _ E e). cbn [fst snd] in F. destruct (b e) as [l'|x]; [|discriminate]. cbn in H. injection H as ->. now apply F.
Qed.
Lemma rep_ok e r : rep_of e = Ok r -> (g_rep e = "sampled" /\ r = Sampled) \/ (g_rep e = "stable" /\ r = Stable (g_file e)).
Proof. unfold rep_of. destruct (String.eqb_spec (g_rep e) "sampled"); [intro H; injection H as <-; auto|]. destruct (String.eqb_spec (g_rep e) "stable"); [intro H; injection H as <-; auto|discriminate]. Qed.
Ltac to_branch := match goal with H : get_active_learner ?s ?e = Ok (Some ?l) |- _ => pattern s, e, l; apply (fun F => by_branch _ F s e l H); clear; cbv beta end.
Ltac branch := unfold branches; repeat (apply Forall_cons; [cbn [fst snd]; unfold acq, acq_default, ucb, plain, bayes, switch; intros e l H; try (destruct (rep_of e) as [r|x] eqn:R; cbn in H; [|discriminate H]); cbn in H; injection H as <-|]); try apply Forall_nil.

Lemma flags_kept s e l : get_active_learner s e = Ok (Some l) ->
  fst (l_flags l) = g_pareto e /\ (g_selection e = "rating" -> snd (l_flags l) = false) /\ (g_selection e <> "rating" -> snd (l_flags l) = g_best e).
Proof.
  intro H. assert (T : l_flags l = top e). { to_branch. branch; reflexivity. }
  rewrite T. unfold top. cbn. split; [reflexivity|]. destruct (String.eqb_spec (g_selection e) "rating"); split; congruence.
Qed.
Lemma alignment_kept s e l a : get_active_learner s e = Ok (Some l) -> ends_with (suffix a) s = true ->
  (exists x, In x (within l) /\ l_alignment x = Some a) /\ (forall x b, In x (within l) -> l_alignment x = Some b -> b = a).
Proof.
  intro H. to_branch.
  branch; destruct a; vm_compute; intro E; try discriminate E; (split; [first [eexists; split; [left; reflexivity|reflexivity]|eexists; split; [right; left; reflexivity|reflexivity]]|]); intros x b I; repeat (destruct I as [<-|I]; [intro Q; try discriminate Q; now injection Q as <-|]); destruct I.
Qed.
Lemma numbers_kept s e l : get_active_learner s e = Ok (Some l) ->
  (forall x q, In x (within l) -> l_scalar x = Some q -> q = g_scalar e) /\ (forall x q, In x (within l) -> l_alpha x = Some q -> q = g_alpha e) /\
  (forall x, In x (within l) -> l_class x = UCBLearner -> l_scalar x = Some (g_scalar e)).
Proof.
  intro H. assert (T : Forall (fun x => (forall q, l_scalar x = Some q -> q = g_scalar e) /\ (forall q, l_alpha x = Some q -> q = g_alpha e) /\ (l_class x = UCBLearner -> l_scalar x = Some (g_scalar e))) (within l)).
  { to_branch. branch; cbn; repeat (apply Forall_cons; [cbn; repeat split; congruence|]); apply Forall_nil. }
  rewrite Forall_forall in T. split; [|split]; intros x; [intros q I|intros q I|intros I]; destruct (T x I) as (A & B & C); auto.
Qed.
Lemma switch_parts s e l : get_active_learner s e = Ok (Some l) ->
  (String.prefix "SW_" s = true <-> l_parts l <> []) /\
  (String.prefix "SW_" s = true -> exists p a r, l_parts l = p :: a :: r /\ asks_comparison (l_class p) = true /\ (l_class a = UCBLearner \/ asks_rating (l_class a) = true)).
Proof.
  intro H. to_branch. branch; vm_compute; (split; [split; [intro E; first [discriminate E|discriminate]|intro E; first [reflexivity|now destruct E]]|intro E; first [discriminate E|do 3 eexists; split; [reflexivity|auto]]]).
Qed.
Lemma rep_kept s e l : get_active_learner s e = Ok (Some l) -> s <> "SW_ACQ_SPEAR" -> s <> "SW_DEC_LL" ->
  forall x r, In x (within l) -> l_rep x = Some r -> (g_rep e = "sampled" /\ r = Sampled) \/ (g_rep e = "stable" /\ r = Stable (g_file e)).
Proof.
  intros H N1 N2. assert (T : Forall (fun x => match l_rep x with Some r => rep_of e = Ok r | None => True end) (within l)).
  { revert N1 N2. to_branch. branch; intros N1 N2; try (now destruct N1); try (now destruct N2); cbn; repeat (apply Forall_cons; [cbn; first [exact I|reflexivity]|]); apply Forall_nil. }
  rewrite Forall_forall in T. intros x r I E. specialize (T x I). rewrite E in T. now apply rep_ok.
Qed.
Lemma announced s e : In s possible_selectors -> (get_active_learner s e = Ok None <-> In s ["SW_MIX_PEAK2_EPIC"; "SW_MIX_PEAK2_LL"; "SW_MIX_PEAK3_EPIC"; "SW_MIX_PEAK3_LL"]).
Proof.
  intro I. unfold possible_selectors in I. repeat (destruct I as [<-|I]; [split; [|intro J; repeat (destruct J as [J|J]; [try discriminate J; try reflexivity|]); try (now destruct J)]; cbn; try (unfold acq; destruct (rep_of e); cbn; discriminate); try discriminate; auto 10|]). destruct I.
Qed.
Lemma start_missing s e : In s ["SW_MIX_PEAK2_EPIC"; "SW_MIX_PEAK2_LL"; "SW_MIX_PEAK3_EPIC"; "SW_MIX_PEAK3_LL"] -> In s possible_selectors /\ start s e = Run (Raise AttributeError).
Proof. intros [<-|[<-|[<-|[<-|[]]]]]; (split; [cbn; tauto|reflexivity]). Qed.
Lemma start_unknown s e : start s e = Exit <-> ~ In s possible_selectors.
Proof.
  unfold start. destruct (existsb (String.eqb s) possible_selectors) eqn:E.
  - split; [discriminate|]. intro N. exfalso. apply N. apply existsb_exists in E. destruct E as [x [I E]]. apply String.eqb_eq in E. now subst x.
  - split; [|reflexivity]. intros _ I. assert (T : existsb (String.eqb s) possible_selectors = true) by (apply existsb_exists; exists s; split; [exact I|apply String.eqb_refl]). congruence.
Qed.
Lemma start_ok s e l : start s e = Run (Ok l) -> In s possible_selectors /\ exists e', get_active_learner s e' = Ok (Some l) /\
  g_selection e' = g_selection e /\ g_rep e' = g_rep e /\ g_scalar e' = g_scalar e /\ g_pareto e' = g_pareto e /\ g_best e' = g_best e /\ g_alpha e' = g_alpha e /\ g_file e' = g_file e.
Proof.
  unfold start. destruct (existsb (String.eqb s) possible_selectors) eqn:E; [|discriminate]. apply existsb_exists in E. destruct E as [x [I E]]. apply String.eqb_eq in E. subst x.
  set (e' := mkargs _ _ _ _ _ _ _ _). intro H. injection H as H. split; [exact I|]. exists e'. split; [|repeat split]. destruct (get_active_learner s e') as [[m|]|x]; cbn in H; try discriminate H. now injection H as ->.
Qed.
Lemma start_built s e : In s possible_selectors -> ~ In s ["SW_MIX_PEAK2_EPIC"; "SW_MIX_PEAK2_LL"; "SW_MIX_PEAK3_EPIC"; "SW_MIX_PEAK3_LL"] ->
  g_rep e = "sampled" \/ g_rep e = "stable" -> exists l, start s e = Run (Ok l).
Proof.
  intros I N G. assert (E : existsb (String.eqb s) possible_selectors = true) by (apply existsb_exists; exists s; split; [exact I|apply String.eqb_refl]). unfold start. rewrite E. set (e' := mkargs _ _ _ _ _ _ _ _).
  assert (R : exists r, rep_of e' = Ok r) by (unfold rep_of; cbn [g_rep e']; destruct G as [-> | ->]; cbn; eauto). destruct R as [r R].
  assert (NN := announced s e' I). unfold get_active_learner in *. destruct (find_branch s branches) as [b|] eqn:F; [|exfalso; apply N, NN; reflexivity].
  apply find_in in F. assert (B : Forall (fun nb => forall e, rep_of e = Ok r -> exists l, snd nb e = Ok l) branches). { clear. unfold branches. repeat (apply Forall_cons; [cbn [snd]; unfold acq, acq_default, ucb, plain, bayes, switch; intros e R; try rewrite R; cbn; eauto|]). apply Forall_nil. }
  rewrite Forall_forall in B. destruct (B _ F e' R) as [l L]. cbn [snd] in L. rewrite L. cbn. eauto.
Qed.
Lemma rep_ignored s e : In s ["SW_ACQ_SPEAR"; "SW_DEC_LL"] -> exists l x, get_active_learner s e = Ok (Some l) /\ In x (within l) /\ l_rep x = Some ClassDefault.
Proof. intros [<-|[<-|[]]]; do 2 eexists; (split; [reflexivity|split; [right; left; reflexivity|reflexivity]]). Qed.
Lemma abs_bayes e : exists l, start "ABS_BAYES_PROBIT" e = Run (Ok l) /\ asks_comparison (l_class l) = true /\ start "ABS_BAYES_PROBIT" e = start "BAYES_INFO_GAIN_PROBIT" e.
Proof. eexists. split; [reflexivity|split; reflexivity]. Qed.
Lemma abs_rates s e l : get_active_learner s e = Ok (Some l) -> String.prefix "ABS_" s = true -> s <> "ABS_BAYES_PROBIT" -> asks_rating (l_class l) = true.
Proof. intro H. to_branch. branch; intros E N; try discriminate E; try reflexivity; now destruct N. Qed.
Lemma perfect_none e : exists l, start "MUTUAL_INFO_PERF" e = Run (Ok l) /\ l_fake l = false /\ start "MUTUAL_INFO_PERF" e = start "MUTUAL_INFO" e.
Proof. eexists. split; [reflexivity|split; reflexivity]. Qed.
Lemma class_promised s e l : get_active_learner s e = Ok (Some l) -> forall p c, In (p, c) promised -> String.prefix p s = true -> l_class l = c.
Proof.
  intro H. to_branch. branch; intros p c I E; cbn [promised In] in I; repeat (destruct I as [I|I]; [injection I as <- <-; first [reflexivity|discriminate E]|]); destruct I.
Qed.
Lemma method_promised s e l : get_active_learner s e = Ok (Some l) -> forall x, In x (within l) -> l_class x = BayesInfoGain ->
  (ends_with "_PROBIT" s = true /\ l_method x = Some "probit") \/ (ends_with "_999" s = true /\ l_method x = Some "999").
Proof.
  intro H. to_branch. branch; intros x I C; repeat (destruct I as [<- |I]; [first [discriminate C|left; split; reflexivity|right; split; reflexivity]|]); destruct I.
Qed.
Lemma alpha_promised s e l : get_active_learner s e = Ok (Some l) -> String.prefix "SW_MIX_" s = true \/ String.prefix "SW_UCB_" s = true -> l_alpha l = Some (g_alpha e).
Proof. intro H. to_branch. branch; intros [E|E]; first [discriminate E|reflexivity]. Qed.
