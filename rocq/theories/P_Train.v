(** Lemmas about training runs. *)
From Verif Require Import M_Base P_Base M_Pareto M_Pairs M_Select P_Select M_Store S_Store P_Store M_Train S_Train.

Lemma gen_pairs_filter b l : gen_pairs_from_idx b l = map (fun j => ((-1)%Z, b, j)) (filter (fun j => negb (Nat.eqb j b)) l).
Proof. induction l as [|j l IH]; simpl; auto. destruct (Nat.eqb j b); simpl; auto. now rewrite IH. Qed.
Lemma shifted_won off q : shifted off (gen_pairs_from_idx (q_choice q) (seq 0 (length (q_shown q)))) = won off q.
Proof.
  rewrite gen_pairs_filter. unfold shifted, won. rewrite map_map. apply map_ext. intro j. f_equal; [f_equal|]; lia.
Qed.
Lemma rows_at_ok rewards idx X : rows_at rewards idx = Ok X -> length X = length idx /\ Forall2 (fun i x => nth_error rewards i = Some x) idx X /\ Forall (fun x => In x rewards) X.
Proof.
  unfold rows_at. revert X. induction idx as [|i idx IH]; simpl; intros X H; [inversion H; subst; auto|].
  unfold getitem in H at 1. destruct (nth_error rewards i) as [x|] eqn:E; [|discriminate]. cbn [bind] in H.
  destruct (mapM _ idx) as [ys|e] eqn:E'; [|discriminate]. cbn [bind] in H. inversion H; subst. destruct (IH ys eq_refl) as [A [B C]].
  simpl. repeat split; auto. constructor; auto. eapply nth_error_In; eauto.
Qed.
Lemma rows_at_total rewards idx : Forall (fun i => i < length rewards) idx -> exists X, rows_at rewards idx = Ok X.
Proof.
  intro H. apply mapM_total. intros i Hi. apply getitem_total. rewrite Forall_forall in H. auto.
Qed.
Lemma add_rel_done s X y : exists s', add s X (LRel y) = (s', Done).
Proof.
  unfold add. cbn [add_labels]. rewrite shifted_code. destruct (shifted (npts s) y); eauto.
Qed.
Lemma added_rel s X y s' : added (add s X (LRel y)) = Ok s' -> add s X (LRel y) = (s', Done).
Proof. destruct (add_rel_done s X y) as [s1 E]. rewrite E. simpl. intro H. inversion H; subst. auto. Qed.
Lemma add_rel_effect s X y s' : add s X (LRel y) = (s', Done) ->
  points s' = points s ++ X /\ rel s' = rel s ++ shifted (length (points s)) y ++ gen_rel s X /\
  ord_v s' = ord_v s /\ abs_v s' = abs_v s /\ sPareto s' = sPareto s.
Proof.
  intro E. destruct (add_spec _ _ _ _ E) as (Ep & _ & Er & Eo & Eoi & Ea & Eai & _ & _ & Pa). simpl in *. rewrite !app_nil_r in *. auto 10.
Qed.
Lemma gen_rel_off s X : sPareto s = false -> gen_rel s X = [].
Proof. intro H. unfold gen_rel. now rewrite H. Qed.

(** * what one answered query adds *)
Lemma rest_effect rewards rest s s' : add_rest rewards rest s = Ok s' ->
  exists N, Forall (fun x => In x rewards) N /\ length N = length rest /\ points s' = points s ++ N /\ rel s' = rel s ++ (if rest then [] else gen_rel s N) /\
    ord_v s' = ord_v s /\ abs_v s' = abs_v s /\ sPareto s' = sPareto s.
Proof.
  unfold add_rest. destruct rest as [|i rest].
  - intro H. inversion H; subst. exists []. rewrite !app_nil_r. auto 10.
  - set (idx := i :: rest). destruct (rows_at rewards idx) as [N|e] eqn:E; [|discriminate]. cbn [bind]. intro H. apply added_rel in H.
    destruct (add_rel_effect _ _ _ _ H) as [A [B [C [D G]]]]. destruct (rows_at_ok _ _ _ E) as [L [_ F]]. exists N. simpl in B. auto 10.
Qed.
Section loop.
Context (t : sel_type) (perfect : bool) (u : row -> Q) (choose : nat -> list row -> result nat) (rate : nat -> list row -> list Q)
  (select : store -> list row -> result (list nat * list nat)).
Lemma choose_iteration i rewards s s' e : iteration Choose1 perfect u choose rate select i rewards s = Ok (s', e) ->
  exists q gen, Forall (fun x => In x rewards) (q_shown q ++ q_rest q) /\ choose i (q_shown q) = Ok (q_choice q) /\
    points s' = points s ++ q_shown q ++ q_rest q /\ rel s' = rel s ++ won (length (points s)) q ++ gen /\
    (sPareto s = false -> gen = []) /\ ord_v s' = ord_v s /\ abs_v s' = abs_v s /\ sPareto s' = sPareto s /\ e = (0%Z, (-1)%Z).
Proof.
  unfold iteration. destruct (length rewards <? 2); [discriminate|]. destruct (select s rewards) as [[sel rest]|]; [|discriminate]. cbn [bind fst snd].
  destruct (rows_at rewards sel) as [X|] eqn:EX; [|discriminate]. cbn [bind]. destruct (choose i X) as [b|] eqn:Eb; [|discriminate]. cbn [bind].
  destruct (added _) as [s1|] eqn:E1; [|discriminate]. cbn [bind]. destruct (add_rest rewards rest s1) as [s2|] eqn:E2; [|discriminate]. cbn [bind].
  intro H. inversion H; subst. clear H. apply added_rel in E1. destruct (add_rel_effect _ _ _ _ E1) as [A [B [C [D G]]]].
  destruct (rest_effect _ _ _ _ E2) as [N [FN [LN [A2 [B2 [C2 [D2 G2]]]]]]]. destruct (rows_at_ok _ _ _ EX) as [_ [_ FX]].
  exists (mkQuery X b N). eexists. cbn [q_shown q_choice q_rest].
  assert (EW := shifted_won (length (points s)) (mkQuery X b N)). cbn [q_shown q_choice] in EW. rewrite EW in B.
  split; [apply Forall_app; auto|]. split; auto. split; [rewrite A2, A, app_assoc; reflexivity|].
  split; [rewrite B2, B, <- !app_assoc; reflexivity|]. split; [|repeat split; congruence].
  intro P. rewrite (gen_rel_off s X P). destruct rest; simpl; auto. apply gen_rel_off. now rewrite G.
Qed.
Lemma choose_train problems : forall i s s' log, sPareto s = false -> train Choose1 perfect u choose rate select i problems s = Ok (s', log) ->
  exists qs, length qs = length problems /\ log = repeat (0%Z, (-1)%Z) (length problems) /\
    (forall k q, nth_error qs k = Some q -> choose (i + k) (q_shown q) = Ok (q_choice q) /\
       exists rewards, nth_error problems k = Some rewards /\ Forall (fun x => In x rewards) (q_shown q ++ q_rest q)) /\
    points s' = points s ++ asked_points qs /\ rel s' = rel s ++ asked_pairs (length (points s)) qs /\
    ord_v s' = ord_v s /\ abs_v s' = abs_v s.
Proof.
  induction problems as [|rewards problems IH]; intros i s s' log P H; cbn [train] in H.
  - inversion H; subst. exists []. unfold asked_points. simpl. rewrite !app_nil_r. repeat split; auto; destruct k; discriminate.
  - destruct (iteration _ _ _ _ _ _ i rewards s) as [[s1 e]|] eqn:E1; [|discriminate]. cbn [bind fst snd] in H.
    destruct (train _ _ _ _ _ _ (S i) problems s1) as [[s2 log2]|] eqn:E2; [|discriminate]. cbn [bind fst snd] in H. inversion H; subst. clear H.
    destruct (choose_iteration _ _ _ _ _ E1) as [q [gen [F [C [A [B [G [O [Ab [Pa ->]]]]]]]]]]. rewrite (G P), app_nil_r in B.
    destruct (IH (S i) s1 s' log2 ltac:(congruence) E2) as [qs [L [El [Q [A2 [B2 [O2 Ab2]]]]]]].
    exists (q :: qs). split; [simpl; auto|]. split; [simpl; now rewrite El|]. split.
    { intros [|k] q' Hk; simpl in Hk.
      - inversion Hk; subst. rewrite Nat.add_0_r. split; auto. exists rewards. auto.
      - replace (i + S k) with (S i + k) by lia. destruct (Q k q' Hk) as [Qa [r [Qb Qc]]]. split; auto. exists r. auto. }
    split; [unfold asked_points in *; simpl; now rewrite A2, A, <- app_assoc|].
    split; [rewrite B2, B, <- app_assoc; simpl; rewrite A, app_length; reflexivity|]. split; congruence.
Qed.

(** * answers that never err *)
Lemma agrees_app X Y p : agrees u X p -> agrees u (X ++ Y) p.
Proof.
  destruct p as [[d a] b]. intros [E [x [y [Hx [Hy L]]]]]. split; auto. exists x, y. repeat split; auto.
  - rewrite nth_error_app1; auto. apply nth_error_Some. congruence. - rewrite nth_error_app1; auto. apply nth_error_Some. congruence.
Qed.
Lemma pareto_agrees X p : respects_domination u -> pareto_truth X p -> agrees u X p.
Proof. destruct p as [[d a] b]. intros R [E [x [y [Hx [Hy D]]]]]. split; auto. exists x, y. auto. Qed.
Lemma won_agrees P q : first_best u (q_shown q) (q_choice q) -> Forall (agrees u (P ++ q_shown q)) (won (length P) q).
Proof.
  intros [x [Hx [M _]]]. apply Forall_forall. intros p Hp. unfold won in Hp. apply in_map_iff in Hp. destruct Hp as [j [<- Hj]].
  apply filter_In in Hj. destruct Hj as [Hj _]. apply in_seq in Hj. destruct (nth_error (q_shown q) j) as [y|] eqn:Ey; [|apply nth_error_None in Ey; lia].
  split; auto. exists x, y. rewrite !nth_error_app2 by lia. replace (length P + q_choice q - length P) with (q_choice q) by lia.
  replace (length P + j - length P) with j by lia. repeat split; auto. apply M. eapply nth_error_In; eauto.
Qed.
Lemma add_agrees k s X y s' : (sPareto s = true -> respects_domination u /\ same_width k (points s ++ X)) -> add s X (LRel y) = (s', Done) ->
  Forall (agrees u (points s ++ X)) (shifted (length (points s)) y) -> Forall (agrees u (points s)) (rel s) -> Forall (agrees u (points s')) (rel s').
Proof.
  intros R E Hy Hs. destruct (add_rel_effect _ _ _ _ E) as [A [B _]]. rewrite A, B. apply Forall_app. split.
  - eapply Forall_impl; [|exact Hs]. intros p. apply agrees_app.
  - apply Forall_app. split; auto. destruct (sPareto s) eqn:P; [|rewrite gen_rel_off by auto; constructor]. destruct (R eq_refl) as [R1 R2].
    apply Forall_forall. intros p Hp. apply pareto_agrees; auto. eapply gen_rel_truth; eauto.
Qed.
Lemma abs_rel s X v s' : added (add s X (LAbs v)) = Ok s' -> exists s2, add s X (LAbs v) = (s2, Done) /\ s' = s2.
Proof. destruct (add s X (LAbs v)) as [s2 st] eqn:E. unfold added. destruct st; intro H; inversion H; subst; eauto. exfalso. unfold add in E. cbn [add_labels] in E. unfold add_abs in E. destruct (_ || _); inversion E. Qed.
Lemma width_app k X Y : same_width k X -> same_width k Y -> same_width k (X ++ Y).
Proof. intros. apply Forall_app. auto. Qed.
Lemma width_in k X rewards : same_width k rewards -> Forall (fun x => In x rewards) X -> same_width k X.
Proof. unfold same_width. rewrite !Forall_forall. auto. Qed.
Definition keeps (k : nat) (s : store) : Prop := Forall (agrees u (points s)) (rel s) /\ same_width k (points s).
Lemma add_keeps k s X y s' : (sPareto s = true -> respects_domination u) -> same_width k X -> add s X (LRel y) = (s', Done) ->
  Forall (agrees u (points s ++ X)) (shifted (length (points s)) y) -> keeps k s -> keeps k s' /\ sPareto s' = sPareto s.
Proof.
  intros R W E Hy [K1 K2]. assert (W2 := width_app k _ _ K2 W). destruct (add_rel_effect _ _ _ _ E) as [A [_ [_ [_ P]]]].
  split; [split; [eapply add_agrees; eauto|now rewrite A]|auto].
Qed.
Lemma abs_keeps k s X v s' : (sPareto s = true -> respects_domination u) -> same_width k X -> added (add s X (LAbs v)) = Ok s' -> keeps k s -> keeps k s' /\ sPareto s' = sPareto s.
Proof.
  intros R W E [K1 K2]. apply abs_rel in E. destruct E as [s2 [E <-]]. assert (W2 := width_app k _ _ K2 W).
  destruct (add_spec _ _ _ _ E) as (Ep & _ & Er & _ & _ & _ & _ & _ & _ & Pa). split; auto. split; [|now rewrite Ep].
  rewrite Ep, Er. cbn [user_rel]. cbn [app]. apply Forall_app. split; [eapply Forall_impl; [|exact K1]; intros p; apply agrees_app|].
  destruct (sPareto s) eqn:P; [|rewrite gen_rel_off by auto; constructor]. apply Forall_forall. intros p Hp. apply pareto_agrees; auto. eapply gen_rel_truth; eauto.
Qed.
Lemma iteration_keeps k i rewards s s' e : never_errs u choose -> (sPareto s = true -> respects_domination u) -> same_width k rewards ->
  iteration t perfect u choose rate select i rewards s = Ok (s', e) -> keeps k s -> keeps k s' /\ sPareto s' = sPareto s.
Proof.
  intros NE R W H K. unfold iteration in H. destruct (length rewards <? 2); [discriminate|]. destruct t.
  - destruct (select s rewards) as [[sel rest]|]; [|discriminate]. cbn [bind fst snd] in H.
    destruct (rows_at rewards sel) as [X|] eqn:EX; [|discriminate]. cbn [bind] in H. destruct (choose i X) as [b|] eqn:Eb; [|discriminate]. cbn [bind] in H.
    destruct (added _) as [s1|] eqn:E1; [|discriminate]. cbn [bind] in H. destruct (add_rest rewards rest s1) as [s2|] eqn:E2; [|discriminate]. cbn [bind] in H.
    inversion H; subst. clear H. destruct (rows_at_ok _ _ _ EX) as [_ [_ FX]]. apply added_rel in E1.
    destruct (add_keeps k s X _ s1 R (width_in k X rewards W FX) E1) as [K1 P1]; auto.
    { change X with (q_shown (mkQuery X b [])) at 2. change b with (q_choice (mkQuery X b [])). rewrite shifted_won. apply (won_agrees (points s) (mkQuery X b [])). now apply (NE i). }
    unfold add_rest in E2. destruct rest as [|r0 rest]; [inversion E2; subst; auto|].
    destruct (rows_at rewards (r0 :: rest)) as [N|] eqn:EN; [|discriminate]. cbn [bind] in E2. apply added_rel in E2. destruct (rows_at_ok _ _ _ EN) as [_ [_ FN]].
    destruct (add_keeps k s1 N [] s' ltac:(rewrite P1; exact R) (width_in k N rewards W FN) E2) as [K2 P2]; auto; [constructor|]. split; auto. congruence.
  - destruct (select s rewards) as [[sel rest]|]; [|discriminate]. cbn [bind fst snd] in H.
    destruct (rows_at rewards sel) as [X|] eqn:EX; [|discriminate]. cbn [bind] in H. destruct perfect; discriminate.
  - destruct (select s rewards) as [[sel rest]|]; [|discriminate]. cbn [bind fst snd] in H. destruct (getitem sel 0) as [j|]; [|discriminate]. cbn [bind] in H.
    destruct (getitem rewards j) as [x|] eqn:Ex; [|discriminate]. cbn [bind] in H. destruct (added _) as [s1|] eqn:E1; [|discriminate]. cbn [bind] in H. inversion H; subst.
    apply (abs_keeps k s [x] (rate i [x]) s'); auto. apply (width_in k _ rewards W). constructor; auto. apply getitem_ok in Ex. eapply nth_error_In; eauto.
  - destruct (select s rewards) as [[sel rest]|]; [|discriminate]. cbn [bind fst snd] in H.
    destruct (rows_at rewards sel) as [X|] eqn:EX; [|discriminate]. cbn [bind] in H. destruct (rows_at_ok _ _ _ EX) as [_ [_ FX]]. destruct (length sel =? 1).
    + destruct (added _) as [s1|] eqn:E1; [|discriminate]. cbn [bind] in H. inversion H; subst. apply (abs_keeps k s X (rate i X) s'); auto. now apply (width_in k X rewards).
    + destruct (argmax _ _) as [c|]; [|discriminate]. cbn [bind] in H. destruct (choose i X) as [b|] eqn:Eb; [|discriminate]. cbn [bind] in H.
      destruct (added _) as [s1|] eqn:E1; [|discriminate]. cbn [bind] in H. destruct (getitem _ 0) as [p|]; [|discriminate]. cbn [bind] in H. inversion H; subst.
      apply added_rel in E1. apply (add_keeps k s X _ s' R (width_in k X rewards W FX) E1); auto.
      change X with (q_shown (mkQuery X b [])) at 2. change b with (q_choice (mkQuery X b [])). rewrite shifted_won. apply (won_agrees (points s) (mkQuery X b [])). now apply (NE i).
  - inversion H; subst. auto.
Qed.
Lemma train_keeps k problems : forall i s s' log, never_errs u choose -> (sPareto s = true -> respects_domination u) -> Forall (same_width k) problems ->
  train t perfect u choose rate select i problems s = Ok (s', log) -> keeps k s -> keeps k s' /\ sPareto s' = sPareto s.
Proof.
  induction problems as [|rewards problems IH]; intros i s s' log NE R W H K; cbn [train] in H; [inversion H; subst; auto|].
  destruct (iteration _ _ _ _ _ _ i rewards s) as [[s1 e]|] eqn:E1; [|discriminate]. cbn [bind fst snd] in H.
  destruct (train _ _ _ _ _ _ (S i) problems s1) as [[s2 log2]|] eqn:E2; [|discriminate]. cbn [bind fst snd] in H. inversion H; subst. clear H. inversion W; subst.
  destruct (iteration_keeps k i rewards s s1 e NE R H1 E1 K) as [K1 P1]. destruct (IH (S i) s1 s' log2 NE ltac:(rewrite P1; exact R) H2 E2 K1) as [K2 P2]. split; auto. congruence.
Qed.
End loop.
