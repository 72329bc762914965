(** What a learner is told when a point is selected. *)
From Verif Require Import M_Base M_Select S_Select S_Select2 P_Select.
From Coq Require Import List Lia.
Import ListNotations.

Lemma union_In A B x : In x (union A B) <-> In x A \/ In x B.
Proof.
  unfold union. rewrite in_app_iff, diff_In, set_of_In. destruct (in_dec Nat.eq_dec x A); tauto.
Qed.
Lemma NoDup_disjoint {A} (l m : list A) : NoDup l -> NoDup m -> (forall x, In x l -> ~ In x m) -> NoDup (l ++ m).
Proof.
  induction 1 as [|a l Ha Hl IH]; intros Hm D; [exact Hm|]. cbn. constructor; [rewrite in_app_iff; intros [K|K]; [tauto|apply (D a); [now left|exact K]]|]. apply IH; auto. intros x Hx. apply D. now right.
Qed.
Lemma union_NoDup A B : NoDup A -> NoDup (union A B).
Proof. intro H. apply NoDup_disjoint; auto; [apply diff_NoDup, set_of_NoDup|]. intros x Hx K. apply diff_In in K. tauto. Qed.
Section Loop.
Variables (L : learner) (pf : bool) (n N : nat) (prev : list nat).
Hypothesis NP : pf = false \/ l_pair L = None.
Hypothesis ND : NoDup prev.
Lemma single b : (if pf && b then l_pair L else None) = None.
Proof. destruct NP as [-> | ->]; [reflexivity|]. now destruct (pf && b)%bool. Qed.
Lemma step_informed k idx sel i l j x : l_greedy L k idx (union prev sel) = Ok i -> (forall j' x', length (sel ++ [i]) <= j' -> nth_error ((sel ++ [i]) ++ l) j' = Some x' -> told L prev ((sel ++ [i]) ++ l) j' x') ->
  length sel <= j -> nth_error (sel ++ i :: l) j = Some x -> told L prev (sel ++ i :: l) j x.
Proof.
  intros G IH Hj E. replace (sel ++ i :: l) with ((sel ++ [i]) ++ l) in * by now rewrite <- app_assoc. destruct (Nat.eq_dec j (length sel)) as [-> |Ne]; [|apply IH; auto; rewrite app_length; cbn; lia].
  rewrite <- app_assoc in E. rewrite nth_error_app2, Nat.sub_diag in E by lia. injection E as <-. exists k, idx, (union prev sel). split; [exact G|]. split; [now apply union_NoDup|]. intro y. rewrite union_In. rewrite <- app_assoc, firstn_app, firstn_all, Nat.sub_diag. cbn [firstn]. now rewrite app_nil_r.
Qed.
Lemma loop_informed : forall fuel k pref allo sel out, sel_loop L pf n N prev fuel k pref allo sel = Ok out ->
  exists l, out = sel ++ l /\ forall j x, length sel <= j -> nth_error out j = Some x -> told L prev out j x.
Proof.
  assert (Z : forall sel : list nat, exists l, sel = sel ++ l /\ forall j x, length sel <= j -> nth_error sel j = Some x -> told L prev sel j x).
  { intro sel. exists []. rewrite app_nil_r. split; [reflexivity|]. intros j x Hj E. apply nth_error_None in Hj. congruence. }
  induction fuel as [|fuel IH]; intros k pref allo sel out H; cbn [sel_loop] in H; destruct (n <=? length sel); try (injection H as <-; apply Z); try discriminate.
  cbv zeta in H. rewrite single in H. destruct pref as [|p0 pref0] eqn:Ep.
  - set (al := match allo with None => diff (diff (seq 0 N) prev) sel | Some a => a end) in *. destruct al as [|a al0] eqn:Ea; [discriminate|]. rewrite <- Ea in *. destruct (l_greedy L k al (union prev sel)) as [i|e] eqn:G; [|discriminate]. cbn [bind] in H.
    destruct (set_remove i al) as [al'|e]; [|discriminate]. cbn [bind] in H. apply IH in H. destruct H as [l [-> T]]. exists (i :: l). split; [now rewrite <- app_assoc|]. intros j x Hj E. rewrite <- app_assoc in E |- *. eapply step_informed; eauto.
  - rewrite <- Ep in *. destruct (l_greedy L k pref (union prev sel)) as [i|e] eqn:G; [|discriminate]. cbn [bind] in H.
    destruct (set_remove i pref) as [al'|e]; [|discriminate]. cbn [bind] in H. apply IH in H. destruct H as [l [-> T]]. exists (i :: l). split; [now rewrite <- app_assoc|]. intros j x Hj E. rewrite <- app_assoc in E |- *. eapply step_informed; eauto.
Qed.
End Loop.
Lemma told_ext L prev prev' l j x : (forall y, In y prev \/ In y (firstn j l) <-> In y prev' \/ In y (firstn j l)) -> told L prev l j x -> told L prev' l j x.
Proof. intros H [k [idx [P [G [ND S]]]]]. exists k, idx, P. split; [exact G|]. split; [exact ND|]. intro y. now rewrite S. Qed.
Lemma select_informed L cand mu n prev p pf out : (pf = false \/ l_pair L = None) -> select L cand mu n prev p pf = Ok out ->
  forall j x, nth_error out j = Some x -> (l_best L = true /\ prev = [] /\ j = 0) \/ told L prev out j x.
Proof.
  intros NP H j x E. unfold select, sel_start in H. destruct (get_prefered_set_of_pts _ _ _) as [P|e]; [|discriminate]. cbn [bind] in H. destruct (l_best L && (length (set_of prev) =? 0))%bool eqn:B.
  - apply andb_prop in B. destruct B as [B1 B2]. apply Nat.eqb_eq in B2. assert (prev = []) as ->. { destruct prev as [|a pr]; [reflexivity|]. assert (K := proj2 (set_of_In (a :: pr) a) ltac:(now left)). destruct (set_of (a :: pr)); [destruct K|discriminate]. }
    destruct (select_best _ _ _ _) as [b|e]; [|discriminate]. cbn [bind] in H. destruct (loop_informed L pf _ _ [b] NP ltac:(repeat constructor; auto) _ _ _ _ _ _ H) as [l [-> T]]. destruct j as [|j]; [left; auto|right]. apply (told_ext L [b]); [|apply T; [cbn; lia|exact E]]. intro y. cbn. tauto.
  - cbn [bind] in H. destruct (loop_informed L pf _ _ (set_of prev) NP (set_of_NoDup prev) _ _ _ _ _ _ H) as [l [-> T]]. right. apply (told_ext L (set_of prev)); [|apply T; [cbn; lia|exact E]]. intro y. rewrite set_of_In. tauto.
Qed.
