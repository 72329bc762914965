(** Proofs about candidate selection. *)
From Verif Require Import M_Base M_Pareto M_Select S_Pareto S_Select P_Base P_Pareto.
From Coq Require Import Permutation Sorted.

Lemma diff_In A B x : In x (diff A B) <-> In x A /\ ~ In x B.
Proof. unfold diff. rewrite filter_In, negb_true_iff, mem_false. reflexivity. Qed.
Lemma diff_NoDup A B : NoDup A -> NoDup (diff A B).
Proof. apply NoDup_filter. Qed.
Lemma set_of_In l x : In x (set_of l) <-> In x l.
Proof. apply nodup_In. Qed.
Lemma set_of_NoDup l : NoDup (set_of l).
Proof. apply NoDup_nodup. Qed.
Lemma set_remove_ok x A B : set_remove x A = Ok B -> In x A /\ B = remove_first x A.
Proof. unfold set_remove. destruct (mem x A) eqn:E; [|discriminate]. intro H. inversion H. apply mem_In in E. auto. Qed.
Lemma set_remove_in x A : In x A -> set_remove x A = Ok (remove_first x A).
Proof. intro H. unfold set_remove. now rewrite (proj2 (mem_In x A) H). Qed.

(** successive choices out of a shrinking set *)
Inductive picks (R : list nat -> nat -> Prop) : list nat -> list nat -> Prop :=
| picks_nil S : picks R S []
| picks_cons S i l : In i S -> R S i -> picks R (remove_first i S) l -> picks R S (i :: l).

Lemma picks_spec R S l : picks R S l -> NoDup S -> NoDup l /\ (forall i, In i l -> In i S).
Proof.
  induction 1 as [S|S i l Hi HR Hp IH]; intro Hn; [split; [constructor|intros ? []]|].
  destruct (IH (remove_first_NoDup i S Hn)) as [H1 H2]. split.
  - constructor; auto. intro K. apply H2 in K. apply remove_first_In_iff in K; auto. tauto.
  - intros j [<-|Hj]; auto. apply H2 in Hj. now apply remove_first_In in Hj.
Qed.
Lemma picks_ranked (R : list nat -> nat -> Prop) (le : nat -> nat -> Prop) (D : nat -> Prop) S l :
  (forall S i, NoDup S -> (forall j, In j S -> D j) -> R S i -> forall y, In y S -> le y i) ->
  picks R S l -> NoDup S -> (forall j, In j S -> D j) -> ranked le (fun y => In y S) l.
Proof.
  intros HR. induction 1 as [S|S i l Hi Hri Hp IH]; intros Hn HD.
  - split; [constructor|intros ? ? []].
  - assert (Hn' := remove_first_NoDup i S Hn).
    destruct IH as [H1 H2]; auto. { intros j Hj. apply remove_first_In in Hj. auto. }
    destruct (picks_spec _ _ _ Hp Hn') as [Hl1 Hl2]. split.
    + constructor; auto. apply Forall_forall. intros y Hy. apply (HR S i Hn HD Hri). apply Hl2 in Hy. eapply remove_first_In; eauto.
    + intros x y [<-|Hx] Hy Hny.
      * exact (HR S i Hn HD Hri y Hy).
      * apply H2; auto; [|intro K; apply Hny; now right].
        apply remove_first_In_iff; auto. split; auto. intro K; subst. apply Hny. now left.
Qed.
Lemma picks_full R S l : picks R S l -> NoDup S -> length l = length S -> forall i, In i S -> In i l.
Proof.
  intros Hp Hn Hl. destruct (picks_spec _ _ _ Hp Hn) as [H1 H2].
  apply (NoDup_length_incl H1); [lia|exact H2].
Qed.

(** the relation "the learner chose [i] out of [S]" *)
Definition chosen (L : learner) (S : list nat) (i : nat) : Prop := exists k P, l_greedy L k S P = Ok i.

Section loop.
Context (L : learner) (pf : bool) (n N : nat) (prev : list nat).
Hypothesis Hpair : pf = false \/ l_pair L = None.

Lemma no_pair b : (if pf && b then l_pair L else None) = None.
Proof. destruct Hpair as [->| ->]; simpl; auto. now destruct (pf && b). Qed.

(** second phase: the preferred points are used up *)
Lemma sel_loop_rest : forall fuel k al sel out,
  sel_loop L pf n N prev fuel k [] (Some al) sel = Ok out ->
  exists l, out = sel ++ l /\ picks (chosen L) al l /\ length out = Nat.max n (length sel).
Proof.
  induction fuel as [|fuel IH]; intros k al sel out H; cbn [sel_loop] in H.
  - destruct (Nat.leb_spec n (length sel)); [|discriminate]. inversion H; subst. exists []. rewrite app_nil_r.
    repeat split; [constructor|lia].
  - destruct (Nat.leb_spec n (length sel)).
    + inversion H; subst. exists []. rewrite app_nil_r. repeat split; [constructor|lia].
    + cbv zeta in H. rewrite no_pair in H. destruct al as [|a al0] eqn:Ea; [discriminate|]. rewrite <- Ea in *. clear Ea.
      destruct (l_greedy L k al (union prev sel)) as [i|e] eqn:G; [|discriminate]. cbn [bind] in H.
      destruct (set_remove i al) as [al'|e] eqn:R; [|discriminate]. cbn [bind] in H.
      apply set_remove_ok in R. destruct R as [Hi ->].
      apply IH in H. destruct H as [l [-> [Hp Hl]]]. exists (i :: l). rewrite <- app_assoc. split; auto. split.
      * constructor; auto. now exists k, (union prev sel).
      * rewrite <- app_assoc in Hl. rewrite Hl, app_length. simpl. lia.
Qed.
Lemma sel_loop_spec : forall fuel k pref sel out,
  sel_loop L pf n N prev fuel k pref None sel = Ok out ->
  exists l1 l2, out = sel ++ l1 ++ l2 /\ picks (chosen L) pref l1 /\
    (l2 = [] \/ length l1 = length pref /\ picks (chosen L) (diff (diff (seq 0 N) prev) (sel ++ l1)) l2) /\
    length out = Nat.max n (length sel).
Proof.
  induction fuel as [|fuel IH]; intros k pref sel out H; cbn [sel_loop] in H.
  - destruct (Nat.leb_spec n (length sel)); [|discriminate]. inversion H; subst. exists [], []. simpl. rewrite app_nil_r.
    repeat split; [constructor|auto|lia].
  - destruct (Nat.leb_spec n (length sel)).
    + inversion H; subst. exists [], []. simpl. rewrite app_nil_r. repeat split; [constructor|auto|lia].
    + cbv zeta in H. rewrite no_pair in H. destruct pref as [|p0 pref0] eqn:Ep.
      * remember (diff (diff (seq 0 N) prev) sel) as al eqn:Eal.
        destruct al as [|a al0] eqn:Ea; [discriminate|]. rewrite <- Ea in *. clear Ea a al0.
        destruct (l_greedy L k al (union prev sel)) as [i|e] eqn:G; [|discriminate]. cbn [bind] in H.
        destruct (set_remove i al) as [al'|e] eqn:R; [|discriminate]. cbn [bind] in H.
        apply set_remove_ok in R. destruct R as [Hi ->].
        apply sel_loop_rest in H. destruct H as [l [-> [Hp Hl]]].
        exists [], (i :: l). rewrite <- app_assoc. split; auto. split; [constructor|]. split.
        -- right. split; auto. rewrite app_nil_r, <- Eal. constructor; auto. now exists k, (union prev sel).
        -- rewrite <- app_assoc in Hl. rewrite Hl, app_length. simpl. lia.
      * rewrite <- Ep in *. clear Ep.
        destruct (l_greedy L k pref (union prev sel)) as [i|e] eqn:G; [|discriminate]. cbn [bind] in H.
        destruct (set_remove i pref) as [pref'|e] eqn:R; [|discriminate]. cbn [bind] in H.
        apply set_remove_ok in R. destruct R as [Hi ->].
        apply IH in H. destruct H as [l1 [l2 [-> [Hp [Hr Hl]]]]].
        exists (i :: l1), l2. split; [now rewrite <- app_assoc|]. split; [|split].
        -- constructor; auto. now exists k, (union prev sel).
        -- destruct Hr as [->|[Hlen Hr]]; auto. right. split.
           ++ simpl. rewrite Hlen. symmetry. now apply remove_first_length.
           ++ rewrite <- app_assoc in Hr. exact Hr.
        -- rewrite Hl, app_length. simpl. lia.
Qed.

(** when the learner answers, the loop fails only for want of candidates *)
Lemma sel_loop_total : answers (l_greedy L) N ->
  forall fuel k pref allo sel,
  n <= length sel + fuel -> (forall i, In i pref -> i < N) -> NoDup pref ->
  match allo with
  | None => (forall i, In i pref -> ~ In i prev /\ ~ In i sel)
  | Some al => pref = [] /\ NoDup al /\ forall i, In i al <-> i < N /\ ~ In i prev /\ ~ In i sel
  end ->
  (exists out, sel_loop L pf n N prev fuel k pref allo sel = Ok out) \/
  (sel_loop L pf n N prev fuel k pref allo sel = Raise GenericException /\
   exists l, length l < n /\ forall i, In i l <-> In i sel \/ (i < N /\ ~ In i prev)).
Proof.
  intro HG. induction fuel as [|fuel IH]; intros k pref allo sel Hf Hr Hn Hinv; cbn [sel_loop].
  - destruct (Nat.leb_spec n (length sel)); [|lia]. eauto.
  - destruct (Nat.leb_spec n (length sel)); [eauto|]. cbv zeta. rewrite no_pair. destruct pref as [|p0 pref0] eqn:Ep.
    + set (al := match allo with None => diff (diff (seq 0 N) prev) sel | Some a => a end).
      assert (Hal : NoDup al /\ forall i, In i al <-> i < N /\ ~ In i prev /\ ~ In i sel).
      { unfold al. destruct allo as [a|]; [tauto|]. split; [apply diff_NoDup, diff_NoDup, seq_NoDup|].
        intro i. rewrite !diff_In, in_seq. intuition lia. }
      destruct Hal as [Hal1 Hal2]. clearbody al. destruct al as [|a al0] eqn:Ea.
      * right. split; auto. exists sel. split; auto. intro i. split; auto. intros [K|[K1 K2]]; auto.
        destruct (in_dec Nat.eq_dec i sel) as [K|K]; auto. exfalso. apply (Hal2 i). auto.
      * rewrite <- Ea in *. assert (Hne : al <> []) by (rewrite Ea; discriminate). clear Ea.
        destruct (HG k al (union prev sel) Hne) as [i [G Hi]]. { intros i Hi. now apply Hal2 in Hi. }
        rewrite G. cbn [bind]. rewrite set_remove_in by auto. cbn [bind].
        destruct (IH (S k) [] (Some (remove_first i al)) (sel ++ [i])) as [[out Ho]|[Ho [l [Hl1 Hl2]]]].
        -- rewrite app_length. simpl. lia.
        -- intros j [].
        -- constructor.
        -- split; auto. split; [now apply remove_first_NoDup|]. intro j. rewrite remove_first_In_iff by auto.
           rewrite Hal2, in_app_iff. simpl. intuition congruence.
        -- left. eauto.
        -- right. split; auto. exists l. split; auto. intro j. rewrite Hl2, in_app_iff. simpl.
           apply Hal2 in Hi. intuition (subst; auto).
    + rewrite <- Ep in *. assert (Hne : pref <> []) by (rewrite Ep; discriminate).
      destruct allo as [a|]; [destruct Hinv as [K _]; congruence|]. clear Ep.
      destruct (HG k pref (union prev sel) Hne Hr) as [i [G Hi]].
      rewrite G. cbn [bind]. rewrite set_remove_in by auto. cbn [bind].
      destruct (IH (S k) (remove_first i pref) None (sel ++ [i])) as [[out Ho]|[Ho [l [Hl1 Hl2]]]].
      * rewrite app_length. simpl. lia.
      * intros j Hj. apply remove_first_In in Hj. auto.
      * now apply remove_first_NoDup.
      * intros j Hj. apply remove_first_In_iff in Hj; auto. destruct Hj as [Hj Hne']. split; [now apply Hinv|].
        rewrite in_app_iff. simpl. specialize (Hinv j Hj). intuition congruence.
      * left. eauto.
      * right. split; auto. exists l. split; auto. intro j. rewrite Hl2, in_app_iff. simpl.
        assert (K := Hr i Hi). assert (K' := Hinv i Hi). intuition (subst; auto).
Qed.
End loop.

(** ---- argmax ---- *)
Section argmax.
Context {A : Type} (ltb : A -> A -> bool).
Hypothesis ltb_trans : forall a b c, ltb b a = false -> ltb c b = false -> ltb c a = false.
Hypothesis ltb_asym : forall a b, ltb a b = true -> ltb b a = false.

Lemma ltb_refl_false a : ltb a a = false.
Proof. destruct (ltb a a) eqn:E; auto. assert (K := ltb_asym a a E). congruence. Qed.
Lemma argmax_from_max l : forall best besti i,
  exists m, (argmax_from ltb best besti i l = besti /\ m = best \/
             exists j, argmax_from ltb best besti i l = i + j /\ nth_error l j = Some m)
   /\ ltb m best = false /\ (forall x, In x l -> ltb m x = false).
Proof.
  induction l as [|x l IH]; intros best besti i; simpl.
  - exists best. split; auto. split; [apply ltb_refl_false|tauto].
  - destruct (ltb best x) eqn:E.
    + destruct (IH x i (S i)) as [m [H [Hm Hl]]]. exists m. split.
      * destruct H as [[-> ->]|[j [-> Hj]]]; right; [exists 0|exists (S j)]; simpl; split; auto; lia.
      * split; [|intros z [->|Hz]; auto]. eapply ltb_trans; [apply ltb_asym; exact E|exact Hm].
    + destruct (IH best besti (S i)) as [m [H [Hm Hl]]]. exists m. split.
      * destruct H as [[-> ->]|[j [-> Hj]]]; [left; auto|right; exists (S j); simpl; split; auto; lia].
      * split; auto. intros z [->|Hz]; auto. eapply ltb_trans; [exact E|exact Hm].
Qed.
End argmax.

(** a learner's choice: one of the enumerated indices, with a score no other one exceeds *)
Definition order_ok {A} (ltb : A -> A -> bool) : Prop :=
  (forall a b c, ltb b a = false -> ltb c b = false -> ltb c a = false) /\ (forall a b, ltb a b = true -> ltb b a = false).
Lemma mapM_total {A B} (f : A -> result B) l : (forall x, In x l -> exists y, f x = Ok y) -> exists ys, mapM f l = Ok ys.
Proof.
  induction l as [|x l IH]; intro H; simpl; eauto. destruct (H x (or_introl eq_refl)) as [y ->]. simpl.
  destruct IH as [ys ->]; [intros z Hz; apply H; now right|]. simpl. eauto.
Qed.
Lemma mapM_nth {A B} (f : A -> result B) l ys : mapM f l = Ok ys ->
  length ys = length l /\ forall i x, nth_error l i = Some x -> exists y, nth_error ys i = Some y /\ f x = Ok y.
Proof.
  revert ys. induction l as [|x l IH]; intros ys H; simpl in H.
  - inversion H; subst. split; auto. intros [|i] y K; discriminate.
  - destruct (f x) as [y|e] eqn:E; [|discriminate]. simpl in H. destruct (mapM f l) as [ys'|e] eqn:E'; [|discriminate].
    simpl in H. inversion H; subst. destruct (IH ys' eq_refl) as [Hl Hn]. split; [simpl; auto|].
    intros [|i] z K; simpl in *; [inversion K; subst; eauto|eauto].
Qed.
Lemma pick_extreme_spec {A} (ltb : A -> A -> bool) (score : nat -> result A) ls i :
  order_ok ltb -> pick_extreme ltb score ls = Ok i ->
  In i ls /\ exists m, score i = Ok m /\ forall j v, In j ls -> score j = Ok v -> ltb m v = false.
Proof.
  intros [Ht Ha] H. unfold pick_extreme in H. destruct (mapM score ls) as [vs|e] eqn:E; [|discriminate]. cbn [bind] in H.
  destruct (mapM_nth _ _ _ E) as [Hl Hn].
  destruct vs as [|v vs']; [discriminate|]. cbn [argmax bind] in H.
  destruct (argmax_from_max ltb Ht Ha vs' v 0 1) as [m [Hm [Hb Hall]]].
  assert (Hv : nth_error (v :: vs') (argmax_from ltb v 0 1 vs') = Some m).
  { destruct Hm as [[-> ->]|[j [-> Hj]]]; auto. }
  unfold getitem in H. destruct (nth_error ls _) as [i'|] eqn:Ei; [|discriminate]. inversion H; subst i'. clear H.
  destruct (Hn _ _ Ei) as [y [Hy Hs]]. rewrite Hv in Hy. inversion Hy; subst y.
  split; [eapply nth_error_In; eauto|]. exists m. split; auto.
  intros j w Hj Hw. apply In_nth_error in Hj. destruct Hj as [p Hp]. destruct (Hn _ _ Hp) as [y' [Hy' Hs']].
  rewrite Hw in Hs'. inversion Hs'; subst y'. apply nth_error_In in Hy'. destruct Hy' as [<-|K]; auto.
Qed.
Lemma pick_extreme_total {A} (ltb : A -> A -> bool) (score : nat -> result A) ls :
  order_ok ltb -> ls <> [] -> (forall j, In j ls -> exists v, score j = Ok v) -> exists i, pick_extreme ltb score ls = Ok i /\ In i ls.
Proof.
  intros Ho Hne Hs. destruct (mapM_total _ _ Hs) as [vs E]. assert (Hx := mapM_nth _ _ _ E). destruct Hx as [Hl Hn].
  assert (exists i, pick_extreme ltb score ls = Ok i) as [i Hi].
  { unfold pick_extreme. rewrite E. cbn [bind]. destruct vs as [|v vs']; [destruct ls; simpl in *; congruence|].
    cbn [argmax bind]. destruct (argmax_from_max ltb (proj1 Ho) (proj2 Ho) vs' v 0 1) as [m [Hm _]].
    unfold getitem. destruct (nth_error ls _) as [i|] eqn:Ei; eauto. apply nth_error_None in Ei.
    assert (argmax_from ltb v 0 1 vs' < length (v :: vs')).
    { destruct Hm as [[-> _]|[j [-> Hj]]]; simpl; [lia|]. apply le_n_S. change (S j <= length vs').
      apply nth_error_Some. congruence. }
    lia. }
  exists i. split; auto. now apply (pick_extreme_spec ltb score ls i Ho).
Qed.
Lemma Q_order_ok : order_ok Qlt_bool.
Proof.
  split; intros a b; [intros c H1 H2|intro H]; rewrite ?Qlt_bool_false, ?Qlt_bool_iff in *.
  - eapply Qle_trans; eauto.
  - now apply Qlt_le_weak.
Qed.
Lemma Qgt_order_ok : order_ok (fun x y => Qlt_bool y x).
Proof.
  split; intros a b; [intros c H1 H2|intro H]; cbn beta in *; rewrite ?Qlt_bool_false, ?Qlt_bool_iff in *.
  - eapply Qle_trans; eauto.
  - now apply Qlt_le_weak.
Qed.
Lemma getitem_total {A} (l : list A) i : i < length l -> exists x, getitem l i = Ok x.
Proof. intro H. unfold getitem. destruct (nth_error l i) eqn:E; eauto. apply nth_error_None in E. lia. Qed.
Lemma getitem_ok {A} (l : list A) i x : getitem l i = Ok x <-> nth_error l i = Some x.
Proof. unfold getitem. destruct (nth_error l i); split; congruence. Qed.

Lemma score_answers {A} (ltb : A -> A -> bool) enum (score : list nat -> nat -> result A) N :
  order_ok ltb -> (forall k, enumerates (enum k)) -> (forall P i, i < N -> exists v, score P i = Ok v) ->
  answers (score_greedy ltb enum score) N.
Proof.
  intros Ho He Hs k idx P Hne Hr. unfold score_greedy.
  destruct (pick_extreme_total ltb (score P) (enum k idx) Ho) as [i [H1 H2]].
  - intro K. apply Hne. apply Permutation_nil. rewrite <- K. apply He.
  - intros j Hj. apply Hs, Hr. eapply Permutation_in; [apply He|exact Hj].
  - exists i. split; auto. eapply Permutation_in; [apply He|exact H2].
Qed.
Lemma best_answers enum mu N : (forall k, enumerates (enum k)) -> N <= length mu -> answers (best_greedy enum mu) N.
Proof.
  intros He Hl. exact (score_answers Qlt_bool enum (fun _ => getitem mu) N Q_order_ok He
    (fun _ i Hi => getitem_total mu i (Nat.lt_le_trans _ _ _ Hi Hl))).
Qed.
Lemma worst_answers enum mu N : (forall k, enumerates (enum k)) -> N <= length mu -> answers (worst_greedy enum mu) N.
Proof.
  intros He Hl. exact (score_answers _ enum (fun _ => getitem mu) N Qgt_order_ok He
    (fun _ i Hi => getitem_total mu i (Nat.lt_le_trans _ _ _ Hi Hl))).
Qed.
Lemma random_answers enum draw N : (forall k, enumerates (enum k)) -> answers (random_greedy enum draw) N.
Proof.
  intros He k idx P Hne _. unfold random_greedy. assert (Hp := He k idx).
  destruct (enum k idx) as [|a ls] eqn:E.
  - apply Permutation_nil in Hp. congruence.
  - destruct (getitem_total (a :: ls) (draw k mod length (a :: ls))) as [x Hx]; [apply Nat.mod_upper_bound; discriminate|].
    exists x. split; auto. apply getitem_ok, nth_error_In in Hx. eapply Permutation_in; eauto.
Qed.

(** ---- select ---- *)
Definition best_pool (mu : list Q) (P prev : list nat) : list nat :=
  match diff P prev with [] => diff (seq 0 (length mu)) prev | _ => diff P prev end.
Lemma select_best_eq L mu P prev : select_best L mu P prev =
  match best_pool mu P prev with [] => Raise GenericException | l => pick_extreme Qlt_bool (getitem mu) (l_enum L l) end.
Proof. unfold select_best, best_pool. cbv zeta. destruct (diff P prev); [destruct (diff (seq 0 (length mu)) prev)|]; reflexivity. Qed.
Lemma best_pool_cases mu P prev :
  ((forall j, In j P -> In j prev) /\ forall j, In j (best_pool mu P prev) <-> j < length mu /\ ~ In j prev) \/
  (best_pool mu P prev = diff P prev).
Proof.
  unfold best_pool. destruct (diff P prev) as [|x l] eqn:E; auto. left. split.
  - intros j Hj. destruct (in_dec Nat.eq_dec j prev); auto. exfalso.
    assert (In j (diff P prev)) by (apply diff_In; auto). rewrite E in H. destruct H.
  - intro j. rewrite diff_In, in_seq. intuition lia.
Qed.
Lemma select_best_spec L mu P prev b : enumerates (l_enum L) -> select_best L mu P prev = Ok b ->
  (In b P /\ ~ In b prev /\ forall j, In j P -> ~ In j prev -> val_le mu j b) \/
  ((forall j, In j P -> In j prev) /\ b < length mu /\ ~ In b prev /\ forall j, j < length mu -> ~ In j prev -> val_le mu j b).
Proof.
  intros He H. rewrite select_best_eq in H. assert (Hc := best_pool_cases mu P prev).
  remember (best_pool mu P prev) as p1 eqn:E. clear E.
  assert (Hpe : pick_extreme Qlt_bool (getitem mu) (l_enum L p1) = Ok b) by (destruct p1; [discriminate|exact H]).
  destruct (pick_extreme_spec _ _ _ _ Q_order_ok Hpe) as [Hb [m [Hm Hmax]]].
  assert (Hb1 : In b p1) by (eapply Permutation_in; [apply He|exact Hb]).
  assert (Hv : forall j, In j p1 -> val_le mu j b).
  { intros j Hj x y Hx Hy. apply getitem_ok in Hm. rewrite Hy in Hm. inversion Hm; subst.
    apply Qlt_bool_false. apply (Hmax j); [|now apply getitem_ok].
    eapply Permutation_in; [symmetry; apply He|exact Hj]. }
  destruct Hc as [[K1 K2]| ->].
  - right. split; auto. apply K2 in Hb1. split; [tauto|]. split; [tauto|]. intros j Hj Hn. apply Hv, K2. auto.
  - left. apply diff_In in Hb1. split; [tauto|]. split; [tauto|]. intros j Hj Hn. apply Hv, diff_In. auto.
Qed.
Lemma select_best_total L mu P prev : enumerates (l_enum L) -> (forall i, In i P -> i < length mu) ->
  (exists b, select_best L mu P prev = Ok b) \/
  (select_best L mu P prev = Raise GenericException /\ forall i, i < length mu -> In i prev).
Proof.
  intros He Hr. rewrite select_best_eq. destruct (best_pool mu P prev) as [|a l] eqn:E.
  - right. split; auto. intros i Hi. destruct (in_dec Nat.eq_dec i prev) as [|Hni]; auto. exfalso.
    destruct (best_pool_cases mu P prev) as [[K1 K2]|K].
    + rewrite E in K2. apply (K2 i). auto.
    + unfold best_pool in E. destruct (diff P prev) as [|x y]; [|discriminate].
      assert (In i (diff (seq 0 (length mu)) prev)) by (apply diff_In; rewrite in_seq; split; auto; lia).
      rewrite E in H. destruct H.
  - left. rewrite <- E in *. assert (Hne : best_pool mu P prev <> []) by (rewrite E; discriminate). clear E.
    destruct (pick_extreme_total Qlt_bool (getitem mu) (l_enum L (best_pool mu P prev)) Q_order_ok) as [i [Hi _]]; eauto.
    + intro K. apply Hne. apply Permutation_nil. rewrite <- K. apply He.
    + intros j Hj. apply getitem_total. assert (K : In j (best_pool mu P prev)) by (eapply Permutation_in; [apply He|exact Hj]).
      destruct (best_pool_cases mu P prev) as [[K1 K2]|K2]; [now apply K2 in K|]. rewrite K2 in K. apply diff_In in K. now apply Hr.
Qed.

Lemma n_allowed_bound N prev l n : length l < n -> (forall i, i < N -> ~ In i prev -> In i l) -> n_allowed N prev < n.
Proof.
  intros Hl H. eapply Nat.le_lt_trans; [|exact Hl]. apply NoDup_incl_length; [apply NoDup_filter, seq_NoDup|].
  intros i Hi. apply filter_In in Hi. destruct Hi as [Hi Hb]. apply in_seq in Hi.
  destruct (in_dec Nat.eq_dec i prev); [discriminate|]. apply H; auto. lia.
Qed.
Lemma n_allowed_enough N prev l : NoDup l -> (forall i, In i l -> allowed N prev i) -> length l <= n_allowed N prev.
Proof.
  intros Hn H. apply NoDup_incl_length; auto. intros i Hi. apply H in Hi. destruct Hi as [H1 H2].
  apply filter_In. split; [apply in_seq; lia|]. destruct (in_dec Nat.eq_dec i prev); tauto.
Qed.

(** the pieces of a finished selection: a best-first start [l0], preferred points [l1], other points [l2] *)
Lemma select_shape L cand mu n0 prev0 p pf P out :
  (pf = false \/ l_pair L = None) -> enumerates (l_enum L) -> length mu = length cand ->
  get_prefered_set_of_pts (l_pareto L) cand p = Ok P ->
  select L cand mu n0 prev0 p pf = Ok out ->
  exists l0 l1 l2, out = l0 ++ l1 ++ l2 /\ length out = Nat.max (num_alts_of L n0) (length l0) /\
    (l0 = [] /\ (l_best L = false \/ prev0 <> []) \/
     l_best L = true /\ prev0 = [] /\ exists b, l0 = [b] /\
       (In b P /\ (forall j, In j P -> val_le mu j b) \/
        (forall j, ~ In j P) /\ b < length cand /\ forall j, j < length cand -> val_le mu j b)) /\
    picks (chosen L) (diff (diff P prev0) l0) l1 /\
    (l2 = [] \/ length l1 = length (diff (diff P prev0) l0) /\
                picks (chosen L) (diff (diff (seq 0 (length cand)) prev0) (l0 ++ l1)) l2).
Proof.
  intros Hp He Hmu HP H. unfold select, sel_start in H. rewrite HP in H. cbn [bind] in H.
  assert (Hd : forall A, diff A (set_of prev0) = diff A prev0).
  { intro A. unfold diff. apply filter_ext. intro x. f_equal. apply eq_true_iff_eq. rewrite !mem_In. apply set_of_In. }
  destruct (l_best L && (length (set_of prev0) =? 0)) eqn:EB.
  - apply andb_true_iff in EB. destruct EB as [EB EL]. apply Nat.eqb_eq in EL.
    assert (prev0 = []).
    { destruct prev0 as [|x l]; auto. exfalso. assert (K : In x (set_of (x :: l))) by (apply set_of_In; now left).
      destruct (set_of (x :: l)); [destruct K|discriminate]. }
    subst prev0. destruct (select_best L mu P (set_of [])) as [b|e] eqn:Eb; [|discriminate]. cbn [bind] in H.
    apply sel_loop_spec in H; auto. destruct H as [l1 [l2 [Ho [H1 [H2 Hl]]]]].
    exists [b], l1, l2. split; [exact Ho|]. split; [exact Hl|]. split.
    + right. split; auto. split; auto. exists b. split; auto. apply select_best_spec in Eb; auto.
      simpl in Eb. rewrite Hmu in Eb. destruct Eb as [[E1 [_ E3]]|[E1 [E2 [_ E4]]]]; [left|right]; auto.
    + assert (HdP : forall A, diff A [] = A). { intro A. unfold diff. simpl. clear. induction A; simpl; congruence. }
      rewrite !HdP. split; auto. destruct H2 as [->|[H2 H3]]; auto. right. split; auto.
      assert (Hdd : diff (diff (seq 0 (length cand)) [b]) ([b] ++ l1) = diff (seq 0 (length cand)) ([b] ++ l1)).
      { unfold diff. rewrite <- (HdP (seq 0 (length cand))) at 2. clear. induction (seq 0 (length cand)) as [|x l IH]; auto.
        simpl. destruct (x =? b) eqn:E; simpl; rewrite ?E; simpl; auto. destruct (mem x l1); simpl; auto. now f_equal. }
      now rewrite Hdd in H3.
  - cbn [bind] in H. rewrite Hd in H.
    assert (K : l_best L = false \/ prev0 <> []).
    { apply andb_false_iff in EB. destruct EB as [EB|EB]; auto. right. intro; subst. discriminate. }
    apply sel_loop_spec in H; auto. destruct H as [l1 [l2 [Ho [H1 [H2 Hl]]]]].
    exists [], l1, l2. split; [exact Ho|]. split; [exact Hl|]. split; [left; auto|].
    assert (HdP : forall A, diff A [] = A). { intro A. unfold diff. simpl. clear. induction A; simpl; congruence. }
    rewrite !HdP. split; auto. destruct H2 as [->|[H2 H3]]; auto. right. split; auto. now rewrite Hd in H3.
Qed.

Lemma get_prefered_NoDup d cand p P : get_prefered_set_of_pts d cand p = Ok P -> NoDup P.
Proof.
  unfold get_prefered_set_of_pts, pareto_set. destruct p as [|s|l| |z|]; intro H.
  - destruct d; [destruct (get_pareto _ _); inversion H; apply set_of_NoDup|inversion H; apply seq_NoDup].
  - inversion H. apply set_of_NoDup.
  - inversion H. apply set_of_NoDup.
  - destruct (get_pareto _ _); inversion H. apply set_of_NoDup.
  - destruct (z =? 0)%Z; [inversion H; apply seq_NoDup|]. destruct (z <? 0)%Z; inversion H. apply seq_NoDup.
  - discriminate.
Qed.

Lemma NoDup_app_intro2 {A} (l1 l2 : list A) : NoDup l1 -> NoDup l2 -> (forall x, In x l1 -> In x l2 -> False) -> NoDup (l1 ++ l2).
Proof.
  induction 1 as [|x l Hx Hl IH]; intros H2 Hd; simpl; auto. constructor.
  - rewrite in_app_iff. intros [K|K]; [tauto|]. apply (Hd x); [now left|auto].
  - apply IH; auto. intros y Hy. apply Hd. now right.
Qed.
Lemma NoDup_app_intro3 {A} (l0 l1 l2 : list A) : NoDup l0 -> NoDup l1 -> NoDup l2 ->
  (forall x, In x l0 -> In x l1 -> False) -> (forall x, In x l0 -> In x l2 -> False) ->
  (forall x, In x l1 -> In x l2 -> False) -> NoDup (l0 ++ l1 ++ l2).
Proof.
  intros H0 H1 H2 H01 H02 H12. apply NoDup_app_intro2; auto. { apply NoDup_app_intro2; auto. }
  intros x Hx Hy. rewrite in_app_iff in Hy. destruct Hy; eauto.
Qed.

Section select.
Context (L : learner) (cand : list row) (mu : list Q) (n0 : nat) (prev0 : list nat) (p : prefer) (pf : bool) (P : list nat).
Hypothesis Hpair : pf = false \/ l_pair L = None.
Hypothesis He : enumerates (l_enum L).
Hypothesis Hmu : length mu = length cand.
Hypothesis HP : get_prefered_set_of_pts (l_pareto L) cand p = Ok P.
Hypothesis HPr : forall i, In i P -> i < length cand.
Let n := num_alts_of L n0.
Hypothesis Hn : l_best L = true -> prev0 = [] -> 1 <= n.

Lemma select_good out : select L cand mu n0 prev0 p pf = Ok out ->
  good_selection (length cand) n prev0 out /\ preferred_first (length cand) prev0 P out.
Proof.
  intro H. destruct (select_shape _ _ _ _ _ _ _ _ _ Hpair He Hmu HP H) as [l0 [l1 [l2 [Ho [Hl [H0 [H1 H2]]]]]]].
  assert (HPn := get_prefered_NoDup _ _ _ _ HP).
  destruct (picks_spec _ _ _ H1) as [N1 I1]; [apply diff_NoDup, diff_NoDup; auto|].
  assert (N2 : NoDup l2 /\ forall i, In i l2 -> In i (diff (diff (seq 0 (length cand)) prev0) (l0 ++ l1))).
  { destruct H2 as [->|[_ H2]]; [split; [constructor|intros ? []]|]. apply (picks_spec _ _ _ H2). apply diff_NoDup, diff_NoDup, seq_NoDup. }
  destruct N2 as [N2 I2].
  assert (H0' : length l0 <= n /\ NoDup l0 /\ forall i, In i l0 -> allowed (length cand) prev0 i).
  { destruct H0 as [[-> _]|[Hb [Hp0 [b [-> Hb']]]]]; [split; [simpl; lia|split; [constructor|intros ? []]]|].
    split; [simpl; auto|]. split; [repeat constructor; intros []|]. subst prev0. intros i [<-|[]]. split; auto.
    destruct Hb' as [[K _]|[_ [K _]]]; auto. }
  destruct H0' as [L0 [N0 I0]].
  assert (G : forall i, In i out -> allowed (length cand) prev0 i).
  { intros i Hi. rewrite Ho, !in_app_iff in Hi. destruct Hi as [Hi|[Hi|Hi]]; auto.
    - apply I1 in Hi. rewrite !diff_In in Hi. split; [apply HPr|]; tauto.
    - apply I2 in Hi. rewrite !diff_In, in_seq in Hi. split; [lia|tauto]. }
  split; [split; [|split; [|exact G]]|].
  - rewrite Hl. fold n. lia.
  - rewrite Ho. apply NoDup_app_intro3; auto.
    + intros x Hx Hy. apply I1 in Hy. rewrite diff_In in Hy. tauto.
    + intros x Hx Hy. apply I2 in Hy. rewrite diff_In, in_app_iff in Hy. tauto.
    + intros x Hx Hy. apply I2 in Hy. rewrite diff_In, in_app_iff in Hy. tauto.
  - destruct H0 as [[-> _]|[Hb [Hp0 [b [-> Hb']]]]].
    + exists l1, l2. simpl in *. split; auto. split; [intros i Hi; apply I1 in Hi; rewrite !diff_In in Hi; tauto|].
      assert (Hfull : l2 <> [] -> forall i, In i P -> allowed (length cand) prev0 i -> In i l1).
      { intros Hne i Hi [_ Ha]. destruct H2 as [?|[H2 _]]; [tauto|].
        apply (picks_full _ _ _ H1); auto; [apply diff_NoDup, diff_NoDup; auto|]. rewrite !diff_In. simpl. tauto. }
      split; [|exact Hfull]. intros i Hi Hip. assert (K := I2 i Hi). rewrite !diff_In in K.
      apply K. apply Hfull; auto; [destruct l2; [destruct Hi|discriminate]|]. apply G. rewrite Ho, in_app_iff. tauto.
    + assert (Hfull : l2 <> [] -> forall i, In i P -> allowed (length cand) prev0 i -> i <> b -> In i l1).
      { intros Hne i Hi [_ Ha] Hib. destruct H2 as [?|[H2 _]]; [tauto|].
        apply (picks_full _ _ _ H1); auto; [apply diff_NoDup, diff_NoDup; auto|]. rewrite !diff_In. simpl. intuition. }
      assert (Hout : forall i, In i l2 -> ~ In i P \/ i = b).
      { intros i Hi. destruct (Nat.eq_dec i b); auto. left. intro Hip. assert (K := I2 i Hi). rewrite !diff_In in K.
        apply K. rewrite in_app_iff. right. apply Hfull; auto; [destruct l2; [destruct Hi|discriminate]|].
        apply G. rewrite Ho, !in_app_iff. auto. }
      assert (Hb2 : ~ In b l2). { intro Hi. apply I2 in Hi. rewrite !diff_In in Hi. simpl in Hi. tauto. }
      destruct Hb' as [[Kb _]|[Kb _]].
      * exists (b :: l1), l2. split; auto. split; [|split].
        -- intros i [<-|Hi]; auto. apply I1 in Hi. rewrite !diff_In in Hi. tauto.
        -- intros i Hi. destruct (Hout i Hi); auto. subst. tauto.
        -- intros Hne i Hi Ha. destruct (Nat.eq_dec i b) as [->|Hib]; [now left|right]. auto.
      * exists [], out. split; auto. split; [intros ? []|]. split; [intros i _; apply Kb|]. intros _ i Hi. elim (Kb i Hi).
Qed.

Lemma select_total : answers (l_greedy L) (length cand) ->
  (exists out, select L cand mu n0 prev0 p pf = Ok out /\ n <= n_allowed (length cand) prev0) \/
  (select L cand mu n0 prev0 p pf = Raise GenericException /\ n_allowed (length cand) prev0 < n).
Proof.
  intro HG.
  assert (T : (exists out, select L cand mu n0 prev0 p pf = Ok out) \/
              (select L cand mu n0 prev0 p pf = Raise GenericException /\ n_allowed (length cand) prev0 < n)).
  { unfold select, sel_start. rewrite HP. cbn [bind]. fold n.
    assert (HPn := get_prefered_NoDup _ _ _ _ HP).
    destruct (l_best L && (length (set_of prev0) =? 0)) eqn:EB.
    - apply andb_true_iff in EB. destruct EB as [EB EL]. apply Nat.eqb_eq in EL.
      assert (Hp0 : prev0 = []).
      { destruct prev0 as [|x l]; auto. exfalso. assert (K : In x (set_of (x :: l))) by (apply set_of_In; now left).
        destruct (set_of (x :: l)); [destruct K|discriminate]. }
      rewrite Hp0 in *. specialize (Hn EB eq_refl).
      destruct (select_best_total L mu P (set_of []) He) as [[b Hb]|[Hb Hall]]; [intros; rewrite Hmu; auto| |].
      + rewrite Hb. cbn [bind].
        destruct (sel_loop_total L pf n (length cand) [b] Hpair HG n 0 (diff P [b]) None [b]) as [[out Ho]|[Ho [l [Hl1 Hl2]]]].
        * simpl. lia.
        * intros i Hi. apply diff_In in Hi. apply HPr. tauto.
        * now apply diff_NoDup.
        * intros i Hi. apply diff_In in Hi. tauto.
        * left. eauto.
        * right. split; auto. eapply n_allowed_bound; [exact Hl1|]. intros i Hi _. apply Hl2.
          destruct (in_dec Nat.eq_dec i [b]); auto.
      + rewrite Hb. cbn [bind]. right. split; auto. apply (n_allowed_bound _ _ []); [simpl; lia|].
        intros i Hi _. rewrite <- Hmu in Hi. apply Hall in Hi. exact Hi.
    - cbn [bind].
      destruct (sel_loop_total L pf n (length cand) (set_of prev0) Hpair HG n 0 (diff P (set_of prev0)) None []) as [[out Ho]|[Ho [l [Hl1 Hl2]]]].
      + simpl. lia.
      + intros i Hi. apply diff_In in Hi. apply HPr. tauto.
      + now apply diff_NoDup.
      + intros i Hi. apply diff_In in Hi. simpl. tauto.
      + left. eauto.
      + right. split; auto. eapply n_allowed_bound; [exact Hl1|]. intros i Hi Hni. apply Hl2. right. split; auto.
        now rewrite set_of_In. }
  destruct T as [[out T]|T]; auto. left. exists out. split; auto.
  destruct (select_good out T) as [[G1 [G2 G3]] _]. rewrite <- G1. now apply n_allowed_enough.
Qed.

(** selections of learners whose choice is not beaten by any offered candidate *)
Lemma select_ranked (le : nat -> nat -> Prop) out :
  (forall S i, NoDup S -> (forall j, In j S -> j < length cand) -> chosen L S i -> forall y, In y S -> le y i) ->
  l_best L = false ->
  select L cand mu n0 prev0 p pf = Ok out ->
  exists l1 l2, out = l1 ++ l2 /\ ranked le (fun y => In y P /\ allowed (length cand) prev0 y) l1 /\
    ranked le (fun y => ~ In y P /\ allowed (length cand) prev0 y) l2 /\ (l2 <> [] -> forall i, In i P -> allowed (length cand) prev0 i -> In i l1).
Proof.
  intros Hc Hb H. destruct (select_shape _ _ _ _ _ _ _ _ _ Hpair He Hmu HP H) as [l0 [l1 [l2 [Ho [Hl [H0 [H1 H2]]]]]]].
  destruct H0 as [[-> _]|[K _]]; [|congruence]. simpl in *.
  assert (HPn := get_prefered_NoDup _ _ _ _ HP).
  exists l1, l2. split; auto.
  assert (R1 : ranked le (fun y => In y (diff (diff P prev0) [])) l1).
  { eapply picks_ranked; [exact Hc|exact H1|apply diff_NoDup, diff_NoDup; auto|].
    intros j Hj. rewrite !diff_In in Hj. apply HPr. tauto. }
  assert (Hfull : l2 <> [] -> forall i, In i P -> allowed (length cand) prev0 i -> In i l1).
  { intros Hne i Hi [_ Ha]. destruct H2 as [?|[H2 _]]; [tauto|].
    apply (picks_full _ _ _ H1); auto; [apply diff_NoDup, diff_NoDup; auto|]. rewrite !diff_In. simpl. tauto. }
  split; [|split; [|exact Hfull]].
  - destruct R1 as [Ra Rb]. split; auto. intros x y Hx [Hy Hy'] Hny. apply Rb; auto. rewrite !diff_In. simpl. split; [|tauto].
    split; auto. apply Hy'.
  - destruct H2 as [->|[H2 H3]]; [split; [constructor|intros ? ? []]|].
    assert (R2 : ranked le (fun y => In y (diff (diff (seq 0 (length cand)) prev0) l1)) l2).
    { eapply picks_ranked; [exact Hc|exact H3|apply diff_NoDup, diff_NoDup, seq_NoDup|].
      intros j Hj. rewrite !diff_In, in_seq in Hj. lia. }
    destruct R2 as [Ra Rb]. split; auto. intros x y Hx [Hy Hy'] Hny. apply Rb; auto. rewrite !diff_In, in_seq.
    destruct Hy' as [Hy1 Hy2]. split; [split; auto; lia|]. intro K. apply Hy.
    destruct (picks_spec _ _ _ H1) as [_ I1]; [apply diff_NoDup, diff_NoDup; auto|]. apply I1 in K. rewrite !diff_In in K. tauto.
Qed.
Lemma select_best_first out : l_best L = true -> prev0 = [] -> select L cand mu n0 prev0 p pf = Ok out ->
  exists b rest, out = b :: rest /\
    (P <> [] -> In b P /\ forall j, In j P -> val_le mu j b) /\
    (P = [] -> forall j, j < length cand -> val_le mu j b).
Proof.
  intros Hb Hp0 H. destruct (select_shape _ _ _ _ _ _ _ _ _ Hpair He Hmu HP H) as [l0 [l1 [l2 [Ho [Hl [H0 [H1 H2]]]]]]].
  destruct H0 as [[_ [K|K]]|[_ [_ [b [-> Hb']]]]]; try congruence.
  exists b, (l1 ++ l2). split; auto. split.
  - intro Hne. destruct Hb' as [K|[K _]]; auto. destruct P as [|x l]; [congruence|]. elim (K x). now left.
  - intros He'. destruct Hb' as [[K _]|[_ [_ K]]]; auto. rewrite He' in K. destruct K.
Qed.
End select.

(** ---- return_not_selected ---- *)
Lemma place_cases pref notsel sel i : NoDup pref ->
  (In i pref /\ place pref notsel sel i = (remove_first i pref, notsel, sel ++ [i])) \/
  (pref = [] /\ place pref notsel sel i = ([], notsel, sel ++ [i])) \/
  (~ In i pref /\ pref <> [] /\ place pref notsel sel i = (pref, notsel ++ [i], sel)).
Proof.
  intro Hn. unfold place. destruct (mem i pref) eqn:E.
  - left. apply mem_In in E. auto.
  - apply mem_false in E. destruct pref as [|x l]; [right; left|right; right]; simpl; auto. split; auto. split; [discriminate|auto].
Qed.

Section ns.
Context (L : learner) (pf : bool) (n N : nat) (prev : list nat).
Hypothesis Hpair : pf = false \/ l_pair L = None.
Hypothesis HG : answers (l_greedy L) N.

Lemma no_pair3 b c : (if b && pf && c then l_pair L else None) = None.
Proof. destruct Hpair as [->| ->]; simpl; [now rewrite andb_false_r|]. now destruct (b && pf && c). Qed.

Lemma ns_loop_spec : forall fuel k pref al notsel sel,
  n - length sel + length al <= fuel -> length sel <= n ->
  NoDup (al ++ notsel ++ sel) -> NoDup pref -> (forall i, In i pref -> In i al) -> (forall i, In i al -> i < N) ->
  exists l1 l2 notsel', ns_loop L pf n prev fuel k pref al notsel sel = Ok (sel ++ l1 ++ l2, notsel') /\
    NoDup ((sel ++ l1 ++ l2) ++ notsel') /\
    (forall i, In i ((l1 ++ l2) ++ notsel') -> In i (al ++ notsel)) /\
    length (sel ++ l1 ++ l2) <= n /\
    (forall i, In i l1 -> In i pref) /\ (forall i, In i l2 -> ~ In i pref) /\
    (l2 <> [] -> forall i, In i pref -> In i l1) /\
    (length (sel ++ l1 ++ l2) = n \/ (forall i, In i pref -> In i l1) /\ forall i, In i (al ++ notsel) -> In i ((l1 ++ l2) ++ notsel')).
Proof.
  induction fuel as [|fuel IH]; intros k pref al notsel sel Hf Hs Hnd Hnp Hpa Hr.
  - assert (length sel = n /\ al = []) as [E1 E2] by (destruct al; simpl in *; split; try lia; auto).
    subst al. exists [], [], notsel. cbn [ns_loop]. rewrite (proj2 (Nat.leb_le _ _)) by lia. simpl. rewrite app_nil_r.
    split; auto. split. { apply Permutation_NoDup with (notsel ++ sel); auto. apply Permutation_app_comm. }
    repeat split; auto; try lia; tauto.
  - cbn [ns_loop]. destruct (Nat.leb_spec n (length sel)) as [Hle|Hlt].
    + cbn [orb]. exists [], [], notsel. simpl. rewrite app_nil_r. split; auto.
      split. { apply Permutation_NoDup with (notsel ++ sel); [apply Permutation_app_comm|]. now apply NoDup_app_r in Hnd. }
      split. { intros i Hi. rewrite in_app_iff. auto. }
      repeat split; auto; try lia; tauto.
    + cbn [orb]. destruct al as [|a0 al0] eqn:Ea.
      * simpl. exists [], [], notsel. simpl. rewrite app_nil_r. split; auto.
        split. { apply Permutation_NoDup with (notsel ++ sel); auto. apply Permutation_app_comm. }
        repeat split; auto; try lia; try tauto.
      * rewrite <- Ea in *. assert (Hne : al <> []) by (rewrite Ea; discriminate).
        replace (length al =? 0) with false by (rewrite Ea; reflexivity). clear Ea a0 al0.
        assert (Hgreedy : exists i, In i al /\ l_greedy L k al (union prev sel) = Ok i).
        { destruct (HG k al (union prev sel) Hne Hr) as [i [K1 K2]]. eauto. }
        assert (Hstep : exists l1 l2 notsel',
          (do i <- l_greedy L k al (union prev sel);
           let '(pref', notsel'', sel') := place pref notsel sel i in
           ns_loop L pf n prev fuel (S k) pref' (remove_first i al) notsel'' sel') = Ok (sel ++ l1 ++ l2, notsel') /\
          NoDup ((sel ++ l1 ++ l2) ++ notsel') /\
          (forall i, In i ((l1 ++ l2) ++ notsel') -> In i (al ++ notsel)) /\
          length (sel ++ l1 ++ l2) <= n /\
          (forall i, In i l1 -> In i pref) /\ (forall i, In i l2 -> ~ In i pref) /\
          (l2 <> [] -> forall i, In i pref -> In i l1) /\
          (length (sel ++ l1 ++ l2) = n \/ (forall i, In i pref -> In i l1) /\ forall i, In i (al ++ notsel) -> In i ((l1 ++ l2) ++ notsel'))).
        { destruct Hgreedy as [i [Hi G]]. rewrite G. cbn [bind].
          assert (Hal : NoDup al) by (now apply NoDup_app_l in Hnd).
          assert (Hperm : Permutation (al ++ notsel ++ sel) (i :: remove_first i al ++ notsel ++ sel)).
          { change (i :: remove_first i al ++ notsel ++ sel) with ((i :: remove_first i al) ++ notsel ++ sel).
            apply Permutation_app_tail. now apply remove_first_perm. }
          assert (Hlen : length al = S (length (remove_first i al))) by (now apply remove_first_length).
          destruct (place_cases pref notsel sel i Hnp) as [[Hip ->]|[[Hpe ->]|[Hip [Hpne ->]]]].
          - destruct (IH (S k) (remove_first i pref) (remove_first i al) notsel (sel ++ [i]))
              as [l1 [l2 [ns' [E [H1 [H2 [H3 [H4 [H5 [H6 H7]]]]]]]]]].
            + rewrite app_length. simpl. lia.
            + rewrite app_length. simpl. lia.
            + eapply Permutation_NoDup; [|exact Hnd]. rewrite Hperm. rewrite (app_assoc notsel), (app_assoc (remove_first i al)).
              rewrite Permutation_cons_append. now rewrite !app_assoc.
            + now apply remove_first_NoDup.
            + intros j Hj. apply remove_first_In_iff in Hj; auto. apply remove_first_In_iff; auto. split; [apply Hpa|]; tauto.
            + intros j Hj. apply remove_first_In in Hj. auto.
            + exists (i :: l1), l2, ns'. assert (Eq : (sel ++ [i]) ++ l1 ++ l2 = sel ++ (i :: l1) ++ l2) by now rewrite <- app_assoc.
              rewrite Eq in *. split; auto. split; auto. split.
              { intros j Hj. simpl in Hj. rewrite in_app_iff. destruct Hj as [<-|Hj]; auto. apply H2 in Hj. rewrite in_app_iff in Hj.
                destruct Hj as [Hj|Hj]; auto. apply remove_first_In in Hj. auto. }
              split; auto. split. { intros j [<-|Hj]; auto. apply H4 in Hj. now apply remove_first_In in Hj. }
              split. { intros j Hj Hjp. apply (H5 j Hj). apply remove_first_In_iff; auto. split; auto. intro; subst.
                apply NoDup_app_l in H1. apply NoDup_app_r in H1. simpl in H1. inversion H1 as [|? ? Hx _]; subst. apply Hx. rewrite in_app_iff. auto. }
              split. { intros Hl2 j Hj. destruct (Nat.eq_dec j i) as [->|Hji]; [now left|right]. apply H6; auto. apply remove_first_In_iff; auto. }
              destruct H7 as [H7|[H7 H8]]; auto. right. split.
              { intros j Hj. destruct (Nat.eq_dec j i) as [->|Hji]; [now left|right]. apply H7. apply remove_first_In_iff; auto. }
              intros j Hj. destruct (Nat.eq_dec j i) as [->|Hji]; [now left|right]. apply H8. rewrite in_app_iff in *.
              destruct Hj as [Hj|Hj]; auto. left. apply remove_first_In_iff; auto.
          - subst pref. destruct (IH (S k) [] (remove_first i al) notsel (sel ++ [i]))
              as [l1 [l2 [ns' [E [H1 [H2 [H3 [H4 [H5 [H6 H7]]]]]]]]]].
            + rewrite app_length. simpl. lia.
            + rewrite app_length. simpl. lia.
            + eapply Permutation_NoDup; [|exact Hnd]. rewrite Hperm. rewrite (app_assoc notsel), (app_assoc (remove_first i al)).
              rewrite Permutation_cons_append. now rewrite !app_assoc.
            + constructor.
            + intros j [].
            + intros j Hj. apply remove_first_In in Hj. auto.
            + assert (l1 = []) by (destruct l1 as [|x l1]; auto; destruct (H4 x); now left). subst l1. simpl in *.
              exists [], (i :: l2), ns'. simpl. assert (Eq : (sel ++ [i]) ++ l2 = sel ++ i :: l2) by now rewrite <- app_assoc.
              rewrite Eq in *. split; auto. split; auto. split.
              { intros j [<-|Hj]; rewrite in_app_iff; auto. apply H2 in Hj. rewrite in_app_iff in Hj.
                destruct Hj as [Hj|Hj]; auto. apply remove_first_In in Hj. auto. }
              split; auto. split; [tauto|]. split; [tauto|]. split; [tauto|].
              destruct H7 as [H7|[H7 H8]]; auto. right. split; [tauto|].
              intros j Hj. destruct (Nat.eq_dec j i) as [->|Hji]; [now left|right]. apply H8. rewrite in_app_iff in *.
              destruct Hj as [Hj|Hj]; auto. left. apply remove_first_In_iff; auto.
          - destruct (IH (S k) pref (remove_first i al) (notsel ++ [i]) sel)
              as [l1 [l2 [ns' [E [H1 [H2 [H3 [H4 [H5 [H6 H7]]]]]]]]]].
            + lia.
            + lia.
            + eapply Permutation_NoDup; [|exact Hnd]. rewrite Hperm. rewrite <- app_assoc. simpl.
              rewrite (app_assoc (remove_first i al)), (app_assoc (remove_first i al)). apply Permutation_cons_app. reflexivity.
            + auto.
            + intros j Hj. apply remove_first_In_iff; auto. split; auto. intro; subst; tauto.
            + intros j Hj. apply remove_first_In in Hj. auto.
            + exists l1, l2, ns'. split; auto. split; auto. split.
              { intros j Hj. apply H2 in Hj. rewrite !in_app_iff in *. destruct Hj as [Hj|[Hj|[<-|[]]]]; auto.
                left. now apply remove_first_In in Hj. }
              split; auto. split; auto. split; auto. split; auto.
              destruct H7 as [H7|[H7 H8]]; auto. right. split; auto.
              intros j Hj. apply H8. rewrite !in_app_iff in *. simpl. destruct (Nat.eq_dec i j) as [->|Hji]; auto.
              destruct Hj as [Hj|Hj]; auto. left. apply remove_first_In_iff; auto. }
        rewrite no_pair3. destruct pref as [|p0 pref0]; [|exact Hstep].
        destruct notsel as [|i notsel0]; [exact Hstep|]. clear Hstep Hgreedy.
        (* a not-selected point is taken back *)
        unfold place. cbn [mem existsb length orb Nat.eqb remove_first].
        assert (Hi : ~ In i al). { intro K. apply (NoDup_app_disj _ _ i Hnd K). now left. }
        rewrite (remove_first_notin i al Hi).
        destruct (IH (S k) [] al notsel0 (sel ++ [i])) as [l1 [l2 [ns' [E [H1 [H2 [H3 [H4 [H5 [H6 H7]]]]]]]]]].
        -- rewrite app_length. simpl. lia.
        -- rewrite app_length. simpl. lia.
        -- eapply Permutation_NoDup; [|exact Hnd]. apply Permutation_app_head. simpl. rewrite app_assoc.
           apply Permutation_cons_append.
        -- constructor.
        -- intros j [].
        -- auto.
        -- assert (l1 = []) by (destruct l1 as [|x l1]; auto; destruct (H4 x); now left). subst l1. simpl in *.
           exists [], (i :: l2), ns'. simpl. assert (Eq : (sel ++ [i]) ++ l2 = sel ++ i :: l2) by now rewrite <- app_assoc.
           rewrite Eq in *. split; auto. split; auto. split.
           { intros j [<-|Hj]; rewrite in_app_iff; simpl; auto. apply H2 in Hj. rewrite in_app_iff in Hj. tauto. }
           split; auto. split; [tauto|]. split; [tauto|]. split; [tauto|].
           destruct H7 as [H7|[H7 H8]]; auto. right. split; [tauto|].
           intros j Hj. rewrite in_app_iff in Hj. simpl in Hj. destruct Hj as [Hj|[Hj|Hj]]; auto; right; apply H8; rewrite in_app_iff; auto.
Qed.
End ns.

Section select_ns.
Context (L : learner) (cand : list row) (mu : list Q) (n0 : nat) (prev0 : list nat) (p : prefer) (pf : bool) (P : list nat) (fuel : nat).
Hypothesis Hpair : pf = false \/ l_pair L = None.
Hypothesis He : enumerates (l_enum L).
Hypothesis Hmu : length mu = length cand.
Hypothesis HP : get_prefered_set_of_pts (l_pareto L) cand p = Ok P.
Hypothesis HPr : forall i, In i P -> i < length cand.
Let n := num_alts_of L n0.
Hypothesis Hn : l_best L = true -> prev0 = [] -> 1 <= n.
Hypothesis HG : answers (l_greedy L) (length cand).
Hypothesis Hfuel : n + length cand <= fuel.

Lemma ns_finish prev sel0 pref :
  (sel0 = [] /\ prev = set_of prev0 /\ pref = diff P prev \/
   exists b, sel0 = [b] /\ prev = [b] /\ prev0 = [] /\ pref = diff P [b] /\ b < length cand /\ (P = [] \/ In b P) /\ 1 <= n) ->
  (exists sel ns, (do r <- ns_loop L pf n prev fuel 0 pref (diff (diff (seq 0 (length cand)) prev) sel0) [] sel0;
    if length (fst r) =? n then Ok r else Raise GenericException) = Ok (sel, ns) /\
    good_selection (length cand) n prev0 sel /\ preferred_first (length cand) prev0 P sel /\
    NoDup (sel ++ ns) /\ forall i, In i ns -> allowed (length cand) prev0 i) \/
  ((do r <- ns_loop L pf n prev fuel 0 pref (diff (diff (seq 0 (length cand)) prev) sel0) [] sel0;
    if length (fst r) =? n then Ok r else Raise GenericException) = Raise GenericException /\
    n_pref_allowed (length cand) prev0 P < n /\
    exists sel ns, length sel < n /\ (forall i, i < length cand -> ~ In i prev0 -> In i (sel ++ ns))).
Proof.
  intro Hst. assert (HPn := get_prefered_NoDup _ _ _ _ HP).
  set (al := diff (diff (seq 0 (length cand)) prev) sel0).
  assert (Hal : forall i, In i al <-> i < length cand /\ ~ In i prev /\ ~ In i sel0).
  { intro i. unfold al. rewrite !diff_In, in_seq. split; [tauto|]. intros [K1 [K2 K3]]. repeat split; auto; lia. }
  assert (Haln : NoDup al) by (apply diff_NoDup, diff_NoDup, seq_NoDup).
  assert (Hall : length al <= length cand).
  { rewrite <- (seq_length (length cand) 0). apply NoDup_incl_length; auto. intros i Hi. apply Hal in Hi. apply in_seq. lia. }
  assert (Hs0 : forall i, In i sel0 -> allowed (length cand) prev0 i).
  { destruct Hst as [[-> _]|[b [-> [_ [-> [_ [Hb _]]]]]]]; [intros i []|]. intros i [<-|[]]. split; auto. }
  assert (Hprev : forall i, ~ In i prev <-> (~ In i prev0 /\ ~ In i sel0)).
  { destruct Hst as [[-> [-> _]]|[b [-> [-> [-> _]]]]]; intro i; [rewrite set_of_In|]; simpl; tauto. }
  assert (Hpr : forall i, In i pref <-> In i P /\ ~ In i prev).
  { destruct Hst as [[_ [_ ->]]|[b [_ [-> [_ [-> _]]]]]]; intro i; now rewrite diff_In. }
  assert (Hprn : NoDup pref).
  { destruct Hst as [[_ [_ ->]]|[b [_ [_ [_ [-> _]]]]]]; now apply diff_NoDup. }
  destruct (ns_loop_spec L pf n (length cand) prev Hpair HG fuel 0 pref al [] sel0)
    as [l1 [l2 [ns [E [H1 [H2 [H3 [H4 [H5 [H6 H7]]]]]]]]]].
  - lia.
  - destruct Hst as [[-> _]|[b [-> K]]]; simpl; [lia|tauto].
  - simpl. apply NoDup_app_intro2; auto.
    + destruct Hst as [[-> _]|[b [-> _]]]; [constructor|]. constructor; [tauto|constructor].
    + intros x Hx Hy. apply Hal in Hx. tauto.
  - auto.
  - intros i Hi. apply Hpr in Hi. apply Hal. destruct Hi as [K1 K2]. split; auto. split; auto. apply Hprev in K2. tauto.
  - intros i Hi. apply Hal in Hi. tauto.
  - rewrite app_nil_r in *. fold al. rewrite E. cbn [bind fst].
    assert (Hcov : forall i, In i ((l1 ++ l2) ++ ns) -> allowed (length cand) prev0 i).
    { intros i Hi. apply H2, Hal in Hi. split; [tauto|]. destruct Hi as [_ [K _]]. apply Hprev in K. tauto. }
    destruct (Nat.eqb_spec (length (sel0 ++ l1 ++ l2)) n) as [Hl|Hl].
    + left. exists (sel0 ++ l1 ++ l2), ns. split; auto. split.
      { split; auto. split; [now apply NoDup_app_l in H1|]. intros i Hi. rewrite in_app_iff in Hi. destruct Hi as [Hi|Hi]; auto.
        apply Hcov. rewrite in_app_iff. auto. }
      split.
      { destruct Hst as [[K0 [K1 K2]]|[b [K0 [K1 [K2 [K3 [K4 [K5 K6]]]]]]]].
        - subst sel0. exists l1, l2. split; auto. split; [intros i Hi; apply H4, Hpr in Hi; tauto|]. split.
          + intros i Hi HiP. apply (H5 i Hi). apply Hpr. split; auto. assert (allowed (length cand) prev0 i) as [_ Ha].
            { apply Hcov. rewrite !in_app_iff. auto. } rewrite Hprev. simpl. auto.
          + intros Hne i Hi [_ Ha]. apply H6; auto. apply Hpr. split; auto. rewrite Hprev. simpl. auto.
        - destruct K5 as [K5|K5].
          + assert (pref = []) by (rewrite K3, K5; reflexivity).
            assert (l1 = []) by (destruct l1 as [|x l1']; auto; exfalso; rewrite H in H4; apply (H4 x); now left). subst l1.
            exists [], (sel0 ++ l2). split; auto. rewrite K5. simpl. repeat split; tauto.
          + exists (sel0 ++ l1), l2. split; [now rewrite app_assoc|]. rewrite K0 in *. split.
            { intros i Hi. simpl in Hi. destruct Hi as [<-|Hi]; auto. apply H4, Hpr in Hi. tauto. }
            assert (Hb2 : ~ In b l2). { intro K. apply NoDup_app_l in H1. simpl in H1. inversion H1 as [|? ? Hx _]. apply Hx. rewrite in_app_iff. auto. }
            split.
            { intros i Hi HiP. apply (H5 i Hi). apply Hpr. split; auto. rewrite K1. intros [<-|[]]; auto. }
            intros Hne i Hi _. simpl. destruct (Nat.eq_dec b i) as [|Hbi]; auto. right. apply H6; auto. apply Hpr. split; auto.
            rewrite K1. intros [|[]]; auto. }
      split; auto. intros i Hi. apply Hcov. rewrite in_app_iff. auto.
    + right. split; auto. destruct H7 as [H7|[H7 H8]]; [lia|].
      assert (Hlt : length (sel0 ++ l1 ++ l2) < n) by lia. split.
      * eapply Nat.le_lt_trans; [|exact Hlt]. apply NoDup_incl_length; [now apply NoDup_filter|].
        intros i Hi. apply filter_In in Hi. destruct Hi as [HiP Hi]. destruct (in_dec Nat.eq_dec i prev0); [discriminate|].
        rewrite in_app_iff. destruct (in_dec Nat.eq_dec i sel0); auto. right. rewrite in_app_iff. left. apply H7. apply Hpr.
        split; auto. apply Hprev. auto.
      * exists (sel0 ++ l1 ++ l2), ns. split; auto. intros i Hi Hp0. rewrite <- app_assoc, in_app_iff.
        destruct (in_dec Nat.eq_dec i sel0); auto. right. apply H8. apply Hal. split; auto. split; auto. apply Hprev. auto.
Qed.

Lemma select_ns_cases :
  (exists sel ns, select_ns L cand mu n0 prev0 p pf fuel = Ok (sel, ns) /\
    good_selection (length cand) n prev0 sel /\ preferred_first (length cand) prev0 P sel /\
    NoDup (sel ++ ns) /\ forall i, In i ns -> allowed (length cand) prev0 i) \/
  (select_ns L cand mu n0 prev0 p pf fuel = Raise GenericException /\ n_pref_allowed (length cand) prev0 P < n).
Proof.
  assert (F := ns_finish).
  unfold select_ns, sel_start. rewrite HP. cbn [bind]. fold n.
  destruct (l_best L) eqn:Eb; cbn [andb]; [destruct (set_of prev0) as [|x l] eqn:Es|].
  - assert (Ep : prev0 = []).
    { destruct prev0 as [|y q]; auto. exfalso. assert (K : In y (set_of (y :: q))) by (apply set_of_In; now left).
      rewrite Es in K. destruct K. }
    cbn [length Nat.eqb]. destruct (select_best_total L mu P [] He) as [[b Hb]|[Hb Hc]].
    + rewrite Hmu. auto.
    + rewrite Hb. cbn [bind].
      destruct (F [b] [b] (diff P [b])) as [H|[H1 [H2 _]]].
      * right. exists b. do 4 (split; [auto; fail|]). split. { destruct (select_best_spec _ _ _ _ _ He Hb) as [[K _]|[_ [K _]]]; [auto|lia]. }
        split; [|auto]. destruct (select_best_spec _ _ _ _ _ He Hb) as [[K _]|[K _]]; auto. left.
        destruct P as [|y q]; auto. destruct (K y); now left.
      * left. exact H.
      * right. auto.
    + rewrite Hb. cbn [bind]. right. split; auto. assert (Hz : length cand = 0).
      { destruct (length cand) eqn:E; auto. destruct (Hc 0); lia. }
      rewrite Hz. replace (n_pref_allowed 0 prev0 P) with 0; [apply Hn; auto|].
      unfold n_pref_allowed. replace P with (@nil nat); auto. destruct P as [|y q]; auto. exfalso. specialize (HPr y (or_introl eq_refl)). lia.
  - cbn [length Nat.eqb]. rewrite <- Es. cbn [bind].
    destruct (F (set_of prev0) [] (diff P (set_of prev0))) as [H|[H1 [H2 _]]]; auto.
  - cbn [bind].
    destruct (F (set_of prev0) [] (diff P (set_of prev0))) as [H|[H1 [H2 _]]]; auto.
Qed.
End select_ns.

(** ---- what the concrete learners choose ---- *)
Lemma chosen_score {A} (ltb : A -> A -> bool) enum (score : nat -> result A) L S i :
  order_ok ltb -> (forall k, enumerates (enum k)) -> l_greedy L = score_greedy ltb enum (fun _ => score) -> chosen L S i ->
  forall y a b, In y S -> score y = Ok a -> score i = Ok b -> ltb b a = false.
Proof.
  intros Ho He Hg [k [P Hc]] y a b Hy Ha Hb. rewrite Hg in Hc. unfold score_greedy in Hc.
  destruct (pick_extreme_spec _ _ _ _ Ho Hc) as [_ [m [Hm Hmax]]]. rewrite Hb in Hm. inversion Hm; subst m.
  apply (Hmax y a); auto. eapply Permutation_in; [|exact Hy]. apply Permutation_sym, He.
Qed.

(** ---- pair learners ---- *)
Lemma sel_loop_no_pair_later L n N prev : forall fuel k pref allo sel, sel <> [] ->
  sel_loop L true n N prev fuel k pref allo sel = sel_loop L false n N prev fuel k pref allo sel.
Proof.
  induction fuel as [|fuel IH]; intros k pref allo sel Hs; cbn [sel_loop]; auto.
  destruct (n <=? length sel); auto. cbv zeta. destruct sel as [|s0 sel0] eqn:Es; [congruence|]. rewrite <- Es in *.
  replace (length sel =? 0) with false by (rewrite Es; reflexivity). cbn [andb].
  assert (Happ : forall i, sel ++ [i] <> []) by (intros i K; apply app_eq_nil in K; destruct K; discriminate).
  destruct pref as [|p0 pref0].
  - destruct (match allo with None => diff (diff (seq 0 N) prev) sel | Some a => a end) as [|a0 al0]; auto.
    destruct (l_greedy L k (a0 :: al0) (union prev sel)) as [i|e]; cbn [bind]; auto.
    destruct (set_remove i (a0 :: al0)) as [al'|e]; cbn [bind]; auto.
  - destruct (l_greedy L k (p0 :: pref0) (union prev sel)) as [i|e]; cbn [bind]; auto.
    destruct (set_remove i (p0 :: pref0)) as [al'|e]; cbn [bind]; auto.
Qed.

Lemma select_pair_good L f cand mu n0 prev0 p P :
  l_pair L = Some f -> answers_pairs f (length cand) -> answers (l_greedy L) (length cand) ->
  get_prefered_set_of_pts (l_pareto L) cand p = Ok P -> (forall i, In i P -> i < length cand) ->
  (l_best L = false \/ prev0 <> []) ->
  2 <= num_alts_of L n0 -> 2 <= n_pref_allowed (length cand) prev0 P -> num_alts_of L n0 <= n_allowed (length cand) prev0 ->
  exists out, select L cand mu n0 prev0 p true = Ok out /\
    good_selection (length cand) (num_alts_of L n0) prev0 out /\ preferred_first (length cand) prev0 P out.
Proof.
  intros Hp Hf HG HP HPr Hb Hn Hpa Hna. assert (HPn := get_prefered_NoDup _ _ _ _ HP). set (N := length cand) in *. set (n := num_alts_of L n0) in *.
  unfold select, sel_start. rewrite HP. cbn [bind].
  replace (l_best L && (length (set_of prev0) =? 0)) with false.
  2:{ destruct Hb as [->|Hb]; auto. destruct prev0 as [|x q]; [congruence|].
      assert (K : In x (set_of (x :: q))) by (apply set_of_In; now left). destruct (set_of (x :: q)); [destruct K|].
      simpl. now rewrite andb_false_r. }
  cbn [bind]. cbv zeta. fold n. fold N. set (prev := set_of prev0). set (pref := diff P prev).
  assert (Hpr : forall i, In i pref <-> In i P /\ ~ In i prev0) by (intro i; unfold pref, prev; now rewrite diff_In, set_of_In).
  assert (Hprn : NoDup pref) by now apply diff_NoDup.
  assert (Hlen : 2 <= length pref).
  { eapply Nat.le_trans; [exact Hpa|]. apply NoDup_incl_length; [now apply NoDup_filter|]. intros i Hi. apply filter_In in Hi.
    destruct Hi as [H1 H2]. apply Hpr. split; auto. destruct (in_dec Nat.eq_dec i prev0); [discriminate|auto]. }
  assert (Hprr : forall i, In i pref -> i < N) by (intros i Hi; apply HPr; apply Hpr in Hi; tauto).
  clearbody n. assert (En : n = S (pred n)) by lia. 
  replace (sel_loop L true n N prev n 0 pref None []) with (sel_loop L true n N prev (S (pred n)) 0 pref None []) by (now rewrite <- En).
  set (n1 := pred n) in *. cbn [sel_loop].
  replace (n <=? length (@nil nat)) with false by (symmetry; apply Nat.leb_gt; simpl; lia). cbv zeta. cbn [length Nat.eqb andb].
  destruct (Hf 0 pref (union prev []) Hprn Hlen Hprr) as [a [b [Ef [Ha [Hbb Hab]]]]].
  rewrite Hp. destruct pref as [|p0 pref0] eqn:Ep; [destruct Ha|]. rewrite <- Ep in *. rewrite Ef. cbn [bind fst snd app].
  rewrite sel_loop_no_pair_later by discriminate.
  set (pref2 := remove_first b (remove_first a pref)).
  assert (H2 : forall i, In i pref2 <-> In i pref /\ i <> a /\ i <> b).
  { intro i. unfold pref2. rewrite !remove_first_In_iff; auto; [tauto|]. now apply remove_first_NoDup. }
  assert (H2n : NoDup pref2) by (now apply remove_first_NoDup, remove_first_NoDup).
  assert (Hprevs : forall i, In i prev <-> In i prev0) by (intro; apply set_of_In).
  destruct (sel_loop_total L false n N prev (or_introl eq_refl) HG n1 1 pref2 None [a; b]) as [[out Ho]|[Ho [l [Hl1 Hl2]]]].
  - simpl. lia.
  - intros i Hi. apply Hprr. apply H2 in Hi. tauto.
  - auto.
  - intros i Hi. apply H2 in Hi. destruct Hi as [K1 [K2 K3]]. apply Hpr in K1. rewrite Hprevs. simpl. split; [tauto|]. intros [|[|[]]]; congruence.
  - exists out. split; auto.
    destruct (sel_loop_spec L false n N prev (or_introl eq_refl) _ _ _ _ _ Ho) as [l1 [l2 [Eo [P1 [P2 Lo]]]]].
    destruct (picks_spec _ _ _ P1 H2n) as [N1 I1].
    assert (N2 : NoDup l2 /\ forall i, In i l2 -> In i (diff (diff (seq 0 N) prev) ([a; b] ++ l1))).
    { destruct P2 as [->|[_ P2]]; [split; [constructor|intros ? []]|]. apply (picks_spec _ _ _ P2). apply diff_NoDup, diff_NoDup, seq_NoDup. }
    destruct N2 as [N2 I2].
    assert (G : forall i, In i out -> allowed N prev0 i).
    { intros i Hi. rewrite Eo, !in_app_iff in Hi. destruct Hi as [[<-|[<-|[]]]|[Hi|Hi]].
      - split; auto. now apply Hpr in Ha.
      - split; auto. now apply Hpr in Hbb.
      - apply I1, H2 in Hi. split; [apply Hprr; tauto|]. destruct Hi as [Hi _]. now apply Hpr in Hi.
      - apply I2 in Hi. rewrite !diff_In, in_seq, Hprevs in Hi. split; [lia|tauto]. }
    split; [split; [|split; [|exact G]]|].
    + rewrite Lo. simpl. lia.
    + rewrite Eo. apply NoDup_app_intro3; auto.
      * repeat constructor; simpl; intuition.
      * intros x Hx Hy. apply I1, H2 in Hy. simpl in Hx. intuition.
      * intros x Hx Hy. apply I2 in Hy. rewrite diff_In, in_app_iff in Hy. tauto.
      * intros x Hx Hy. apply I2 in Hy. rewrite diff_In, in_app_iff in Hy. tauto.
    + exists ([a; b] ++ l1), l2. split; [now rewrite <- app_assoc|].
      assert (Hfull : l2 <> [] -> forall i, In i P -> allowed N prev0 i -> In i ([a; b] ++ l1)).
      { intros Hne i Hi [_ Hi2]. destruct P2 as [?|[P2 _]]; [tauto|]. rewrite in_app_iff. simpl.
        destruct (Nat.eq_dec a i); auto. destruct (Nat.eq_dec b i); auto. right.
        apply (picks_full _ _ _ P1); auto. apply H2. split; [apply Hpr; auto|]. auto. }
      split; [|split; [|exact Hfull]].
      * intros i Hi. rewrite in_app_iff in Hi. destruct Hi as [[<-|[<-|[]]]|Hi].
        -- now apply Hpr in Ha.
        -- now apply Hpr in Hbb.
        -- apply I1, H2 in Hi. destruct Hi as [Hi _]. now apply Hpr in Hi.
      * intros i Hi HiP. assert (K := I2 i Hi). rewrite diff_In in K. apply K. apply Hfull; auto.
        { destruct l2; [destruct Hi|discriminate]. } apply G. rewrite Eo, !in_app_iff. auto.
  - exfalso. assert (K : n_allowed N prev0 < n); [|lia]. apply n_allowed_bound with (l := l); auto.
    intros i Hi Hi2. apply Hl2. right. rewrite Hprevs. auto.
Qed.

(** ---- pick_pair_from_metric ---- *)
Lemma num_same_from_spec N m srt first : forall fuel i, i <= num_same_from N m srt first (S fuel) i <= i + S fuel.
Proof.
  induction fuel as [|fuel IH]; intros i; cbn [num_same_from]; (destruct (nth_error srt i) as [k|]; [|lia]);
    (destruct (oQ_eqb (metric_at N m k) first); [|lia]); [cbn; lia|]. specialize (IH (S i)). cbn [num_same_from] in IH. lia.
Qed.
Lemma num_same_from_eq N m srt first : forall fuel i,
  (forall j k, j < i -> nth_error srt j = Some k -> oQ_eqb (metric_at N m k) first = true) ->
  forall j k, j < num_same_from N m srt first fuel i -> nth_error srt j = Some k -> oQ_eqb (metric_at N m k) first = true.
Proof.
  induction fuel as [|fuel IH]; intros i Hi j k Hj Hk; simpl in Hj; [apply (Hi j); auto; lia|].
  destruct (nth_error srt i) as [k1|] eqn:E; [|apply (Hi j); auto].
  destruct (oQ_eqb (metric_at N m k1) first) eqn:E2; [|apply (Hi j); auto].
  eapply (IH (S i)); eauto. intros j' k' Hj' Hk'. destruct (Nat.eq_dec j' i) as [->|]; [congruence|]. apply (Hi j'); auto. lia.
Qed.
Lemma oQ_eqb_refl a : oQ_eqb a a = true.
Proof. destruct a; simpl; auto. apply Qeq_bool_iff. reflexivity. Qed.
Lemma ext_le_refl a : ext_le a a.
Proof. destruct a; simpl; auto. apply Qle_refl. Qed.
Lemma ext_le_trans a b c : ext_le a b -> ext_le b c -> ext_le a c.
Proof. destruct a, b, c; simpl; try tauto. apply Qle_trans. Qed.
Lemma oQ_eqb_le a b : oQ_eqb a b = true -> ext_le a b /\ ext_le b a.
Proof. destruct a, b; simpl; try discriminate; auto. intro H. apply Qeq_bool_iff in H. split; rewrite H; apply Qle_refl. Qed.

Lemma flat_div N c d : d < N -> (c * N + d) / N = c /\ (c * N + d) mod N = d.
Proof.
  intro H. split.
  - rewrite Nat.div_add_l by lia. rewrite Nat.div_small by lia. lia.
  - rewrite Nat.add_comm, Nat.mod_add by lia. now apply Nat.mod_small.
Qed.
Lemma first_fresh_spec N prev srt last :
  (exists k, In k srt /\ ~ (In (k / N) prev /\ In (k mod N) prev)) ->
  exists s1 s2, srt = s1 ++ first_fresh N prev srt last :: s2 /\
    (forall k, In k s1 -> In (k / N) prev /\ In (k mod N) prev) /\
    ~ (In (first_fresh N prev srt last / N) prev /\ In (first_fresh N prev srt last mod N) prev).
Proof.
  revert last. induction srt as [|k srt IH]; intros last [k0 [Hk Hf]]; [destruct Hk|]. simpl.
  destruct (mem (k / N) prev && mem (k mod N) prev) eqn:E.
  - apply andb_true_iff in E. rewrite !mem_In in E. destruct (IH k) as [s1 [s2 [E1 [E2 E3]]]].
    { exists k0. split; auto. destruct Hk as [<-|Hk]; auto. tauto. }
    exists (k :: s1), s2. simpl. rewrite <- E1. split; auto. split; auto. intros k' [<-|K]; auto.
  - exists [], srt. split; auto. split; [intros ? []|]. rewrite andb_false_iff, !mem_false in E. tauto.
Qed.

Lemma pick_pair_spec N m prev srt draw :
  2 <= N -> descending N (metric_at N m) srt -> (exists c, c < N /\ ~ In c prev) ->
  exists a b, pick_pair_from_metric N m prev srt draw = Ok (a, b) /\ best_fresh_pair N m prev a b.
Proof.
  intros HN [Hperm Hs] [c0 [Hc0 Hc0p]].
  assert (Hin : forall k, In k srt <-> k < N * N).
  { intro k. split; intro H; [apply (Permutation_in _ Hperm), in_seq in H; lia|].
    apply (Permutation_in _ (Permutation_sym Hperm)), in_seq. lia. }
  assert (Hflat : forall c d, c < N -> d < N -> In (c * N + d) srt).
  { intros c d Hc Hd. apply Hin. nia. }
  assert (Hval : forall c d, c < N -> d < N -> c <> d -> metric_at N m (c * N + d) = Some (m c d)).
  { intros c d Hc Hd Hcd. unfold metric_at. destruct (flat_div N c d Hd) as [-> ->]. now rewrite (proj2 (Nat.eqb_neq c d) Hcd). }
  assert (Hrange : forall k, In k srt -> k / N < N /\ k mod N < N).
  { intros k Hk. apply Hin in Hk. split; [apply Nat.div_lt_upper_bound; lia|apply Nat.mod_upper_bound; lia]. }
  (* an entry maximal among the fresh pairs is what is wanted *)
  assert (Hmax : forall k, In k srt -> ~ (In (k / N) prev /\ In (k mod N) prev) ->
     (forall k', In k' srt -> ~ (In (k' / N) prev /\ In (k' mod N) prev) -> ext_le (metric_at N m k') (metric_at N m k)) ->
     best_fresh_pair N m prev (k / N) (k mod N)).
  { intros k Hk Hfr Hm. destruct (Hrange k Hk) as [R1 R2].
    assert (Hd : k / N <> k mod N).
    { intro K. assert (Hx : exists d, d < N /\ d <> c0) by (destruct c0; [exists 1|exists 0]; lia). destruct Hx as [d [Hd Hdc]].
      assert (Hk2 := Hm (c0 * N + d) (Hflat c0 d Hc0 Hd)). destruct (flat_div N c0 d Hd) as [F1 F2]. rewrite F1, F2 in Hk2.
      rewrite Hval in Hk2 by auto. unfold metric_at in Hk2. rewrite (proj2 (Nat.eqb_eq _ _) K) in Hk2. apply Hk2. tauto. }
    repeat split; auto. intros c d Hc Hdd Hcd Hfr2. assert (Hk2 := Hm (c * N + d) (Hflat c d Hc Hdd)).
    destruct (flat_div N c d Hdd) as [F1 F2]. rewrite F1, F2 in Hk2. specialize (Hk2 Hfr2). rewrite Hval in Hk2 by auto.
    unfold metric_at in Hk2. rewrite (proj2 (Nat.eqb_neq _ _) Hd) in Hk2. exact Hk2. }
  assert (Hlen : length srt = N * N) by (rewrite (Permutation_length Hperm), seq_length; reflexivity).
  unfold pick_pair_from_metric. cbv zeta.
  destruct srt as [|k0 srt0] eqn:Esrt; [simpl in Hlen; nia|]. rewrite <- Esrt in *.
  assert (Hns : 1 <= num_same N m srt <= N).
  { unfold num_same. rewrite Esrt. destruct N as [|N1]; [lia|]. cbn [num_same_from nth_error]. rewrite oQ_eqb_refl.
    destruct N1 as [|N2]; [lia|].
    assert (K := num_same_from_spec (S (S N2)) m (k0 :: srt0) (metric_at (S (S N2)) m k0) N2 1). lia. }
  destruct (Nat.eqb_spec (num_same N m srt) 0) as [K|_]; [lia|].
  assert (Hdraw : draw mod num_same N m srt < num_same N m srt) by (apply Nat.mod_upper_bound; lia).
  destruct (getitem_total srt (draw mod num_same N m srt)) as [k Hk]; [nia|]. rewrite Hk. cbn [bind].
  apply getitem_ok in Hk. assert (Hkin := nth_error_In _ _ Hk).
  assert (Hfirst : forall k', In k' srt -> ext_le (metric_at N m k') (metric_at N m k0)).
  { intros k' Hk'. rewrite Esrt in Hk', Hs. destruct Hk' as [<-|Hk']; [apply ext_le_refl|].
    inversion Hs as [|? ? _ Hall]; subst. rewrite Forall_forall in Hall. now apply Hall. }
  assert (Hk0 : ext_le (metric_at N m k0) (metric_at N m k)).
  { assert (En : num_same N m srt = num_same_from N m srt (metric_at N m k0) N 0) by (rewrite Esrt; reflexivity).
    rewrite En in Hdraw, Hk.
    assert (Y : oQ_eqb (metric_at N m k) (metric_at N m k0) = true).
    { eapply (num_same_from_eq N m srt (metric_at N m k0) N 0); [intros j k1 Hj; lia|exact Hdraw|exact Hk]. }
    apply oQ_eqb_le in Y. tauto. }
  destruct (mem (k / N) prev && mem (k mod N) prev) eqn:Em.
  - destruct (first_fresh_spec N prev srt k) as [s1 [s2 [E1 [E2 E3]]]].
    { assert (Hx : exists d, d < N /\ d <> c0) by (destruct c0; [exists 1|exists 0]; lia). destruct Hx as [d [Hd Hdc]].
      exists (c0 * N + d). split; auto. destruct (flat_div N c0 d Hd) as [-> _]. tauto. }
    set (kf := first_fresh N prev srt k) in *. exists (kf / N), (kf mod N). split; auto. apply Hmax; auto.
    + rewrite E1. apply in_elt.
    + intros k' Hk' Hf'. rewrite E1 in Hk'. apply in_app_iff in Hk'. destruct Hk' as [K|[<-|K]].
      * apply E2 in K. tauto.
      * apply ext_le_refl.
      * rewrite E1 in Hs. clear - Hs K. induction s1 as [|x s1 IH]; simpl in Hs.
        -- inversion Hs as [|? ? _ Hall]; subst. rewrite Forall_forall in Hall. now apply Hall.
        -- inversion Hs; subst. auto.
  - exists (k / N), (k mod N). split; auto. apply Hmax; auto.
    + rewrite andb_false_iff, !mem_false in Em. tauto.
    + intros k' Hk' _. eapply ext_le_trans; [apply Hfirst; auto|exact Hk0].
Qed.

Lemma get_prefered_all cand : get_prefered_set_of_pts false cand PrefNone = Ok (seq 0 (length cand)).
Proof. reflexivity. Qed.
Lemma ranked_iff le (S T : nat -> Prop) l : (forall i, S i <-> T i) -> ranked le S l -> ranked le T l.
Proof. intros H [H1 H2]. split; auto. intros x y Hx Hy. apply H2; auto. now apply H. Qed.
Lemma ranked_of_all (le : nat -> nat -> Prop) N prev0 l1 l2 :
  (forall i, In i (l1 ++ l2) -> allowed N prev0 i) -> NoDup (l1 ++ l2) ->
  ranked le (fun y => In y (seq 0 N) /\ allowed N prev0 y) l1 ->
  ranked le (fun y => ~ In y (seq 0 N) /\ allowed N prev0 y) l2 ->
  (l2 <> [] -> forall i, In i (seq 0 N) -> allowed N prev0 i -> In i l1) ->
  ranked le (allowed N prev0) (l1 ++ l2).
Proof.
  intros Hg Hnd H1 H2 H3. assert (l2 = []) as ->.
  { destruct l2 as [|x l2]; auto. exfalso. assert (K : allowed N prev0 x) by (apply Hg, in_elt).
    assert (In x l1) by (apply H3; [discriminate|apply in_seq; destruct K; lia|auto]).
    apply NoDup_remove_2 in Hnd. apply Hnd. rewrite in_app_iff. auto. }
  rewrite app_nil_r in *. eapply ranked_iff; [|exact H1]. intro i. split; [tauto|]. intro K. split; auto. apply in_seq. destruct K. lia.
Qed.
Lemma select_ranked_all L cand mu n0 prev0 pf (le : nat -> nat -> Prop) out :
  (pf = false \/ l_pair L = None) -> enumerates (l_enum L) -> length mu = length cand -> l_pareto L = false -> l_best L = false ->
  (forall S i, NoDup S -> (forall j, In j S -> j < length cand) -> chosen L S i -> forall y, In y S -> le y i) ->
  select L cand mu n0 prev0 PrefNone pf = Ok out ->
  length out = num_alts_of L n0 /\ ranked le (allowed (length cand) prev0) out.
Proof.
  intros Hp He Hm Hpa Hb Hle H.
  assert (HP : get_prefered_set_of_pts (l_pareto L) cand PrefNone = Ok (seq 0 (length cand))) by (rewrite Hpa; reflexivity).
  assert (HPr : forall i, In i (seq 0 (length cand)) -> i < length cand) by (intros i Hi; apply in_seq in Hi; lia).
  assert (Hn : l_best L = true -> prev0 = [] -> 1 <= num_alts_of L n0) by congruence.
  destruct (select_good L cand mu n0 prev0 PrefNone pf _ Hp He Hm HP HPr Hn out H) as [[G1 [G2 G3]] _].
  destruct (select_ranked L cand mu n0 prev0 PrefNone pf _ Hp He Hm HP HPr Hn le out Hle Hb H) as [l1 [l2 [-> [R1 [R2 R3]]]]]; auto.
  split; auto. apply ranked_of_all; auto.
Qed.
Lemma chosen_best enum mu L S i : (forall k, enumerates (enum k)) -> l_greedy L = best_greedy enum mu -> chosen L S i ->
  forall y, In y S -> val_le mu y i.
Proof.
  intros He Hg Hc y Hy a b Ha Hb. apply Qlt_bool_false.
  eapply (chosen_score Qlt_bool enum (getitem mu) L S i Q_order_ok He Hg Hc); [exact Hy|now apply getitem_ok|now apply getitem_ok].
Qed.
Lemma chosen_worst enum mu L S i : (forall k, enumerates (enum k)) -> l_greedy L = worst_greedy enum mu -> chosen L S i ->
  forall y, In y S -> val_le mu i y.
Proof.
  intros He Hg Hc y Hy a b Ha Hb. apply Qlt_bool_false.
  apply (chosen_score (fun x y => Qlt_bool y x) enum (getitem mu) L S i Qgt_order_ok He Hg Hc y b a); [exact Hy|now apply getitem_ok|now apply getitem_ok].
Qed.

Lemma in_remove_first_other x y l : In y l -> y <> x -> In y (remove_first x l).
Proof.
  induction l as [|a l IH]; simpl; [tauto|]. intros [->|H] Hn.
  - destruct (Nat.eqb_spec x y); [congruence|]. now left.
  - destruct (Nat.eqb_spec x a); auto. right. auto.
Qed.
Lemma pareto_set_spec k (cand : list row) : rect k cand -> exists P, pareto_set cand = Ok P /\ forall i, In i P <-> on_front cand i.
Proof.
  intro H. unfold pareto_set. destruct (get_pareto_correct k cand (S (length cand)) H) as [l [E [_ Hl]]]; [apply Nat.lt_succ_diag_r|].
  exists (set_of l). split; [|].
  { assert (E' : get_pareto (S (@length row cand)) cand = Some l) by exact E. now rewrite E'. } intro i. rewrite set_of_In. apply Hl.
Qed.
Lemma get_prefered_spec : forall default_to_pareto k (cand : list row), rect k cand ->
  (forall p P, get_prefered_set_of_pts default_to_pareto cand p = Ok P ->
     NoDup P /\
     match p with
     | PrefNone => if default_to_pareto then forall i, In i P <-> on_front cand i else forall i, In i P <-> i < length cand
     | PrefPareto => forall i, In i P <-> on_front cand i
     | PrefSet s | PrefList s => forall i, In i P <-> In i s
     | PrefInt z => (z = 0%Z -> forall i, In i P <-> i < length cand) /\ ((0 < z)%Z -> forall i, In i P <-> (Z.of_nat i < z)%Z) /\ (0 <= z)%Z
     | PrefOther => False
     end) /\
  (forall p, (forall P, get_prefered_set_of_pts default_to_pareto cand p <> Ok P) ->
     get_prefered_set_of_pts default_to_pareto cand p = Raise ValueError /\ (p = PrefOther \/ exists z, p = PrefInt z /\ (z < 0)%Z)).
Proof.
  intros d k cand Hr. destruct (pareto_set_spec k cand Hr) as [PP [EP HP]]. split.
  - intros p P H. split; [eapply get_prefered_NoDup; eauto|]. destruct p as [|s|s| |z|]; simpl in H; try rewrite EP in H.
    + destruct d; inversion H; subst; auto. intro i. rewrite in_seq. lia.
    + inversion H. intro i. apply set_of_In.
    + inversion H. intro i. apply set_of_In.
    + inversion H; subst; auto.
    + destruct (Z.eqb_spec z 0); [|destruct (Z.ltb_spec z 0); [discriminate|]]; inversion H; subst P; (split; [|split]); try lia; intros Hz i; rewrite in_seq; lia.
    + discriminate.
  - intros p H. destruct p as [|s|s| |z|]; simpl in *; try rewrite EP in *; try (exfalso; eapply H; reflexivity); auto.
    + exfalso. destruct d; eapply H; reflexivity.
    + destruct (Z.eqb_spec z 0); [exfalso; eapply H; reflexivity|]. destruct (Z.ltb_spec z 0); [|exfalso; eapply H; reflexivity].
      split; auto. right. eauto.
Qed.
Lemma get_prefered_range : forall d k (cand : list row) p P, rect k cand -> get_prefered_set_of_pts d cand p = Ok P ->
  match p with PrefSet s | PrefList s => forall i, In i s -> i < length cand | PrefInt z => (z <= Z.of_nat (length cand))%Z | _ => True end ->
  forall i, In i P -> i < length cand.
Proof.
  intros d k cand p P Hr H Hc i Hi. destruct (proj1 (get_prefered_spec d k cand Hr) p P H) as [_ K].
  assert (F : on_front cand i -> i < length cand) by (intros [r [E _]]; apply nth_error_Some; intro K0; pose proof (eq_trans (eq_sym E) K0); discriminate).
  destruct p as [|s|s| |z|].
  - destruct d; apply K in Hi; auto.
  - apply Hc, K; auto.
  - apply Hc, K; auto.
  - apply K in Hi. auto.
  - destruct K as [K1 [K2 K3]]. destruct (Z.eq_dec z 0) as [E|E]; [apply K1; auto|]. apply K2 in Hi; lia.
  - destruct K.
Qed.

(** the number of selected candidates: the requested one, limited by the learner's maximum *)
Lemma num_alts_spec L n : num_alts_of L n <= n /\ (forall m, l_max L = Some m -> num_alts_of L n <= m) /\
  (num_alts_of L n = n \/ l_max L = Some (num_alts_of L n)).
Proof.
  unfold num_alts_of. destruct (l_max L) as [m|]; [|split; [auto|split; [discriminate|auto]]].
  split; [lia|]. split; [intros ? E; injection E as <-; lia|]. destruct (Nat.le_ge_cases n m); [left|right; f_equal]; lia.
Qed.
