(** Lemmas about training runs: answers, correctness marks, failures. *)
From Verif Require Import M_Base P_Base M_Pareto M_Pairs M_Select P_Select M_Store S_Store P_Store M_Train S_Train P_Train.

Lemma argmax_from_first l : forall best besti i, exists m,
  ((argmax_from Qlt_bool best besti i l = besti /\ m = best) \/
   (exists j, argmax_from Qlt_bool best besti i l = i + j /\ nth_error l j = Some m /\ (best < m)%Q /\ forall k y, k < j -> nth_error l k = Some y -> (y < m)%Q)) /\
  (best <= m)%Q /\ (forall y, In y l -> (y <= m)%Q).
Proof.
  induction l as [|x l IH]; intros best besti i; simpl.
  - exists best. split; auto. split; [apply Qle_refl|tauto].
  - destruct (Qlt_bool best x) eqn:E.
    + apply Qlt_bool_iff in E. destruct (IH x i (S i)) as [m [C [H1 H2]]]. exists m. split; [right|split].
      * destruct C as [[-> ->]|[j [-> [Hj [Hl Hk]]]]].
        -- exists 0. simpl. repeat split; auto; try lia; intros k y Hk; lia.
        -- exists (S j). simpl. repeat split; auto; try lia; [eapply Qlt_trans; eauto|]. intros [|k] y Hk' Hy; simpl in Hy; [inversion Hy; subst; auto|].
           apply (Hk k); auto. lia.
      * apply Qlt_le_weak. eapply Qlt_le_trans; eauto.
      * intros y [<-|Hy]; auto.
    + apply Qlt_bool_false in E. destruct (IH best besti (S i)) as [m [C [H1 H2]]]. exists m. split; [|split; auto].
      * destruct C as [C|[j [-> [Hj [Hl Hk]]]]]; [left; auto|right]. exists (S j). simpl. repeat split; auto; try lia.
        intros [|k] y Hk' Hy; simpl in Hy; [inversion Hy; subst; eapply Qle_lt_trans; eauto|]. apply (Hk k); auto. lia.
      * intros y [<-|Hy]; auto. eapply Qle_trans; eauto.
Qed.
Lemma argmax_first u X b : argmax Qlt_bool (map u X) = Ok b <-> first_best u X b.
Proof.
  assert (A : forall b, argmax Qlt_bool (map u X) = Ok b -> first_best u X b).
  { clear b. intros b H. destruct X as [|x X]; [discriminate|]. cbn [map argmax] in H. inversion H; subst b. clear H.
    destruct (argmax_from_first (map u X) (u x) 0 1) as [m [C [H1 H2]]]. destruct C as [[-> ->]|[j [-> [Hj [Hl Hk]]]]].
    - exists x. split; auto. split; [|intros; lia]. intros y [<-|Hy]; [apply Qle_refl|]. apply H2. now apply in_map.
    - rewrite nth_error_map in Hj. destruct (nth_error X j) as [z|] eqn:Ez; [|discriminate]. inversion Hj; subst m. exists z. split; auto. split.
      + intros y [<-|Hy]; auto. apply H2. now apply in_map.
      + intros [|k] y Hk' Hy; simpl in Hy; [inversion Hy; subst; auto|]. apply (Hk k); [lia|]. rewrite nth_error_map, Hy. reflexivity. }
  split; [apply A|]. intro F. destruct X as [|x X]; [destruct F as [z [Hz _]]; destruct b; discriminate|].
  destruct (argmax Qlt_bool (map u (x :: X))) as [b'|e] eqn:E; [|discriminate]. specialize (A b' eq_refl). f_equal.
  destruct A as [z [Hz [Mz Fz]]], F as [w [Hw [Mw Fw]]]. destruct (Nat.lt_trichotomy b b') as [L|[L|L]]; auto; exfalso.
  - assert (K := Fz b w L Hw). assert (K2 := Mw z (nth_error_In _ _ Hz)). apply (Qlt_not_le _ _ K K2).
  - assert (K := Fw b' z L Hz). assert (K2 := Mz w (nth_error_In _ _ Hw)). apply (Qlt_not_le _ _ K K2).
Qed.
Lemma perfect_never_errs u : never_errs u (fun _ X => argmax Qlt_bool (map u X)).
Proof. intros i X b H. now apply argmax_first. Qed.

Section loop.
Context (perfect : bool) (u : row -> Q) (choose : nat -> list row -> result nat) (rate : nat -> list row -> list Q)
  (select : store -> list row -> result (list nat * list nat)).
(** * marks *)
Lemma gen_first b n p : getitem (gen_pairs_from_idx b (seq 0 n)) 0 = Ok p -> snd (fst p) = b.
Proof.
  rewrite gen_pairs_filter. destruct (filter _ _); simpl; [discriminate|]. intro H. inversion H. reflexivity.
Qed.
Lemma switch_mark i rewards s s' c : iteration Switch perfect u choose rate select i rewards s = Ok (s', (0%Z, c)) ->
  exists q, Forall (fun x => In x rewards) (q_shown q) /\ q_rest q = [] /\ length (q_shown q) <> 1 /\ choose i (q_shown q) = Ok (q_choice q) /\
    points s' = points s ++ q_shown q /\ (exists gen, rel s' = rel s ++ won (length (points s)) q ++ gen /\ (sPareto s = false -> gen = [])) /\
    (c = 1%Z <-> first_best u (q_shown q) (q_choice q)) /\ (c = 0%Z <-> ~ first_best u (q_shown q) (q_choice q)).
Proof.
  unfold iteration. destruct (length rewards <? 2); [discriminate|]. destruct (select s rewards) as [[sel rest]|]; [|discriminate]. cbn [bind fst snd].
  destruct (rows_at rewards sel) as [X|] eqn:EX; [|discriminate]. cbn [bind]. destruct (rows_at_ok _ _ _ EX) as [LX [_ FX]].
  destruct (length sel =? 1) eqn:EL.
  { destruct (added _) as [s1|]; [|discriminate]. discriminate. }
  destruct (argmax _ _) as [a|] eqn:Ea; [|discriminate]. cbn [bind]. destruct (choose i X) as [b|] eqn:Eb; [|discriminate]. cbn [bind].
  destruct (added _) as [s1|] eqn:E1; [|discriminate]. cbn [bind]. destruct (getitem _ 0) as [p|] eqn:Ep; [|discriminate]. cbn [bind]. intro H. inversion H; subst. clear H.
  rewrite (gen_first _ _ _ Ep). apply added_rel in E1. destruct (add_rel_effect _ _ _ _ E1) as [A [B [C [D G]]]].
  exists (mkQuery X b []). cbn [q_shown q_choice q_rest]. assert (EW := shifted_won (length (points s)) (mkQuery X b [])). cbn [q_shown q_choice] in EW. rewrite EW in B.
  apply Nat.eqb_neq in EL. split; [auto|split; [auto|split; [congruence|split; [auto|split; [auto|split]]]]].
  - exists (gen_rel s X). split; auto. apply gen_rel_off.
  - apply argmax_first in Ea. assert (Q : a = b <-> first_best u X b).
    { split; [intros ->; auto|]. intro F. apply argmax_first in F. apply argmax_first in Ea. congruence. }
    destruct (Nat.eqb a b) eqn:Eq.
    + apply Nat.eqb_eq in Eq. split; split; intro K; try discriminate; auto; try (apply Q; auto). exfalso. apply K. now apply Q.
    + apply Nat.eqb_neq in Eq. split; split; intro K; try discriminate; auto; try (intro F; apply Eq; now apply Q). exfalso. apply Eq. now apply Q.
Qed.
Lemma switch_log problems : forall i s s' log, never_errs u choose -> train Switch perfect u choose rate select i problems s = Ok (s', log) ->
  length log = length problems /\ Forall (fun e => e = (0%Z, 1%Z) \/ e = (1%Z, (-1)%Z)) log.
Proof.
  induction problems as [|rewards problems IH]; intros i s s' log NE H; cbn [train] in H; [inversion H; subst; auto|].
  destruct (iteration _ _ _ _ _ _ i rewards s) as [[s1 e]|] eqn:E1; [|discriminate]. cbn [bind fst snd] in H.
  destruct (train _ _ _ _ _ _ (S i) problems s1) as [[s2 log2]|] eqn:E2; [|discriminate]. cbn [bind fst snd] in H. inversion H; subst. clear H.
  destruct (IH (S i) s1 s' log2 NE E2) as [L F]. split; [simpl; auto|]. constructor; auto.
  assert (S0 := E1). unfold iteration in E1. destruct (length rewards <? 2); [discriminate|]. destruct (select s rewards) as [[sel rest]|]; [|discriminate]. cbn [bind fst snd] in E1.
  destruct (rows_at rewards sel) as [X|] eqn:EX; [|discriminate]. cbn [bind] in E1. destruct (length sel =? 1).
  { destruct (added _); [|discriminate]. cbn [bind] in E1. inversion E1. auto. }
  left. destruct (argmax _ _) as [a|] eqn:Ea; [|discriminate]. cbn [bind] in E1. destruct (choose i X) as [b|] eqn:Eb; [|discriminate]. cbn [bind] in E1.
  destruct (added _) as [s3|]; [|discriminate]. cbn [bind] in E1. destruct (getitem _ 0) as [p|] eqn:Ep; [|discriminate]. cbn [bind] in E1. inversion E1; subst.
  destruct (switch_mark _ _ _ _ _ S0) as [q [_ [_ [_ [C [_ [_ [M _]]]]]]]]. f_equal. apply M. now apply (NE i).
Qed.
(** * runs that do not fail *)
Lemma choose_runs problems : selects_from select -> (forall i X, X <> [] -> exists b, choose i X = Ok b) -> Forall (fun X => 2 <= length X) problems ->
  forall i s, exists s' log, train Choose1 perfect u choose rate select i problems s = Ok (s', log).
Proof.
  intros HS HC. induction 1 as [|rewards problems H F IH]; intros i s; cbn [train]; [eauto|].
  assert (G : exists s1 e, iteration Choose1 perfect u choose rate select i rewards s = Ok (s1, e)).
  { unfold iteration. destruct (length rewards <? 2) eqn:E; [apply Nat.ltb_lt in E; lia|].
    destruct (HS s rewards H) as [sel [rest [-> [Ne [F1 F2]]]]]. cbn [bind fst snd]. destruct (rows_at_total _ _ F1) as [X EX]. rewrite EX. cbn [bind].
    destruct (rows_at_ok _ _ _ EX) as [LX _]. destruct (HC i X) as [b ->]; [intro; subst; destruct sel; [congruence|discriminate]|]. cbn [bind].
    destruct (add_rel_done s X (gen_pairs_from_idx b (seq 0 (length X)))) as [s1 ->]. cbn [added bind].
    unfold add_rest. destruct rest as [|r0 rest]; [cbn [bind]; eauto|]. destruct (rows_at_total _ _ F2) as [N ->]. cbn [bind].
    destruct (add_rel_done s1 N []) as [s2 ->]. cbn [added bind]. eauto. }
  destruct G as [s1 [e ->]]. cbn [bind fst snd]. destruct (IH (S i) s1) as [s2 [log ->]]. cbn [bind fst snd]. eauto.
Qed.
(** * runs that fail *)
Lemma ranking_fails rewards problems s i : selects_from select -> 2 <= length rewards ->
  train Ranking perfect u choose rate select i (rewards :: problems) s = Raise (if perfect then TypeError else GenericException).
Proof.
  intros HS H. cbn [train]. unfold iteration. destruct (length rewards <? 2) eqn:E; [apply Nat.ltb_lt in E; lia|].
  destruct (HS s rewards H) as [sel [rest [-> [Ne [F1 F2]]]]]. cbn [bind fst snd]. destruct (rows_at_total _ _ F1) as [X ->]. cbn [bind].
  destruct perfect; reflexivity.
Qed.
Lemma one_path_fails t x problems s i : train t perfect u choose rate select i ([x] :: problems) s = Raise IndexError.
Proof. reflexivity. Qed.
Lemma perfect_fails t problems s : experiment t perfect u choose rate select Perfect problems s = Raise AttributeError.
Proof. reflexivity. Qed.
Lemma human_runs t problems s : experiment t perfect u choose rate select HumanChoice problems s = train t perfect u choose rate select 0 problems s.
Proof. reflexivity. Qed.
End loop.
Lemma train_agrees t perfect u choose rate select k problems pareto s log : never_errs u choose ->
  (pareto = true -> respects_domination u) -> Forall (same_width k) problems ->
  train t perfect u choose rate select 0 problems (init pareto) = Ok (s, log) -> Forall (agrees u (points s)) (rel s).
Proof.
  intros NE R W H. assert (K : keeps u k (init pareto)) by (split; constructor).
  destruct (train_keeps t perfect u choose rate select k problems 0 (init pareto) s log NE R W H K) as [[K1 _] _]. exact K1.
Qed.
(** two equal rows; the user takes the second *)
Lemma tie_marked : exists u choose select rewards s', iteration Switch false u choose (fun _ _ => []) select 0 rewards (init false) = Ok (s', (0%Z, 0%Z)) /\
  forall i X b x y, choose i X = Ok b -> nth_error X b = Some x -> In y X -> (u y <= u x)%Q.
Proof.
  exists (fun _ => 1%Q), (fun _ _ => Ok 1), (fun _ _ => Ok ([0; 1], [])), [[1]; [1]]%Q. eexists. split; [vm_compute; reflexivity|].
  intros. apply Qle_refl.
Qed.
