From Verif Require Import M_Base P_Base M_Pairs M_Pareto M_Store S_Store.
From Coq Require Import Permutation Sorted.

(** ---- what add does ---- *)
Definition shifted (n : nat) (y : list pair) : list pair :=
  map (fun p : pair => let '(d, u, v) := p in (d, u + n, v + n)) y.
Definition user_rel (n : nat) (y : labels) : list pair := match y with LRel l => shifted n l | _ => [] end.
Definition user_ord (n : nat) (y : labels) : list Z * list nat :=
  match y with LOrd l => (l, map (fun i => i + n) (seq 0 (length l))) | LOrd2 l => (map fst l, map snd l) | _ => ([], []) end.
Definition user_abs (n : nat) (y : labels) : list Q * list nat :=
  match y with LAbs v => (map clamp v, seq n (length v)) | LAbsT v i => (map clamp v, i) | _ => ([], []) end.
Definition gen_rel (s : store) (X : list row) : list pair :=
  if sPareto s && (1 <? length (points s ++ X)) then pareto_new_pairs (points s ++ X) (length (points s)) X else [].

Lemma shifted_0 y : shifted 0 y = y.
Proof.
  unfold shifted. induction y as [|[[d u] v] y IH]; simpl; auto. now rewrite IH, !Nat.add_0_r.
Qed.
Lemma shifted_code n (y : list pair) :
  (if 0 <? n then map (fun p : pair => let '(d, u, v) := p in (d, u + n, v + n)) y else y) = shifted n y.
Proof. destruct n; simpl; [now rewrite shifted_0 | reflexivity]. Qed.
Lemma npts_points s : npts s = length (points s).
Proof. unfold npts, points. destruct (sX s); reflexivity. Qed.
Lemma append_rel_rel s y : rel (append_rel s y) = rel s ++ y.
Proof. unfold append_rel, rel. destruct (sRel s); reflexivity. Qed.
Lemma append_rel_other s y :
  sX (append_rel s y) = sX s /\ sOrd (append_rel s y) = sOrd s /\ sAbs (append_rel s y) = sAbs s /\
  sPrior (append_rel s y) = sPrior s /\ sOpt (append_rel s y) = sOpt s /\ sPareto (append_rel s y) = sPareto s.
Proof. unfold append_rel. destruct (sRel s); simpl; auto 10. Qed.

Lemma add_ord_spec s v i s' : add_ord s v i = (s', Done) ->
  s' = append_ord s v i /\ forall x, In x v -> (0 < x)%Z.
Proof.
  unfold add_ord. destruct (existsb _ v) eqn:E; intro H; inversion H; subst. split; auto.
  intros x Hx. apply Z.nle_gt. intro L. apply Z.leb_le in L.
  assert (existsb (fun x => (x <=? 0)%Z) v = true) by (apply existsb_exists; eauto). congruence.
Qed.
Lemma add_abs_spec s v i s' : add_abs s v i = (s', Done) ->
  s' = append_abs s (map clamp v) i /\ forall x, In x v -> (0 <= x <= 1)%Q.
Proof.
  unfold add_abs. destruct (existsb (fun x => Qlt_bool x 0) v) eqn:E1; simpl; [discriminate|].
  destruct (existsb (fun x => Qlt_bool 1 x) v) eqn:E2; simpl; [discriminate|].
  intro H; inversion H; subst. split; auto. intros x Hx. split; apply Qlt_bool_false.
  - apply not_true_is_false. intro K. assert (existsb (fun x => Qlt_bool x 0) v = true) by (apply existsb_exists; eauto). congruence.
  - apply not_true_is_false. intro K. assert (existsb (fun x => Qlt_bool 1 x) v = true) by (apply existsb_exists; eauto). congruence.
Qed.

Lemma add_spec s X y s' : add s X y = (s', Done) ->
  points s' = points s ++ X /\ sX s' <> None /\
  rel s' = rel s ++ user_rel (length (points s)) y ++ gen_rel s X /\
  ord_v s' = ord_v s ++ fst (user_ord (length (points s)) y) /\
  ord_i s' = ord_i s ++ snd (user_ord (length (points s)) y) /\
  abs_v s' = abs_v s ++ fst (user_abs (length (points s)) y) /\
  abs_i s' = abs_i s ++ snd (user_abs (length (points s)) y) /\
  sPrior s' = sPrior s /\ sOpt s' = false /\ sPareto s' = sPareto s.
Proof.
  unfold add. cbv zeta. intro H.
  destruct (add_labels (add_points s X) (npts s) y) as [s2 st] eqn:E.
  destruct st; inversion H; subst; clear H. rewrite npts_points in *.
  assert (HL : sX s2 = Some (points s ++ X) /\ sPareto s2 = sPareto s /\ sPrior s2 = sPrior s /\
     rel s2 = rel s ++ user_rel (length (points s)) y /\
     ord_v s2 = ord_v s ++ fst (user_ord (length (points s)) y) /\
     ord_i s2 = ord_i s ++ snd (user_ord (length (points s)) y) /\
     abs_v s2 = abs_v s ++ fst (user_abs (length (points s)) y) /\
     abs_i s2 = abs_i s ++ snd (user_abs (length (points s)) y)).
  { destruct y as [l|l|l|l|l i| |]; cbn [add_labels] in E.
    - cbv zeta in E. rewrite shifted_code in E. cbn [user_rel user_ord user_abs fst snd].
      rewrite ?app_nil_r.
      destruct (shifted (length (points s)) l) as [|p q] eqn:Es; inversion E; subst.
      + rewrite app_nil_r. unfold add_points, points, rel, ord_v, ord_i, abs_v, abs_i; simpl; auto 10.
      + rewrite append_rel_rel.
        destruct (append_rel_other (add_points s X) (p :: q)) as [A1 [A2 [A3 [A4 [A5 A6]]]]].
        unfold ord_v, ord_i, abs_v, abs_i. rewrite A1, A2, A3, A4, A6. simpl. auto 10.
    - apply add_ord_spec in E. destruct E as [-> _]. cbn [user_rel user_ord user_abs fst snd]. rewrite ?app_nil_r.
      unfold append_ord, add_points, ord_v, ord_i, abs_v, abs_i, rel, points. simpl. destruct (sOrd s) as [[? ?]|]; simpl; auto 10.
    - apply add_ord_spec in E. destruct E as [-> _]. cbn [user_rel user_ord user_abs fst snd]. rewrite ?app_nil_r.
      unfold append_ord, add_points, ord_v, ord_i, abs_v, abs_i, rel, points. simpl. destruct (sOrd s) as [[? ?]|]; simpl; auto 10.
    - apply add_abs_spec in E. destruct E as [-> _]. cbn [user_rel user_ord user_abs fst snd]. rewrite ?app_nil_r.
      unfold append_abs, add_points, ord_v, ord_i, abs_v, abs_i, rel, points. simpl. destruct (sAbs s) as [[? ?]|]; simpl; auto 10.
    - apply add_abs_spec in E. destruct E as [-> _]. cbn [user_rel user_ord user_abs fst snd]. rewrite ?app_nil_r.
      unfold append_abs, add_points, ord_v, ord_i, abs_v, abs_i, rel, points. simpl. destruct (sAbs s) as [[? ?]|]; simpl; auto 10.
    - discriminate.
    - inversion E; subst. cbn [user_rel user_ord user_abs fst snd]. rewrite ?app_nil_r.
      unfold add_points, ord_v, ord_i, abs_v, abs_i, rel, points. simpl. auto 10. }
  destruct HL as [HX [HP [Hpr [Hr [Hov [Hoi [Hav Hai]]]]]]].
  assert (Hpts : pts_of s2 = points s ++ X) by (unfold pts_of; now rewrite HX).
  assert (Hn : npts s2 = length (points s ++ X)) by (unfold npts; now rewrite HX).
  unfold add_pareto, gen_rel. rewrite HP, Hn, Hpts.
  assert (Hfin : forall s3, sX s3 = sX s2 -> sOrd s3 = sOrd s2 -> sAbs s3 = sAbs s2 -> sPrior s3 = sPrior s2 ->
     sPareto s3 = sPareto s2 -> forall g, rel s3 = rel s2 ++ g ->
     points (set_opt s3 false) = points s ++ X /\ sX (set_opt s3 false) <> None /\
     rel (set_opt s3 false) = rel s ++ user_rel (length (points s)) y ++ g /\
     ord_v (set_opt s3 false) = ord_v s ++ fst (user_ord (length (points s)) y) /\
     ord_i (set_opt s3 false) = ord_i s ++ snd (user_ord (length (points s)) y) /\
     abs_v (set_opt s3 false) = abs_v s ++ fst (user_abs (length (points s)) y) /\
     abs_i (set_opt s3 false) = abs_i s ++ snd (user_abs (length (points s)) y) /\
     sPrior (set_opt s3 false) = sPrior s /\ sOpt (set_opt s3 false) = false /\ sPareto (set_opt s3 false) = sPareto s).
  { intros s3 E1 E2 E3 E4 E5 g E6.
    unfold points at 1, rel at 1, ord_v at 1, ord_i at 1, abs_v at 1, abs_i at 1. simpl.
    fold (rel s3). fold (ord_v s3). fold (ord_i s3). fold (abs_v s3). fold (abs_i s3).
    rewrite E1, E4, E5, E6, HX, Hr.
    unfold ord_v at 1, ord_i at 1, abs_v at 1, abs_i at 1. rewrite E2, E3.
    fold (ord_v s2). fold (ord_i s2). fold (abs_v s2). fold (abs_i s2).
    rewrite Hov, Hoi, Hav, Hai. rewrite app_assoc. repeat split; auto. discriminate. }
  destruct (sPareto s && (1 <? length (points s ++ X))).
  - destruct (pareto_new_pairs (points s ++ X) (length (points s)) X) as [|p q] eqn:Ep.
    + apply Hfin; auto. now rewrite app_nil_r.
    + destruct (append_rel_other s2 (p :: q)) as [A1 [A2 [A3 [A4 [A5 A6]]]]].
      apply Hfin; auto. apply append_rel_rel.
  - apply Hfin; auto. now rewrite app_nil_r.
Qed.

(** a call that does not end normally still appends the points but no label *)
Lemma add_rejected s X y s' st : add s X y = (s', st) -> st <> Done ->
  points s' = points s ++ X /\ rel s' = rel s /\ ord_v s' = ord_v s /\ ord_i s' = ord_i s /\ abs_v s' = abs_v s /\
  abs_i s' = abs_i s /\ sOpt s' = sOpt s /\ sPareto s' = sPareto s /\ sPrior s' = sPrior s.
Proof.
  unfold add. cbv zeta. destruct (add_labels (add_points s X) (npts s) y) as [s2 st2] eqn:E.
  intros H Hne.
  assert (st2 <> Done /\ s' = s2).
  { destruct st2; inversion H; subst; split; congruence. }
  destruct H0 as [Hne2 ->]. clear H Hne.
  assert (s2 = add_points s X).
  { destruct y as [l|l|l|l|l i| |]; cbn [add_labels] in E.
    - cbv zeta in E. destruct (if 0 <? npts s then _ else _); inversion E; congruence.
    - unfold add_ord in E. destruct (existsb _ l); inversion E; congruence.
    - unfold add_ord in E. destruct (existsb _ (map fst l)); inversion E; congruence.
    - unfold add_abs in E. destruct (_ || _); inversion E; congruence.
    - unfold add_abs in E. destruct (_ || _); inversion E; congruence.
    - inversion E; congruence.
    - inversion E; congruence. }
  subst. unfold add_points, points, pts_of, rel, ord_v, ord_i, abs_v, abs_i. simpl. destruct (sX s); simpl; auto 10.
Qed.

(** ---- generated pairs ---- *)
Lemma all_gt_dominates x : forall r, length x = length r -> (all_gt x r = true <-> dominates x r).
Proof.
  induction x as [|a x IH]; intros [|b r] L; simpl in *; try lia.
  - split; auto. constructor.
  - rewrite andb_true_iff, Qlt_bool_iff, IH by lia. split.
    + intros [? ?]. constructor; auto.
    + intro H. inversion H; subst. auto.
Qed.
Lemma pareto_new_pairs_In all n X d u v : In (d, u, v) (pareto_new_pairs all n X) <->
  d = (-1)%Z /\ exists i x r, u = i + n /\ nth_error X i = Some x /\ nth_error all v = Some r /\ all_gt x r = true.
Proof.
  unfold pareto_new_pairs. rewrite in_concat. split.
  - intros [l [Hl Hin]]. apply in_map_iff in Hl. destruct Hl as [[i x] [<- Hix]].
    apply enumerate_nth in Hix. apply in_map_iff in Hin. destruct Hin as [j [Heq Hj]].
    apply in_map_iff in Hj. destruct Hj as [[j' r] [<- Hjr]]. apply filter_In in Hjr. destruct Hjr as [Hjr Hg].
    apply enumerate_nth in Hjr. simpl in *.
    assert (Hd : get_dk 1 0 = (-1)%Z) by reflexivity. rewrite Hd in Heq. inversion Heq; subst. split; auto.
    exists i, x, r. auto.
  - intros [-> [i [x [r [-> [Hi [Hv Hg]]]]]]].
    eexists. split; [apply in_map_iff; exists (i, x); split; [reflexivity | now apply enumerate_nth]|].
    simpl. apply in_map_iff. exists v. split; [reflexivity|]. apply in_map_iff. exists (v, r). split; auto.
    apply filter_In. split; [now apply enumerate_nth | exact Hg].
Qed.
Lemma gen_rel_truth k s X p : same_width k (points s ++ X) -> In p (gen_rel s X) -> pareto_truth (points s ++ X) p.
Proof.
  intros Hw. unfold gen_rel. destruct (_ && _); [|intros []]. destruct p as [[d u] v]. rewrite pareto_new_pairs_In.
  intros [-> [i [x [r [-> [Hi [Hv Hg]]]]]]]. split; auto. exists x, r. split; [|split; auto].
  - rewrite nth_error_app2 by lia. now replace (i + length (points s) - length (points s)) with i by lia.
  - unfold same_width in Hw. rewrite Forall_forall in Hw. apply all_gt_dominates; auto.
    assert (In x (points s ++ X)) by (apply in_or_app; right; eapply nth_error_In; eauto).
    assert (In r (points s ++ X)) by (eapply nth_error_In; eauto).
    rewrite (Hw x), (Hw r); auto.
Qed.
Lemma dominates_irrefl k a : length a = S k -> ~ dominates a a.
Proof. destruct a as [|x a]; simpl; [lia|]. intros _ H. inversion H; subst. eapply Qlt_irrefl; eauto. Qed.
Lemma gen_rel_complete k s X i j a b : same_width (S k) (points s ++ X) -> sPareto s = true ->
  nth_error X i = Some a -> nth_error (points s ++ X) j = Some b -> dominates a b ->
  In ((-1)%Z, length (points s) + i, j) (gen_rel s X).
Proof.
  intros Hw Hp Hi Hj Hd. unfold gen_rel. rewrite Hp.
  assert (Hn : 1 < length (points s ++ X)).
  { destruct (Nat.lt_ge_cases 1 (length (points s ++ X))) as [|L]; auto. exfalso.
    assert (i < length X) by (apply nth_error_Some; congruence).
    assert (j < length (points s ++ X)) by (apply nth_error_Some; congruence).
    rewrite app_length in *. assert (length (points s) = 0) by lia. destruct (points s); simpl in *; [|lia].
    assert (i = 0) by lia. assert (j = 0) by lia. subst. rewrite Hi in Hj. inversion Hj; subst.
    eapply dominates_irrefl; [|exact Hd]. unfold same_width in Hw. rewrite Forall_forall in Hw. apply Hw.
    eapply nth_error_In; eauto. }
  apply Nat.ltb_lt in Hn. rewrite Hn. cbn [andb]. apply pareto_new_pairs_In. split; auto.
  exists i, a, b. split; [lia|]. split; auto. split; auto. apply all_gt_dominates; auto.
  unfold same_width in Hw. rewrite Forall_forall in Hw. rewrite (Hw a), (Hw b); auto.
  - eapply nth_error_In; eauto.
  - apply in_or_app. right. eapply nth_error_In; eauto.
Qed.

(** ---- C18 ---- *)
Lemma shifted_In n l d u v : In (d, u, v) (shifted n l) <-> exists u' v', In (d, u', v') l /\ u = u' + n /\ v = v' + n.
Proof.
  unfold shifted. rewrite in_map_iff. split.
  - intros [[[d' u'] v'] [E H]]. inversion E; subst. eauto.
  - intros [u' [v' [H [-> ->]]]]. exists (d, u', v'). auto.
Qed.
Lemma gen_rel_range s X d u v : In (d, u, v) (gen_rel s X) -> u < length (points s ++ X) /\ v < length (points s ++ X).
Proof.
  unfold gen_rel. destruct (_ && _); [|intros []]. rewrite pareto_new_pairs_In.
  intros [_ [i [x [r [-> [Hi [Hv _]]]]]]]. split; [|apply nth_error_Some; congruence].
  assert (i < length X) by (apply nth_error_Some; congruence). rewrite app_length. lia.
Qed.
Lemma add_in_range s X y s' st : add s X y = (s', st) -> about_batch (length (points s)) (length X) y ->
  labels_in_range s -> labels_in_range s'.
Proof.
  intros H Hb [H1 [H2 H3]].
  assert (Dec : st = Done \/ st <> Done) by (destruct st; auto; right; discriminate).
  destruct Dec as [->|Hne].
  - destruct (add_spec _ _ _ _ H) as [Ep [_ [Er [_ [Eoi [_ [Eai _]]]]]]].
    unfold labels_in_range, rel_in_range. rewrite Ep, Er, Eoi, Eai. split; [|split].
    + intros d u v Hin. rewrite !in_app_iff in Hin. destruct Hin as [Hin|[Hin|Hin]].
      * apply H1 in Hin. rewrite app_length. lia.
      * destruct y; simpl in Hin; try tauto. apply shifted_In in Hin. destruct Hin as [u' [v' [Hin [-> ->]]]].
        simpl in Hb. apply Hb in Hin. rewrite app_length. lia.
      * eapply gen_rel_range; eauto.
    + intros i Hin. rewrite in_app_iff in Hin. rewrite app_length. destruct Hin as [Hin|Hin]; [apply H2 in Hin; lia|].
      destruct y; simpl in Hin, Hb; try tauto.
      * apply in_map_iff in Hin. destruct Hin as [j [<- Hj]]. apply in_seq in Hj. lia.
      * apply in_map_iff in Hin. destruct Hin as [[d j] [<- Hj]]. apply Hb in Hj. simpl. lia.
    + intros i Hin. rewrite in_app_iff in Hin. rewrite app_length. destruct Hin as [Hin|Hin]; [apply H3 in Hin; lia|].
      destruct y; simpl in Hin, Hb; try tauto.
      * apply in_seq in Hin. lia.
      * apply Hb in Hin. lia.
  - destruct (add_rejected _ _ _ _ _ H Hne) as [Ep [Er [_ [Eoi [_ [Eai _]]]]]].
    unfold labels_in_range, rel_in_range. rewrite Ep, Er, Eoi, Eai, app_length.
    split; [|split]; intros; [apply H1 in H0 | apply H2 in H0 | apply H3 in H0]; lia.
Qed.


Lemma run_in_range ops : forall s, labels_in_range s -> history_about s ops -> Forall is_add_or_reset ops ->
  labels_in_range (run s ops).
Proof.
  induction ops as [|o ops IH]; intros s Hs Hh Hf; [exact Hs|].
  inversion Hf as [|? ? Ho Hf']; subst. destruct Hh as [Ho' Hh]. unfold run in *. cbn [fold_left]. apply IH; auto.
  destruct o as [X y|pts|b|]; simpl in *; try tauto.
  - destruct (add s X y) as [s' st] eqn:E. simpl. eapply add_in_range; eauto.
  - split; [intros d u v []|]. split; intros i [].
Qed.
Lemma init_in_range b : labels_in_range (init b).
Proof. split; [intros d u v []|]. split; intros i []. Qed.

(** ---- remove_without_reference ---- *)
Lemma mentioned_spec ps i : mentioned ps i = true <-> exists d u v, In (d, u, v) ps /\ (u = i \/ v = i).
Proof.
  unfold mentioned. rewrite existsb_exists. split.
  - intros [[[d u] v] [H E]]. rewrite orb_true_iff, !Nat.eqb_eq in E. eauto 10.
  - intros [d [u [v [H E]]]]. exists (d, u, v). split; auto. rewrite orb_true_iff, !Nat.eqb_eq. auto.
Qed.
(** position of kept row [i] in the filtered list *)
Lemma nth_error_filter_enum {A} (f : nat -> bool) (l : list A) : forall s i x,
  nth_error l i = Some x -> f (s + i) = true ->
  nth_error (filter (fun ir : nat * A => f (fst ir)) (enumerate_from s l))
    (length (filter f (seq s i))) = Some (s + i, x).
Proof.
  induction l as [|y l IH]; intros s i x H Hf; [destruct i; discriminate|].
  destruct i as [|i].
  - simpl in H. inversion H; subst. rewrite Nat.add_0_r in *. simpl. rewrite Hf. reflexivity.
  - simpl in H. cbn [enumerate_from filter seq fst]. specialize (IH (S s) i x H).
    replace (S s + i) with (s + S i) in IH by lia. specialize (IH Hf).
    destruct (f s); simpl; exact IH.
Qed.
Lemma filter_partition_length {A} (f : A -> bool) l :
  length (filter f l) + length (filter (fun x => negb (f x)) l) = length l.
Proof. induction l as [|x l IH]; simpl; auto. destruct (f x); simpl; lia. Qed.
Lemma removed_upto_pos ps i : mentioned ps i = true ->
  i - removed_upto ps i = length (filter (mentioned ps) (seq 0 i)).
Proof.
  intro H. unfold removed_upto. rewrite seq_S, filter_app, app_length. simpl. rewrite H. simpl.
  pose proof (filter_partition_length (mentioned ps) (seq 0 i)) as P. rewrite seq_length in P. lia.
Qed.
Lemma keep_rows_nth ps X i x : nth_error X i = Some x -> mentioned ps i = true ->
  nth_error (keep_rows ps X) (i - removed_upto ps i) = Some x.
Proof.
  intros H Hm. rewrite removed_upto_pos by auto. unfold keep_rows, enumerate.
  rewrite nth_error_map. erewrite nth_error_filter_enum; eauto. reflexivity.
Qed.

Lemma remove_spec s b s' st : remove_without_reference s b = (s', st) -> rel_in_range s -> sX s <> None ->
  sRel s <> None -> (b = true -> sPrior s <> None) ->
  st = Done /\
  map (says (points s')) (rel s') = map (says (points s)) (rel s) /\
  points s' = map snd (filter (fun ir : nat * row => mentioned (rel s) (fst ir)) (enumerate (points s))) /\
  rel_in_range s' /\
  ord_v s' = ord_v s /\ ord_i s' = ord_i s /\ abs_v s' = abs_v s /\ abs_i s' = abs_i s /\ sOpt s' = sOpt s /\
  sPareto s' = sPareto s.
Proof.
  unfold remove_without_reference, rel_in_range, points, rel.
  destruct (sX s) as [X|] eqn:EX; [|congruence]. destruct (sRel s) as [ps|] eqn:ER; [|congruence].
  intros H Hr _ _ Hp.
  assert (Hall : forallb (pair_in_range (length X)) ps = true).
  { apply forallb_forall. intros [[d u] v] Hin. apply Hr in Hin. simpl. rewrite andb_true_iff, !Nat.ltb_lt. auto. }
  rewrite Hall in H.
  assert (Core : forall s1, sX s1 = Some (keep_rows ps X) -> sRel s1 = Some (map (renumber ps) ps) ->
    map (says (match sX s1 with None => [] | Some X => X end)) (match sRel s1 with None => [] | Some l => l end) = map (says X) ps /\
    (match sX s1 with None => [] | Some X => X end) = map snd (filter (fun ir : nat * row => mentioned ps (fst ir)) (enumerate X)) /\
    (forall d u v, In (d, u, v) (match sRel s1 with None => [] | Some l => l end) ->
        u < length (match sX s1 with None => [] | Some X => X end) /\ v < length (match sX s1 with None => [] | Some X => X end))).
  { intros s1 -> ->. split; [|split; [reflexivity|]].
    - rewrite map_map. apply map_ext_in. intros [[d u] v] Hin. destruct (Hr d u v Hin) as [Hu Hv]. simpl.
      destruct (nth_error X u) as [xu|] eqn:Eu; [|apply nth_error_None in Eu; lia].
      destruct (nth_error X v) as [xv|] eqn:Ev; [|apply nth_error_None in Ev; lia].
      assert (mentioned ps u = true) by (apply mentioned_spec; eauto 10).
      assert (mentioned ps v = true) by (apply mentioned_spec; eauto 10).
      rewrite (keep_rows_nth _ _ _ _ Eu), (keep_rows_nth _ _ _ _ Ev) by auto. reflexivity.
    - intros d u v Hin. apply in_map_iff in Hin. destruct Hin as [[[d' u'] v'] [E Hin]]. simpl in E. inversion E; subst.
      destruct (Hr d u' v' Hin) as [Hu Hv].
      destruct (nth_error X u') as [xu|] eqn:Eu; [|apply nth_error_None in Eu; lia].
      destruct (nth_error X v') as [xv|] eqn:Ev; [|apply nth_error_None in Ev; lia].
      assert (mentioned ps u' = true) by (apply mentioned_spec; eauto 10).
      assert (mentioned ps v' = true) by (apply mentioned_spec; eauto 10).
      split; apply nth_error_Some; [rewrite (keep_rows_nth _ _ _ _ Eu) | rewrite (keep_rows_nth _ _ _ _ Ev)]; auto; discriminate. }
  assert (ES : st = Done /\ sX s' = Some (keep_rows ps X) /\ sRel s' = Some (map (renumber ps) ps) /\
     sOrd s' = sOrd s /\ sAbs s' = sAbs s /\ sOpt s' = sOpt s /\ sPareto s' = sPareto s).
  { destruct b; [destruct (sPrior s) as [[a e]|] eqn:EP; [|specialize (Hp eq_refl); congruence]|];
      inversion H; subst; simpl; auto 10. }
  destruct ES as [-> [E1 [E2 [E3 [E4 [E5 E6]]]]]]. split; auto.
  destruct (Core s' E1 E2) as [C1 [C2 C3]].
  unfold ord_v, ord_i, abs_v, abs_i. rewrite E3, E4, E5, E6. auto 12.
Qed.

Lemma filter_enum_fst_SS {A} (f : nat -> bool) (l : list A) : forall s,
  StronglySorted lt (map fst (filter (fun ir : nat * A => f (fst ir)) (enumerate_from s l))).
Proof.
  induction l as [|x l IH]; intro s; simpl; [constructor|].
  destruct (f s); simpl; auto. constructor; auto. apply Forall_forall. intros i Hi.
  apply in_map_iff in Hi. destruct Hi as [[j y] [<- Hj]]. apply filter_In in Hj. destruct Hj as [Hj _].
  apply enumerate_from_nth in Hj. simpl. lia.
Qed.
Lemma filter_enum_picked (f : nat -> bool) (X : list row) :
  let L := filter (fun ir : nat * row => f (fst ir)) (enumerate X) in
  picked X (map fst L) (map snd L) /\ (forall i, In i (map fst L) <-> i < length X /\ f i = true).
Proof.
  cbv zeta. split.
  - split; [apply filter_enum_fst_SS|].
    assert (H : forall ir, In ir (filter (fun ir : nat * row => f (fst ir)) (enumerate X)) -> nth_error X (fst ir) = Some (snd ir)).
    { intros [i x] H. apply filter_In in H. destruct H as [H _]. now apply enumerate_nth in H. }
    induction (filter _ (enumerate X)) as [|[i x] L IH]; simpl; constructor; [apply (H (i, x)); simpl; auto|].
    apply IH. intros; apply H; simpl; auto.
  - intro i. rewrite in_map_iff. split.
    + intros [[j x] [<- H]]. apply filter_In in H. destruct H as [H Hf]. apply enumerate_nth in H. simpl in *.
      split; auto. apply nth_error_Some. congruence.
    + intros [Hi Hf]. destruct (nth_error X i) as [x|] eqn:E; [|apply nth_error_None in E; lia].
      exists (i, x). split; auto. apply filter_In. split; auto. now apply enumerate_nth.
Qed.
Lemma remove_main s b s' st : remove_without_reference s b = (s', st) -> rel_in_range s -> sX s <> None ->
  sRel s <> None -> (b = true -> sPrior s <> None) ->
  st = Done /\ map (says (points s')) (rel s') = map (says (points s)) (rel s) /\
  exists keep, picked (points s) keep (points s') /\ (forall i, In i keep <-> i < length (points s) /\ referenced s i).
Proof.
  intros H Hr HX HR HP. destruct (remove_spec s b s' st H Hr HX HR HP) as [Hd [Hs [Hp _]]]. split; auto. split; auto.
  destruct (filter_enum_picked (mentioned (rel s)) (points s)) as [K1 K2]. cbv zeta in K1.
  eexists. rewrite Hp. split; [exact K1|]. intro i. rewrite K2, mentioned_spec. reflexivity.
Qed.

(** relative labels stay in range over all histories *)
Lemma add_prior_rel_in_range s pts : rel_in_range s -> rel_in_range (fst (add_prior s pts)).
Proof.
  intro H. unfold add_prior. destruct (sPareto s); [|exact H]. cbn [negb].
  set (s1 := set_prior s _). destruct (add s1 pts (LRel [])) as [s2 st] eqn:E.
  assert (H2 : rel_in_range s2).
  { assert (Hl : st = Done).
    { unfold add in E. cbn [add_labels map] in E. destruct (0 <? npts s1); inversion E; auto. }
    subst st. destruct (add_spec _ _ _ _ E) as [Ep [_ [Er _]]]. unfold rel_in_range. rewrite Ep, Er.
    intros d u v Hin. simpl in Hin. rewrite in_app_iff in Hin. destruct Hin as [Hin|Hin].
    - change (rel s1) with (rel s) in Hin. change (points s1) with (points s). apply H in Hin. rewrite app_length. lia.
    - eapply gen_rel_range; eauto. }
  destruct st; auto.
  destruct (remove_without_reference s2 true) as [s3 st3] eqn:E3. cbn [fst].
  destruct (sX s2) as [X|] eqn:EX; [|unfold remove_without_reference in E3; rewrite EX in E3; inversion E3; subst; auto].
  destruct (sRel s2) as [ps|] eqn:ER; [|unfold remove_without_reference in E3; rewrite EX, ER in E3; inversion E3; subst; auto].
  assert (HP : sPrior s2 <> None).
  { destruct (add_spec _ _ _ _ E) as (_ & _ & _ & _ & _ & _ & _ & HP & _). rewrite HP. discriminate. }
  apply (remove_spec s2 true s3 st3 E3 H2); congruence.
Qed.
Lemma remove_rel_in_range s b : rel_in_range s -> rel_in_range (fst (remove_without_reference s b)).
Proof.
  intro H. destruct (remove_without_reference s b) as [s' st] eqn:E. cbn [fst].
  destruct (sX s) as [X|] eqn:EX; [|unfold remove_without_reference in E; rewrite EX in E; inversion E; subst; auto].
  destruct (sRel s) as [ps|] eqn:ER; [|unfold remove_without_reference in E; rewrite EX, ER in E; inversion E; subst; auto].
  destruct b.
  - destruct (sPrior s) as [[a e]|] eqn:EP.
    + apply (remove_spec s true s' st E H); congruence.
    + (* the exception of line 149 comes after the data were changed *)
      destruct (remove_without_reference s false) as [s0 st0] eqn:E0.
      assert (R0 : rel_in_range s0) by (apply (remove_spec s false s0 st0 E0 H); congruence).
      unfold remove_without_reference in E, E0. rewrite EX, ER in E, E0. rewrite EP in E.
      destruct (forallb _ ps); inversion E; inversion E0; subst; auto.
  - apply (remove_spec s false s' st E H); congruence.
Qed.
Lemma add_rel_in_range s X y : about_rel s (OAdd X y) -> rel_in_range s -> rel_in_range (fst (add s X y)).
Proof.
  intros Ha H. destruct (add s X y) as [s' st] eqn:E. cbn [fst].
  assert (Dec : st = Done \/ st <> Done) by (destruct st; auto; right; discriminate).
  destruct Dec as [->|Hne].
  - destruct (add_spec _ _ _ _ E) as [Ep [_ [Er _]]]. unfold rel_in_range. rewrite Ep, Er.
    intros d u v Hin. rewrite !in_app_iff in Hin. destruct Hin as [Hin|[Hin|Hin]].
    + apply H in Hin. rewrite app_length. lia.
    + destruct y; simpl in Hin; try tauto. apply shifted_In in Hin. destruct Hin as [u' [v' [Hin [-> ->]]]].
      simpl in Ha. apply Ha in Hin. rewrite app_length. lia.
    + eapply gen_rel_range; eauto.
  - destruct (add_rejected _ _ _ _ _ E Hne) as [Ep [Er _]]. unfold rel_in_range. rewrite Ep, Er, app_length.
    intros d u v Hin. apply H in Hin. lia.
Qed.
Lemma run_rel_in_range ops : forall s, rel_in_range s -> rel_history_about s ops -> rel_in_range (run s ops).
Proof.
  induction ops as [|o ops IH]; intros s Hs Hh; [exact Hs|]. destruct Hh as [Ho Hh].
  unfold run in *. cbn [fold_left]. apply IH; auto.
  destruct o as [X y|pts|b|]; cbn [step].
  - apply add_rel_in_range; auto.
  - apply add_prior_rel_in_range; auto.
  - apply remove_rel_in_range; auto.
  - intros d u v [].
Qed.

(** ---- C22 ---- *)
Lemma clamp_range x : (1#1000 <= clamp x <= 999#1000)%Q.
Proof.
  unfold clamp. cbv zeta. destruct (Qlt_bool x (1#1000)) eqn:E1.
  - assert (E2 : Qlt_bool (999#1000) (1#1000) = false) by reflexivity. rewrite E2.
    split; [apply Qle_refl|]. vm_compute. discriminate.
  - destruct (Qlt_bool (999#1000) x) eqn:E2.
    + split; [vm_compute; discriminate | apply Qle_refl].
    + apply Qlt_bool_false in E1, E2. auto.
Qed.
Lemma clamp_inside x : (1#1000 <= x <= 999#1000)%Q -> clamp x = x.
Proof.
  intros [H1 H2]. unfold clamp. cbv zeta. apply Qlt_bool_false in H1. rewrite H1.
  apply Qlt_bool_false in H2. now rewrite H2.
Qed.
Lemma clamp_mono x y : (x <= y)%Q -> (clamp x <= clamp y)%Q.
Proof.
  intro H. unfold clamp at 1. cbv zeta. destruct (Qlt_bool x (1#1000)) eqn:E1.
  - assert (E2 : Qlt_bool (999#1000) (1#1000) = false) by reflexivity. rewrite E2. apply clamp_range.
  - destruct (Qlt_bool (999#1000) x) eqn:E2.
    + apply Qlt_bool_iff in E2. unfold clamp. cbv zeta.
      assert (E3 : Qlt_bool y (1#1000) = false).
      { apply Qlt_bool_false. apply Qlt_bool_false in E1. eapply Qle_trans; eauto. }
      rewrite E3. assert (E4 : Qlt_bool (999#1000) y = true).
      { apply Qlt_bool_iff. eapply Qlt_le_trans; eauto. }
      rewrite E4. apply Qle_refl.
    + unfold clamp. cbv zeta. apply Qlt_bool_false in E1, E2.
      assert (E3 : Qlt_bool y (1#1000) = false).
      { apply Qlt_bool_false. eapply Qle_trans; eauto. }
      rewrite E3. destruct (Qlt_bool (999#1000) y) eqn:E4; auto.
Qed.
Lemma add_ratings s X y v : ratings_of y = Some v ->
  (snd (add s X y) = Raised ValueError /\ exists x, In x v /\ (x < 0 \/ 1 < x)%Q) \/
  (snd (add s X y) = Done /\ (forall x, In x v -> (0 <= x <= 1)%Q) /\ abs_v (fst (add s X y)) = abs_v s ++ map clamp v).
Proof.
  intro Hy. destruct (add s X y) as [s' st] eqn:E. cbn [fst snd].
  assert (C : (exists i, add_labels (add_points s X) (npts s) y = add_abs (add_points s X) v i) ).
  { destruct y; simpl in Hy; try discriminate; inversion Hy; subst; simpl; eauto. }
  destruct C as [i C].
  assert (B : (existsb (fun x => Qlt_bool x 0) v || existsb (fun x => Qlt_bool 1 x) v = true /\ st = Raised ValueError) \/
              (st = Done /\ exists s2, add_abs (add_points s X) v i = (s2, Done))).
  { unfold add in E. cbv zeta in E. rewrite C in E. unfold add_abs in *. destruct (_ || _).
    - left. inversion E; auto.
    - right. inversion E. split; eauto. }
  destruct B as [[B ->]|[-> [s2 B]]].
  - left. split; auto. rewrite orb_true_iff, !existsb_exists in B.
    destruct B as [[x [Hx Hl]]|[x [Hx Hl]]]; apply Qlt_bool_iff in Hl; eauto.
  - right. split; auto. apply add_abs_spec in B. split; [apply B|].
    destruct (add_spec _ _ _ _ E) as (_ & _ & _ & _ & _ & Ea & _). rewrite Ea. f_equal.
    destruct y; simpl in Hy; try discriminate; inversion Hy; subst; reflexivity.
Qed.
Lemma add_ordinals s X y v : ordinals_of y = Some v ->
  (snd (add s X y) = Raised GenericException /\ exists x, In x v /\ (x <= 0)%Z) \/
  (snd (add s X y) = Done /\ (forall x, In x v -> (0 < x)%Z) /\ ord_v (fst (add s X y)) = ord_v s ++ v).
Proof.
  intro Hy. destruct (add s X y) as [s' st] eqn:E. cbn [fst snd].
  assert (C : (exists i, add_labels (add_points s X) (npts s) y = add_ord (add_points s X) v i) ).
  { destruct y; simpl in Hy; try discriminate; inversion Hy; subst; simpl; eauto. }
  destruct C as [i C].
  assert (B : (existsb (fun x => (x <=? 0)%Z) v = true /\ st = Raised GenericException) \/
              (st = Done /\ exists s2, add_ord (add_points s X) v i = (s2, Done))).
  { unfold add in E. cbv zeta in E. rewrite C in E. unfold add_ord in *. destruct (existsb _ v).
    - left. inversion E; auto.
    - right. inversion E. split; eauto. }
  destruct B as [[B ->]|[-> [s2 B]]].
  - left. split; auto. rewrite existsb_exists in B. destruct B as [x [Hx Hl]]. apply Z.leb_le in Hl. eauto.
  - right. split; auto. apply add_ord_spec in B. split; [apply B|].
    destruct (add_spec _ _ _ _ E) as (_ & _ & _ & Ea & _). rewrite Ea. f_equal.
    destruct y; simpl in Hy; try discriminate; inversion Hy; subst; reflexivity.
Qed.
Lemma add_ratings_ok s X y : ratings_ok s -> ratings_ok (fst (add s X y)).
Proof.
  intro H. destruct (add s X y) as [s' st] eqn:E. cbn [fst].
  assert (Dec : st = Done \/ st <> Done) by (destruct st; auto; right; discriminate).
  intros x Hx. destruct Dec as [->|Hne].
  - destruct (add_spec _ _ _ _ E) as (_ & _ & _ & _ & _ & Ea & _). rewrite Ea in Hx.
    apply in_app_iff in Hx. destruct Hx as [Hx|Hx]; auto.
    destruct y; simpl in Hx; try tauto; apply in_map_iff in Hx; destruct Hx as [z [<- _]]; apply clamp_range.
  - destruct (add_rejected _ _ _ _ _ E Hne) as (_ & _ & _ & _ & Ea & _). rewrite Ea in Hx. auto.
Qed.
Lemma remove_abs s b : sAbs (fst (remove_without_reference s b)) = sAbs s.
Proof.
  unfold remove_without_reference. destruct (sX s); auto. destruct (sRel s); auto. destruct (forallb _ _); auto.
  destruct b; auto. destruct (sPrior s) as [[? ?]|]; auto.
Qed.
Lemma add_prior_cases s pts : sPareto s = true ->
  exists s2, add (set_prior s (Some (Z.of_nat (npts s), Z.of_nat (npts s + length pts)))) pts (LRel []) = (s2, Done) /\
   add_prior s pts = remove_without_reference s2 true.
Proof.
  intro Hp. unfold add_prior. rewrite Hp. cbn [negb].
  set (s1 := set_prior s _). destruct (add s1 pts (LRel [])) as [s2 st] eqn:E.
  assert (Hl : st = Done).
  { unfold add in E. cbn [add_labels map] in E. destruct (0 <? npts s1); inversion E; auto. }
  subst. eauto.
Qed.
Lemma step_ratings_ok s o : ratings_ok s -> ratings_ok (fst (step s o)).
Proof.
  intro H. destruct o as [X y|pts|b|]; cbn [step].
  - apply add_ratings_ok; auto.
  - destruct (sPareto s) eqn:Hp; [|unfold add_prior; rewrite Hp; exact H].
    destruct (add_prior_cases s pts Hp) as [s2 [E ->]].
    unfold ratings_ok, abs_v. rewrite remove_abs. fold (abs_v s2).
    change s2 with (fst (s2, Done)). rewrite <- E. apply add_ratings_ok. exact H.
  - unfold ratings_ok, abs_v. rewrite remove_abs. exact H.
  - intros x [].
Qed.
Lemma run_ratings_ok ops : forall s, ratings_ok s -> ratings_ok (run s ops).
Proof.
  induction ops as [|o ops IH]; intros s H; [exact H|]. unfold run in *. cbn [fold_left]. apply IH, step_ratings_ok, H.
Qed.

(** ---- C27 ---- *)
Definition same_but_opt (s t : store) : Prop := same_data s t /\ sPareto s = sPareto t.
Lemma same_but_opt_eq s t : same_but_opt s t -> s = set_opt t (sOpt s).
Proof.
  destruct s, t. unfold same_but_opt, same_data, set_opt. simpl. intros [[-> [-> [-> [-> ->]]]] ->]. reflexivity.
Qed.
Lemma add_opt s b X y : exists b', fst (add (set_opt s b) X y) = set_opt (fst (add s X y)) b' /\
  snd (add (set_opt s b) X y) = snd (add s X y).
Proof.
  unfold add. cbv zeta.
  assert (E : npts (set_opt s b) = npts s) by reflexivity. rewrite E.
  assert (A : add_labels (add_points (set_opt s b) X) (npts s) y =
     (set_opt (fst (add_labels (add_points s X) (npts s) y)) b, snd (add_labels (add_points s X) (npts s) y))).
  { destruct y as [l|l|l|l|l i| |]; cbn [add_labels]; try reflexivity.
    - cbv zeta. destruct (if 0 <? npts s then _ else _); [reflexivity|].
      unfold append_rel. simpl. destruct (sRel s); reflexivity.
    - unfold add_ord. destruct (existsb _ _); [reflexivity|]. unfold append_ord. simpl. destruct (sOrd s) as [[? ?]|]; reflexivity.
    - unfold add_ord. destruct (existsb _ _); [reflexivity|]. unfold append_ord. simpl. destruct (sOrd s) as [[? ?]|]; reflexivity.
    - unfold add_abs. destruct (_ || _); [reflexivity|]. unfold append_abs. simpl. destruct (sAbs s) as [[? ?]|]; reflexivity.
    - unfold add_abs. destruct (_ || _); [reflexivity|]. unfold append_abs. simpl. destruct (sAbs s) as [[? ?]|]; reflexivity. }
  rewrite A. destruct (add_labels (add_points s X) (npts s) y) as [s2 st]. cbn [fst snd].
  destruct st; cbn [fst snd]; [|exists b; auto|exists b; auto].
  exists false. split; auto. unfold add_pareto. simpl.
  assert (N : npts (set_opt s2 b) = npts s2) by reflexivity.
  assert (P : pts_of (set_opt s2 b) = pts_of s2) by reflexivity. rewrite N, P.
  destruct (sPareto s2 && (1 <? npts s2)); [|reflexivity].
  destruct (pareto_new_pairs (pts_of s2) (npts s) X); [reflexivity|].
  unfold append_rel. simpl. destruct (sRel s2); reflexivity.
Qed.
Lemma remove_opt s b c : fst (remove_without_reference (set_opt s b) c) = set_opt (fst (remove_without_reference s c)) b /\
  snd (remove_without_reference (set_opt s b) c) = snd (remove_without_reference s c).
Proof.
  unfold remove_without_reference. simpl. destruct (sX s); auto. destruct (sRel s); auto. destruct (forallb _ _); auto.
  destruct c; auto. destruct (sPrior s) as [[? ?]|]; auto.
Qed.
Lemma step_opt s b o : exists b', fst (step (set_opt s b) o) = set_opt (fst (step s o)) b' /\
  snd (step (set_opt s b) o) = snd (step s o).
Proof.
  destruct o as [X y|pts|c|]; cbn [step].
  - apply add_opt.
  - unfold add_prior. simpl. destruct (sPareto s); cbn [negb]; [|exists b; auto].
    change (set_prior (set_opt s b) ?p) with (set_opt (set_prior s p) b).
    assert (N : npts (set_opt s b) = npts s) by reflexivity. rewrite N.
    destruct (add_opt (set_prior s (Some (Z.of_nat (npts s), Z.of_nat (npts s + length pts)))) b pts (LRel [])) as [b' [E1 E2]].
    destruct (add (set_opt (set_prior s _) b) pts (LRel [])) as [s2 st].
    destruct (add (set_prior s _) pts (LRel [])) as [t2 st']. cbn [fst snd] in *. subst.
    destruct st'; [|exists b'; auto|exists b'; auto].
    exists b'. apply remove_opt.
  - exists b. apply remove_opt.
  - exists b. auto.
Qed.
Lemma run_opt ops : forall s b, exists b', run (set_opt s b) ops = set_opt (run s ops) b'.
Proof.
  induction ops as [|o ops IH]; intros s b; [exists b; reflexivity|].
  unfold run in *. cbn [fold_left]. destruct (step_opt s b o) as [b1 [E _]]. rewrite E. apply IH.
Qed.
Lemma reset_fresh s ops : same_data (run (reset s) ops) (run (init (sPareto s)) ops).
Proof.
  assert (E : reset s = set_opt (init (sPareto s)) (sOpt s)) by reflexivity. rewrite E.
  destruct (run_opt ops (init (sPareto s)) (sOpt s)) as [b' ->]. repeat split.
Qed.
Lemma reset_fresh_status s ops o : snd (step (run (reset s) ops) o) = snd (step (run (init (sPareto s)) ops) o).
Proof.
  assert (E : reset s = set_opt (init (sPareto s)) (sOpt s)) by reflexivity. rewrite E.
  destruct (run_opt ops (init (sPareto s)) (sOpt s)) as [b' ->].
  destruct (step_opt (run (init (sPareto s)) ops) b' o) as [b2 [_ ->]]. reflexivity.
Qed.

(** ---- C21 positive: dominations by the later batch are never lost under further adds ---- *)
Lemma add_ok_spec s a s' : add_ok s a = Some s' -> add s (fst a) (snd a) = (s', Done).
Proof. unfold add_ok. destruct (add s (fst a) (snd a)) as [t st]. destruct st; congruence. Qed.
Lemma adds_ok_extends l : forall s s', adds_ok s l = Some s' ->
  (exists X, points s' = points s ++ X) /\ (exists r, rel s' = rel s ++ r) /\ sPareto s' = sPareto s.
Proof.
  induction l as [|a l IH]; intros s s' H; simpl in H.
  - inversion H; subst. split; [exists []; now rewrite app_nil_r|]. split; auto. exists []; now rewrite app_nil_r.
  - destruct (add_ok s a) as [s1|] eqn:E; [|discriminate]. apply add_ok_spec in E.
    destruct (add_spec _ _ _ _ E) as (Ep & _ & Er & _ & _ & _ & _ & _ & _ & EP).
    destruct (IH _ _ H) as [[X HX] [[r Hr] HP]]. split; [|split].
    + exists (fst a ++ X). now rewrite HX, Ep, app_assoc.
    + eexists. rewrite Hr, Er, <- app_assoc. reflexivity.
    + congruence.
Qed.
(** [i] was added by the last batch of a successful history, then more batches followed *)
Lemma later_batch_recorded k s X y s1 rest s' i j a b :
  same_width (S k) (points s ++ X) -> sPareto s = true ->
  add s X y = (s1, Done) -> adds_ok s1 rest = Some s' ->
  length (points s) <= i < length (points s1) -> j < length (points s1) ->
  nth_error (points s') i = Some a -> nth_error (points s') j = Some b -> dominates a b ->
  In ((-1)%Z, i, j) (rel s').
Proof.
  intros Hw Hp E Er Hi Hj Ha Hb Hd.
  destruct (add_spec _ _ _ _ E) as (Ep & _ & Erl & _).
  destruct (adds_ok_extends _ _ _ Er) as [[X' HX] [[r Hr] _]].
  rewrite Hr, Erl, !in_app_iff. left; right; right.
  rewrite HX in Ha, Hb. rewrite nth_error_app1 in Ha, Hb by lia. rewrite Ep in Ha, Hb.
  rewrite nth_error_app2 in Ha by lia.
  replace i with (length (points s) + (i - length (points s))) by lia.
  eapply gen_rel_complete; eauto.
Qed.

(** ---- C25 positive ---- *)
Lemma picked_prefix X keep l : picked X keep l -> forall i, (forall j, j <= i -> In j keep) ->
  nth_error l i = nth_error X i.
Proof.
  intros [Hs Hf] i Hi.
  assert (Hk : nth_error keep i = Some i).
  { assert (G : forall keep s, StronglySorted lt keep -> Forall (fun x => s <= x) keep ->
              forall i, (forall j, s <= j <= s + i -> In j keep) -> nth_error keep i = Some (s + i)).
    { clear. induction keep as [|x keep IH]; intros s Hs Hge i Hi.
      - exfalso. apply (Hi s). lia.
      - inversion Hs as [|? ? Hs' Hlt]; inversion Hge as [|? ? Hx Hge']; subst.
        assert (x = s).
        { destruct (Hi s) as [|Hin]; [lia|auto|]. rewrite Forall_forall in Hlt. specialize (Hlt s Hin). lia. }
        subst. destruct i as [|i]; [simpl; f_equal; lia|]. simpl.
        replace (s + S i) with (S s + i) by lia. apply IH; auto.
        intros j Hj. destruct (Hi j) as [|Hin]; [lia|lia|auto]. }
    specialize (G keep 0 Hs). simpl in G. apply G; [apply Forall_forall; lia|]. intros j Hj. apply Hi. lia. }
  clear -Hk Hf. revert i Hk.
  assert (G : forall p q, nth_error keep p = Some q -> nth_error l p = nth_error X q).
  { induction Hf as [|q x keep l Hx Hf IH]; intros p q' E; [destruct p; discriminate|].
    destruct p; simpl in *; [inversion E; subst; auto | auto]. }
  intros i Hk. apply G. exact Hk.
Qed.
Lemma remove_rating_prefix s b s' st i :
  remove_without_reference s b = (s', st) -> rel_in_range s -> sX s <> None -> sRel s <> None ->
  (b = true -> sPrior s <> None) -> i < length (points s) ->
  (forall j, j <= i -> referenced s j) -> nth_error (points s') i = nth_error (points s) i.
Proof.
  intros H Hr HX HR HP Hi Href. destruct (remove_main s b s' st H Hr HX HR HP) as [_ [_ [keep [Hk Hin]]]].
  eapply picked_prefix; eauto. intros j Hj. apply Hin. split; [lia|auto].
Qed.
(** labels themselves are never touched *)
Lemma remove_labels s b : sOrd (fst (remove_without_reference s b)) = sOrd s /\ sAbs (fst (remove_without_reference s b)) = sAbs s.
Proof.
  unfold remove_without_reference. destruct (sX s); auto. destruct (sRel s); auto. destruct (forallb _ _); auto.
  destruct b; auto. destruct (sPrior s) as [[? ?]|]; auto.
Qed.

(** ---- C26 ---- *)
Lemma enumerate_from_app {A} (a b : list A) : forall s, enumerate_from s (a ++ b) = enumerate_from s a ++ enumerate_from (s + length a) b.
Proof.
  induction a as [|x a IH]; intro s; simpl; [now rewrite Nat.add_0_r|]. rewrite IH. do 3 f_equal. lia.
Qed.
Lemma filter_all {A} (f : A -> bool) l : (forall x, In x l -> f x = true) -> filter f l = l.
Proof.
  induction l as [|x l IH]; simpl; auto. intro H. rewrite (H x) by auto. f_equal. apply IH. auto.
Qed.
Lemma filter_enum_shift {A} (f : nat -> bool) (l : list A) : forall n s,
  map snd (filter (fun ir : nat * A => f (fst ir)) (enumerate_from (n + s) l)) =
  map snd (filter (fun ir : nat * A => f (n + fst ir)) (enumerate_from s l)).
Proof.
  induction l as [|x l IH]; intros n s; simpl; auto.
  replace (S (n + s)) with (n + S s) by lia. destruct (f (n + s)); simpl; now rewrite IH.
Qed.
Lemma map_snd_enumerate {A} (l : list A) : forall s, map snd (enumerate_from s l) = l.
Proof. induction l as [|x l IH]; intro s; simpl; auto. now rewrite IH. Qed.
Lemma add_prior_main k s pts s' :
  sPareto s = true -> rel_in_range s -> same_width (S k) (points s ++ pts) ->
  (forall i, i < length (points s) -> referenced s i) ->
  add_prior s pts = (s', Done) ->
  exists keep l, get_prior_pts s' = Ok (Some l) /\ points s' = points s ++ l /\ picked pts keep l /\
    forall i, In i keep <-> exists a, nth_error pts i = Some a /\
       ((exists b, In b (points s ++ pts) /\ dominates a b) \/ (exists b, In b pts /\ dominates b a)).
Proof.
  intros Hp Hr Hw Href H. destruct (add_prior_cases s pts Hp) as [s2 [E E2]]. rewrite E2 in H. clear E2.
  set (s1 := set_prior s _) in E.
  assert (Hr2 : rel_in_range s2).
  { change s2 with (fst (s2, Done)). rewrite <- E. apply add_rel_in_range; [intros d u v []|exact Hr]. }
  destruct (add_spec _ _ _ _ E) as (Ep & EX & Er & _ & _ & _ & _ & Epr & _ & EP).
  change (points s1) with (points s) in *. change (rel s1) with (rel s) in *. cbn [user_rel shifted map app] in Er.
  assert (Hg : gen_rel s1 pts = gen_rel s pts) by reflexivity. rewrite Hg in Er.
  assert (ER : sRel s2 <> None).
  { intro K. unfold remove_without_reference in H. destruct (sX s2); [|congruence]. rewrite K in H. discriminate. }
  assert (HP2 : sPrior s2 <> None) by (rewrite Epr; discriminate).
  destruct (remove_spec s2 true s' Done H Hr2 EX ER (fun _ => HP2)) as (_ & _ & Epts & _).
  set (f := mentioned (rel s2)) in *.
  assert (Hsplit : points s' = points s ++ map snd (filter (fun ir : nat * row => f (length (points s) + fst ir)) (enumerate pts))).
  { rewrite Epts, Ep. unfold enumerate. rewrite enumerate_from_app, filter_app, map_app. f_equal.
    - rewrite filter_all, map_snd_enumerate; auto. intros [i x] Hi. apply enumerate_nth in Hi. simpl.
      unfold f. rewrite Er. apply mentioned_spec.
      destruct (Href i) as [d [u [v [Hin Hor]]]]; [apply nth_error_Some; congruence|].
      exists d, u, v. split; auto. apply in_or_app; auto.
    - rewrite Nat.add_0_l. rewrite <- (Nat.add_0_r (length (points s))) at 1. apply filter_enum_shift. }
  destruct (filter_enum_picked (fun i => f (length (points s) + i)) pts) as [K1 K2]. cbv zeta in K1.
  set (L := filter (fun ir : nat * row => f (length (points s) + fst ir)) (enumerate pts)) in *.
  exists (map fst L), (map snd L). split; [|split; [exact Hsplit|split; [exact K1|]]].
  - assert (Hprior : sPrior s' = Some (Z.of_nat (length (points s)), Z.of_nat (length (points s')))).
    { unfold remove_without_reference in H. destruct (sX s2) as [X|] eqn:EX2; [|congruence].
      destruct (sRel s2) as [ps|] eqn:ER2; [|congruence]. destruct (forallb _ ps); [|discriminate].
      rewrite Epr in H. unfold s1 in H. cbn [sPrior set_prior] in H. inversion H. subst s'. cbn [sPrior set_prior].
      do 2 f_equal.
      - rewrite npts_points. reflexivity.
      - assert (HX : X = points s ++ pts) by (rewrite <- Ep; unfold points; now rewrite EX2).
        subst X. match goal with |- _ = Z.of_nat (length ?P) => change P with (keep_rows ps (points s ++ pts)) end.
        rewrite npts_points, app_length.
        assert (length (keep_rows ps (points s ++ pts)) <= length (points s) + length pts).
        { unfold keep_rows. rewrite map_length. etransitivity; [apply filter_length_le|].
          unfold enumerate. rewrite enumerate_from_length, app_length. lia. }
        lia. }
    unfold get_prior_pts. rewrite Hprior.
    destruct (sX s') as [X'|] eqn:EX'.
    + assert (X' = points s') by (unfold points; now rewrite EX'). subst X'. do 2 f_equal.
      unfold slice, slice_bound.
      destruct (Z.ltb_spec (Z.of_nat (length (points s))) 0); [lia|].
      destruct (Z.ltb_spec (Z.of_nat (length (points s'))) 0); [lia|].
      rewrite !Nat2Z.id, Nat.min_id. rewrite Nat.min_l by (rewrite Hsplit, app_length; lia).
      rewrite Hsplit, skipn_app, skipn_all, Nat.sub_diag. simpl.
      rewrite app_length. replace (length (points s) + length (map snd L) - length (points s)) with (length (map snd L)) by lia.
      apply firstn_all.
    + exfalso. unfold remove_without_reference in H. destruct (sX s2) as [X|] eqn:EX2; [|congruence].
      destruct (sRel s2) as [ps|] eqn:ER2; [|congruence]. destruct (forallb _ ps); [|discriminate].
      rewrite Epr in H. inversion H; subst. discriminate.
  - intro i. rewrite K2. unfold f. rewrite Er, mentioned_spec. split.
    + intros [Hi [d [u [v [Hin Hor]]]]].
      destruct (nth_error pts i) as [a|] eqn:Ea; [|apply nth_error_None in Ea; lia].
      exists a. split; auto. apply in_app_iff in Hin. destruct Hin as [Hin|Hin]; [apply Hr in Hin; lia|].
      assert (T := gen_rel_truth _ _ _ _ Hw Hin). unfold pareto_truth in T. destruct T as [_ [x [y [Hx [Hy Hd]]]]].
      assert (Hnth : nth_error (points s ++ pts) (length (points s) + i) = Some a).
      { rewrite nth_error_app2 by lia. now replace (length (points s) + i - length (points s)) with i by lia. }
      destruct Hor as [->| ->].
      * left. exists y. split; [eapply nth_error_In; eauto|]. congruence.
      * right. exists x. split; [|congruence].
        unfold gen_rel in Hin. destruct (_ && _) in Hin; [|destruct Hin]. apply pareto_new_pairs_In in Hin.
        destruct Hin as [_ [i' [x' [r' [-> [Hi' _]]]]]].
        rewrite nth_error_app2 in Hx by lia. replace (i' + length (points s) - length (points s)) with i' in Hx by lia.
        eapply nth_error_In; eauto.
    + intros [a [Ha Hor]].
      assert (Hi : i < length pts) by (apply nth_error_Some; congruence). split; auto.
      destruct Hor as [[b [Hb Hd]]|[b [Hb Hd]]].
      * apply In_nth_error in Hb. destruct Hb as [j Hj].
        exists (-1)%Z, (length (points s) + i), j. split; auto. apply in_or_app. right.
        eapply gen_rel_complete; eauto.
      * apply In_nth_error in Hb. destruct Hb as [j Hj].
        exists (-1)%Z, (length (points s) + j), (length (points s) + i). split; auto. apply in_or_app. right.
        eapply gen_rel_complete; eauto.
        rewrite nth_error_app2 by lia. now replace (length (points s) + i - length (points s)) with i by lia.
Qed.

(** ---- C30 ---- *)
Definition fit_inv (m : model) : Prop :=
  sOpt (mS m) = true -> sX (mS m) = None \/ mFit m = Some (data_of (mS m)).
Lemma remove_sOpt s b : sOpt (fst (remove_without_reference s b)) = sOpt s.
Proof.
  unfold remove_without_reference. destruct (sX s); auto. destruct (sRel s); auto. destruct (forallb _ _); auto.
  destruct b; auto. destruct (sPrior s) as [[? ?]|]; auto.
Qed.
Lemma mstep_inv m o : call_ok m o -> fit_inv m -> fit_inv (mstep m o).
Proof.
  intros Hok Hi. destruct o as [o|f|f]; cbn [mstep].
  - destruct o as [X y|pts|b|]; simpl in Hok; try tauto.
    + simpl. destruct (add (mS m) X y) as [s' st] eqn:E. simpl in Hok. subst st.
      destruct (add_spec _ _ _ _ E) as (_ & _ & _ & _ & _ & _ & _ & _ & Eo & _).
      intro K. simpl in K. congruence.
    + cbn [step]. destruct (sPareto (mS m)) eqn:Hp.
      * destruct (add_prior_cases (mS m) pts Hp) as [s2 [E ->]].
        destruct (add_spec _ _ _ _ E) as (_ & _ & _ & _ & _ & _ & _ & _ & Eo & _).
        intro K. simpl in K. rewrite remove_sOpt in K. congruence.
      * unfold add_prior. rewrite Hp. exact Hi.
    + intros _. left. reflexivity.
  - unfold predict. destruct (sX (mS m)) as [X|] eqn:EX; [|exact Hi]. destruct (sOpt (mS m)) eqn:EO; [exact Hi|].
    unfold optimize. rewrite EX. destruct f as [|d|d]; simpl.
    + intros _. right. reflexivity.
    + intro K. simpl in K. congruence.
    + exfalso. exact (Hok d eq_refl).
  - simpl in Hok. subst f. unfold optimize. destruct (sX (mS m)) as [X|] eqn:EX; [|exact Hi].
    intros _. right. reflexivity.
Qed.
Lemma mrun_inv ops : forall m, fit_inv m -> accepted m ops -> fit_inv (mrun m ops).
Proof.
  induction ops as [|o ops IH]; intros m Hi Ha; [exact Hi|]. destruct Ha as [Ho Ha]. unfold mrun in *. cbn [fold_left].
  apply IH; auto. apply mstep_inv; auto.
Qed.
Lemma data_npts_of s : data_npts (data_of s) = npts s.
Proof. unfold data_npts, data_of, npts. destruct (sX s); reflexivity. Qed.
Lemma predict_fresh gp pareto ops f m' r : let m := mrun (new_model gp pareto) ops in
  accepted (new_model gp pareto) ops -> predict f m = (m', r) ->
  data_of (mS m') = data_of (mS m) /\
  match r with
  | Ok FromPrior => sX (mS m) = None
  | Ok (FromFit d) => d = data_of (mS m)
  | Raise _ => sX (mS m) <> None /\ f <> Fits
  end.
Proof.
  cbv zeta. intros Ha. assert (Hi : fit_inv (mrun (new_model gp pareto) ops)).
  { apply mrun_inv; auto. intro K. discriminate. }
  set (m := mrun (new_model gp pareto) ops) in *. unfold predict. destruct (sX (mS m)) as [X|] eqn:EX.
  - destruct (sOpt (mS m)) eqn:EO.
    + intro H. inversion H; subst. split; auto. unfold from_fit. destruct (Hi EO) as [K|K]; [congruence|].
      rewrite K, data_npts_of, Nat.eqb_refl, andb_false_r. reflexivity.
    + unfold optimize. rewrite EX. destruct f; intro H; inversion H; subst; simpl; split; auto; try (split; congruence).
      unfold from_fit. cbn [mFit mS mGP]. rewrite data_npts_of.
      change (npts (set_opt (mS m) true)) with (npts (mS m)). rewrite Nat.eqb_refl, andb_false_r. reflexivity.
  - intro H. inversion H; subst. auto.
Qed.

(** ---- C19 ---- *)
Lemma shifted_says P X l : (forall d u v, In (d, u, v) l -> u < length X /\ v < length X) ->
  map (says (P ++ X)) (shifted (length P) l) = map (says X) l.
Proof.
  intro H. unfold shifted. rewrite map_map. apply map_ext_in. intros [[d u] v] Hin. simpl.
  rewrite !nth_error_app2 by lia. now replace (u + length P - length P) with u by lia;
    replace (v + length P - length P) with v by lia.
Qed.
Lemma add_pairs_meaning s X y s' : add s X (LRel y) = (s', Done) ->
  (forall d u v, In (d, u, v) y -> u < length X /\ v < length X) ->
  exists u gen, rel s' = rel s ++ u ++ gen /\ map (says (points s')) u = map (says X) y /\
    (sPareto s = false -> gen = []) /\
    (forall k, same_width k (points s') -> Forall (pareto_truth (points s')) gen) /\
    ord_v s' = ord_v s /\ ord_i s' = ord_i s /\ abs_v s' = abs_v s /\ abs_i s' = abs_i s.
Proof.
  intros E H. destruct (add_spec _ _ _ _ E) as (Ep & _ & Er & Eo & Eoi & Ea & Eai & _).
  simpl in Eo, Eoi, Ea, Eai. rewrite app_nil_r in *.
  exists (shifted (length (points s)) y), (gen_rel s X). split; [exact Er|]. split; [rewrite Ep; apply shifted_says; auto|].
  split; [intro K; unfold gen_rel; now rewrite K|]. split; auto.
  intros k Hw. rewrite Ep in *. apply Forall_forall. intros p Hp. eapply gen_rel_truth; eauto.
Qed.
Lemma map_nth_app (P X : list row) n : map (nth_error (P ++ X)) (map (fun i => i + length P) (seq 0 n)) = map (nth_error X) (seq 0 n).
Proof.
  rewrite map_map. apply map_ext. intro i. rewrite nth_error_app2 by lia. f_equal. lia.
Qed.
Lemma seq_shift_add n m : seq n m = map (fun i => i + n) (seq 0 m).
Proof.
  revert n. induction m as [|m IH]; intro n; simpl; auto. f_equal. rewrite IH, <- (seq_shift m 0), map_map.
  apply map_ext. intro; lia.
Qed.
Lemma add_ordinal_meaning s X y s' : add s X (LOrd y) = (s', Done) ->
  exists idx gen, ord_v s' = ord_v s ++ y /\ ord_i s' = ord_i s ++ idx /\
    map (nth_error (points s')) idx = map (nth_error X) (seq 0 (length y)) /\
    rel s' = rel s ++ gen /\ (sPareto s = false -> gen = []) /\ abs_v s' = abs_v s /\ abs_i s' = abs_i s.
Proof.
  intros E. destruct (add_spec _ _ _ _ E) as (Ep & _ & Er & Eo & Eoi & Ea & Eai & _).
  cbn [user_rel user_ord user_abs fst snd] in *. rewrite app_nil_r in *.
  eexists. exists (gen_rel s X). split; [exact Eo|]. split; [exact Eoi|]. split; [rewrite Ep; apply map_nth_app|].
  split; [exact Er|]. split; auto. intro K; unfold gen_rel; now rewrite K.
Qed.
Lemma add_rating_meaning s X v s' : add s X (LAbs v) = (s', Done) ->
  exists idx gen w, abs_v s' = abs_v s ++ w /\ length w = length v /\ abs_i s' = abs_i s ++ idx /\
    map (nth_error (points s')) idx = map (nth_error X) (seq 0 (length v)) /\
    rel s' = rel s ++ gen /\ (sPareto s = false -> gen = []) /\ ord_v s' = ord_v s /\ ord_i s' = ord_i s.
Proof.
  intros E. destruct (add_spec _ _ _ _ E) as (Ep & _ & Er & Eo & Eoi & Ea & Eai & _).
  cbn [user_rel user_ord user_abs fst snd] in *. rewrite app_nil_r in *.
  eexists. exists (gen_rel s X). eexists. split; [exact Ea|]. split; [apply map_length|]. split; [exact Eai|].
  split; [rewrite Ep, seq_shift_add; apply map_nth_app|].
  split; [exact Er|]. split; auto. intro K; unfold gen_rel; now rewrite K.
Qed.
Lemma add_keeps s X y s' : add s X y = (s', Done) ->
  points s' = points s ++ X /\ (exists r, rel s' = rel s ++ r) /\
  (exists v i, ord_v s' = ord_v s ++ v /\ ord_i s' = ord_i s ++ i) /\
  (exists v i, abs_v s' = abs_v s ++ v /\ abs_i s' = abs_i s ++ i).
Proof.
  intros E. destruct (add_spec _ _ _ _ E) as (Ep & _ & Er & Eo & Eoi & Ea & Eai & _). split; auto. split; [eauto|].
  split; [exists (fst (user_ord (length (points s)) y)), (snd (user_ord (length (points s)) y)) | exists (fst (user_abs (length (points s)) y)), (snd (user_abs (length (points s)) y))]; auto.
Qed.
(** the pairs appended by a call are the caller's pairs followed by true domination statements *)
Lemma add_pareto_sound k s X y s' : add s X y = (s', Done) -> same_width k (points s') ->
  exists u gen, rel s' = rel s ++ u ++ gen /\
    map (fun p => fst (fst p)) u = match y with LRel l => map (fun p => fst (fst p)) l | _ => [] end /\
    Forall (pareto_truth (points s')) gen.
Proof.
  intros E Hw. destruct (add_spec _ _ _ _ E) as (Ep & _ & Er & _).
  exists (user_rel (length (points s)) y), (gen_rel s X). split; auto. split.
  - destruct y; try reflexivity. simpl. unfold shifted. rewrite map_map. apply map_ext. intros [[? ?] ?]. reflexivity.
  - rewrite Ep in *. apply Forall_forall. intros p Hp. eapply gen_rel_truth; eauto.
Qed.
Lemma add_pareto_complete k s X y s' i j a b : add s X y = (s', Done) -> same_width (S k) (points s') ->
  sPareto s = true -> length (points s) <= i ->
  nth_error (points s') i = Some a -> nth_error (points s') j = Some b -> dominates a b -> In ((-1)%Z, i, j) (rel s').
Proof.
  intros E Hw Hp Hi Ha Hb Hd. destruct (add_spec _ _ _ _ E) as (Ep & _ & Er & _).
  assert (i < length (points s')) by (apply nth_error_Some; congruence).
  assert (j < length (points s')) by (apply nth_error_Some; congruence).
  eapply (later_batch_recorded k s X y s' [] s' i j); eauto. rewrite <- Ep. exact Hw.
Qed.

Lemma clamp_image v : ratings_image v (map clamp v).
Proof.
  split.
  - induction v as [|x v IH]; simpl; constructor; auto. split; [apply clamp_range|]. split; [apply clamp_inside|].
    unfold clamp. split; intro H.
    + rewrite (proj2 (Qlt_bool_iff _ _) H). reflexivity.
    + destruct (Qlt_bool x (1 # 1000)) eqn:E.
      * apply Qlt_bool_iff in E. exfalso. apply (Qlt_irrefl x). eapply Qlt_trans; [exact E|]. eapply Qlt_trans; [|exact H]. reflexivity.
      * now rewrite (proj2 (Qlt_bool_iff _ _) H).
  - intros i j a b ra rb Ha Hb Hra Hrb Hab. rewrite nth_error_map, Ha in Hra. rewrite nth_error_map, Hb in Hrb.
    simpl in *. inversion Hra; inversion Hrb; subst. now apply clamp_mono.
Qed.
Lemma add_ratings_main s X y v : ratings_of y = Some v ->
  (snd (add s X y) = Raised ValueError /\ abs_v (fst (add s X y)) = abs_v s /\ exists x, In x v /\ (x < 0 \/ 1 < x)%Q) \/
  (snd (add s X y) = Done /\ (forall x, In x v -> (0 <= x <= 1)%Q) /\
   exists w, abs_v (fst (add s X y)) = abs_v s ++ w /\ ratings_image v w).
Proof.
  intro H. destruct (add_ratings s X y v H) as [[E K]|[E [K1 K2]]].
  - left. split; auto. split; auto. destruct (add s X y) as [s' st] eqn:A. simpl in E. subst st.
    apply (add_rejected _ _ _ _ _ A). discriminate.
  - right. split; auto. split; auto. exists (map clamp v). split; auto. apply clamp_image.
Qed.
