From Verif Require Import M_Base P_Base M_Pareto S_Pareto.
From Coq Require Import Sorted.

Lemma any_gt_false r p : length r = length p -> any_gt r p = false <-> weakly_below r p.
Proof.
  revert p. induction r as [|x r IH]; intros [|y p] L; simpl in *; try lia.
  - split; auto. constructor.
  - rewrite orb_false_iff, Qlt_bool_false, IH by lia. split.
    + intros [H1 H2]. constructor; auto.
    + intro H. inversion H; subst. auto.
Qed.

Lemma weakly_below_refl r : weakly_below r r.
Proof. induction r as [|x r IH]; constructor; auto. apply Qle_refl. Qed.
Lemma weakly_below_trans a b c : weakly_below a b -> weakly_below b c -> weakly_below a c.
Proof.
  intro H. revert c. induction H as [|x y a b Hxy H IH]; intros c K; inversion K; subst; constructor; [eapply Qle_trans; eauto | apply IH; auto].
Qed.
Lemma weakly_below_antisym a b : weakly_below a b -> weakly_below b a -> Forall2 Qeq a b.
Proof.
  intro H. induction H as [|x y a b Hxy H IH]; intros K; inversion K; subst; constructor; [apply Qle_antisym; auto | apply IH; auto].
Qed.
Lemma Forall2_Qeq_below a b : Forall2 Qeq a b -> weakly_below a b.
Proof. induction 1 as [|x y a b E H IH]; constructor; auto. rewrite E. apply Qle_refl. Qed.
Lemma Forall2_Qeq_sym a b : Forall2 Qeq a b -> Forall2 Qeq b a.
Proof. induction 1; constructor; auto. now apply Qeq_sym. Qed.
Lemma weakly_below_dec a b : length a = length b -> {weakly_below a b} + {~ weakly_below a b}.
Proof.
  intro L. destruct (any_gt a b) eqn:E.
  - right. intro H. apply any_gt_false in H; congruence.
  - left. apply any_gt_false; auto.
Qed.
(** "not below" is the same as "better somewhere" for rows of equal length *)
Lemma better_not_below r p : length r = length p -> better_somewhere r p <-> ~ weakly_below p r.
Proof.
  intro L. split.
  - intros [k [x [y [Hx [Hy Hlt]]]]] H. revert k r L Hx Hy H.
    induction p as [|a p IH]; intros [|k] [|b r] L Hx Hy H; simpl in *; try discriminate; try lia;
      inversion H as [|? ? ? ? Hab Hr]; subst.
    + inversion Hx; inversion Hy; subst. exact (Qlt_not_le _ _ Hlt Hab).
    + eapply (IH k r); eauto.
  - intro H. assert (E : any_gt p r = true).
    { destruct (any_gt p r) eqn:E; auto. exfalso. apply H. apply any_gt_false; auto. }
    clear H. revert r L E. induction p as [|a p IH]; intros [|b r] L E; simpl in *; try discriminate; try lia.
    apply orb_true_iff in E. destruct E as [E|E].
    + apply Qlt_bool_iff in E. exists 0, b, a. auto.
    + destruct (IH r) as [k [x [y [Hx [Hy Hlt]]]]]; auto. exists (S k), x, y. auto.
Qed.

Section Loop.
Variable V : list row.
Variable k : nat.
Hypothesis HV : rect k V.
Let n := length V.
Let f (i : nat) : row := nth i V [].
Let keep (p : nat) (r : nat) : bool := any_gt (f r) (f p).

Lemma f_len i : i < n -> length (f i) = k.
Proof. intro H. unfold f. unfold rect in HV. rewrite Forall_forall in HV. apply HV. apply nth_In. exact H. Qed.
Lemma f_nth i r : nth_error V i = Some r <-> (i < n /\ r = f i).
Proof.
  unfold f. split.
  - intro H. split; [apply nth_error_Some; congruence|]. symmetry. now apply nth_error_nth.
  - intros [H ->]. apply nth_error_nth'. exact H.
Qed.
Lemma keep_false p r : p < n -> r < n -> keep p r = false <-> weakly_below (f r) (f p).
Proof. intros Hp Hr. apply any_gt_false. now rewrite !f_len. Qed.

(** one python iteration in terms of "already used as pivot" / "still to visit" *)
Fixpoint absloop (fuel : nat) (done todo : list nat) : option (list nat) :=
  match fuel with
  | 0 => None
  | S fuel' =>
    match todo with
    | [] => Some done
    | p :: post => absloop fuel' (filter (keep p) done ++ [p]) (filter (keep p) post)
    end
  end.

Lemma pareto_loop_abs fuel done todo :
  pareto_loop fuel (done ++ todo) (map f (done ++ todo)) (length done) = absloop fuel done todo.
Proof.
  revert done todo. induction fuel as [|fuel IH]; intros done todo; simpl; auto.
  destruct todo as [|p post].
  - rewrite app_nil_r. replace (nth_error (map f done) (length done)) with (@None row); auto.
    symmetry. apply nth_error_None. now rewrite map_length.
  - rewrite map_app. simpl.
    rewrite nth_error_app2 by (rewrite map_length; lia). rewrite map_length, Nat.sub_diag. simpl.
    rewrite <- IH.
    assert (Em : set_nth (length done) true (map (fun r => any_gt r (f p)) (map f done ++ f p :: map f post))
                 = map (keep p) done ++ true :: map (keep p) post).
    { rewrite map_app. simpl. rewrite !map_map.
      rewrite <- (map_length (fun x => any_gt (f x) (f p)) done) at 1. apply set_nth_app. }
    rewrite Em. clear Em.
    rewrite firstn_app, map_length, Nat.sub_diag. simpl. rewrite app_nil_r.
    rewrite (firstn_all2 (map (keep p) done)) by (now rewrite map_length).
    rewrite count_true_map.
    rewrite mask_filter_app by now rewrite map_length.
    rewrite mask_filter_app by now rewrite !map_length.
    simpl. rewrite !mask_filter_fmap, !mask_filter_map.
    rewrite !map_app. simpl. rewrite <- !app_assoc. simpl.
    rewrite app_length. simpl.
    reflexivity.
Qed.

Record Inv (done todo : list nat) : Prop := {
  inv_sorted : StronglySorted lt (done ++ todo);
  inv_range : forall i, In i (done ++ todo) -> i < n;
  inv_cover : forall i, i < n -> exists j, In j (done ++ todo) /\ weakly_below (f i) (f j);
  inv_front : forall i, on_front V i -> In i (done ++ todo);
  inv_pivot : forall d t, In d done -> In t (done ++ todo) -> d <> t -> ~ weakly_below (f t) (f d)
}.

Lemma SS_app_lt (a b : list nat) : StronglySorted lt (a ++ b) -> forall x y, In x a -> In y b -> x < y.
Proof.
  induction a as [|z a IH]; simpl; intros H x y Hx Hy; [tauto|]. inversion H as [|? ? Hs Hf]; subst.
  destruct Hx as [->|Hx].
  - rewrite Forall_forall in Hf. apply Hf. apply in_or_app; auto.
  - eapply IH; eauto.
Qed.
Lemma SS_NoDup (l : list nat) : StronglySorted lt l -> NoDup l.
Proof.
  induction 1 as [|x l Hs IH Hf]; constructor; auto. intro H. rewrite Forall_forall in Hf. specialize (Hf _ H). lia.
Qed.
Lemma SS_filter (g : nat -> bool) (l : list nat) : StronglySorted lt l -> StronglySorted lt (filter g l).
Proof.
  induction 1 as [|x l Hs IH Hf]; simpl; [constructor|]. destruct (g x); auto. constructor; auto.
  rewrite Forall_forall in *. intros y Hy. apply filter_In in Hy. apply Hf. tauto.
Qed.
Lemma new_state_filter done p post :
  StronglySorted lt (done ++ p :: post) ->
  (filter (keep p) done ++ [p]) ++ filter (keep p) post
  = filter (fun r => Nat.eqb r p || keep p r) (done ++ p :: post).
Proof.
  intro H. rewrite filter_app. simpl. rewrite Nat.eqb_refl. simpl. rewrite <- app_assoc. simpl.
  assert (E : forall l, ~ In p l -> filter (fun r => (r =? p) || keep p r) l = filter (keep p) l).
  { induction l as [|x l IH]; simpl; auto. intro Hn. destruct (Nat.eqb_spec x p); [subst; tauto|]. simpl.
    rewrite IH by tauto. reflexivity. }
  apply SS_NoDup in H. apply NoDup_remove_2 in H. rewrite in_app_iff in H.
  rewrite !E by tauto. reflexivity.
Qed.

Lemma Inv_step done p post : Inv done (p :: post) -> Inv (filter (keep p) done ++ [p]) (filter (keep p) post).
Proof.
  intros I. destruct I as [Hs Hr Hc Hf Hp].
  assert (Hpn : p < n) by (apply Hr, in_or_app; right; left; auto).
  assert (HIn : forall i, In i ((filter (keep p) done ++ [p]) ++ filter (keep p) post)
                <-> In i (done ++ p :: post) /\ (i = p \/ keep p i = true)).
  { intro i. rewrite new_state_filter by auto. rewrite filter_In, orb_true_iff, Nat.eqb_eq. reflexivity. }
  constructor.
  - rewrite new_state_filter by auto. now apply SS_filter.
  - intros i Hi. apply HIn in Hi. apply Hr. tauto.
  - intros i Hi. destruct (Hc i Hi) as [j [Hj Hb]].
    destruct (Nat.eq_dec j p) as [->|Hne].
    + exists p. split; auto. apply HIn. auto.
    + destruct (keep p j) eqn:E.
      * exists j. split; auto. apply HIn; auto.
      * exists p. split; [apply HIn; split; auto; apply in_or_app; right; left; auto|].
        apply keep_false in E; auto. eapply weakly_below_trans; eauto.
  - intros i Hi. apply HIn. pose proof (Hf i Hi) as Hin. split; auto.
    destruct (Nat.eq_dec i p) as [->|Hne]; auto. right.
    destruct (keep p i) eqn:E; auto. exfalso.
    assert (Hin' : i < n) by auto.
    apply keep_false in E; auto.
    destruct Hi as [r [Hr1 [Hnd Hfirst]]]. apply f_nth in Hr1. destruct Hr1 as [_ ->].
    assert (Hpi : weakly_below (f p) (f i)).
    { destruct (weakly_below_dec (f p) (f i)) as [W|W]; auto. { now rewrite !f_len. }
      exfalso. apply (Hnd p (f p)); [apply f_nth; auto|]. split; auto.
      apply better_not_below; auto. now rewrite !f_len. }
    destruct (Nat.lt_trichotomy p i) as [L|[L|L]]; [|congruence|].
    + apply (Hfirst p (f p)); auto; [apply f_nth; auto|]. now apply weakly_below_antisym.
    + (* i < p, so i has already been used as a pivot *)
      assert (Hid : In i done).
      { apply in_app_iff in Hin. destruct Hin as [Hin|[Hin|Hin]]; auto; [congruence|].
        replace (done ++ p :: post) with ((done ++ [p]) ++ post) in Hs by (rewrite <- app_assoc; reflexivity).
        pose proof (SS_app_lt (done ++ [p]) post Hs p i).
        assert (p < i) by (apply H; auto; apply in_or_app; right; left; auto). lia. }
      apply (Hp i p); auto. apply in_or_app; right; left; auto.
  - intros d t Hd Ht Hne. apply HIn in Ht. destruct Ht as [Ht Hk].
    apply in_app_iff in Hd. destruct Hd as [Hd|[<-|[]]].
    + apply filter_In in Hd. destruct Hd as [Hd Hkd]. apply Hp; auto.
    + destruct Hk as [->|Hk]; [congruence|]. intro W. apply keep_false in W; auto. congruence.
Qed.

Lemma absloop_ok fuel done todo : Inv done todo -> length todo < fuel ->
  exists l, absloop fuel done todo = Some l /\ Inv l [].
Proof.
  revert done todo. induction fuel as [|fuel IH]; intros done todo I L; [lia|]. simpl.
  destruct todo as [|p post]; [exists done; auto|].
  apply IH; [now apply Inv_step|]. simpl in L.
  pose proof (filter_length_le (keep p) post). lia.
Qed.

Lemma seq_SS a m : StronglySorted lt (seq a m).
Proof.
  revert a; induction m as [|m IH]; intro a; simpl; constructor; auto.
  rewrite Forall_forall. intros x Hx. apply in_seq in Hx. lia.
Qed.
Lemma Inv_init : Inv [] (seq 0 n).
Proof.
  constructor; simpl.
  - apply seq_SS.
  - intros i Hi. apply in_seq in Hi. lia.
  - intros i Hi. exists i. split; [apply in_seq; lia | apply weakly_below_refl].
  - intros i [r [Hr _]]. apply f_nth in Hr. apply in_seq. lia.
  - tauto.
Qed.
Lemma map_f_seq : map f (seq 0 n) = V.
Proof.
  apply nth_error_ext_eq. intro i. destruct (Nat.lt_ge_cases i n) as [H|H].
  - rewrite (map_nth_error f i (seq 0 n) (d := i)).
    + symmetry. apply f_nth. auto.
    + rewrite nth_error_nth' with (d := 0) by (rewrite seq_length; auto). now rewrite seq_nth.
  - transitivity (@None row); [|symmetry]; apply nth_error_None; [rewrite map_length, seq_length|]; auto.
Qed.

Lemma get_pareto_Inv fuel : n < fuel -> exists l, get_pareto fuel V = Some l /\ Inv l [].
Proof.
  intro H. unfold get_pareto. fold n.
  pose proof (pareto_loop_abs fuel [] (seq 0 n)) as E. simpl in E. rewrite map_f_seq in E. rewrite E.
  apply absloop_ok; [apply Inv_init|]. now rewrite seq_length.
Qed.

Lemma Inv_final l : Inv l [] -> StronglySorted lt l /\ (forall i, In i l <-> on_front V i) /\
   (forall i r, nth_error V i = Some r -> exists j p, In j l /\ nth_error V j = Some p /\ weakly_below r p) /\
   (forall i j r p, In i l -> In j l -> i <> j -> nth_error V i = Some r -> nth_error V j = Some p -> ~ weakly_below r p).
Proof.
  intros [Hs Hr Hc Hf Hp]. rewrite app_nil_r in *. repeat split; auto.
  - intro Hi. exists (f i). assert (Hin : i < n) by auto. split; [apply f_nth; auto|].
    assert (Hnd : forall j p, nth_error V j = Some p -> ~ dominated_by (f i) p).
    { intros j p Hj [Hw Hb]. apply f_nth in Hj. destruct Hj as [Hj ->].
      destruct (Hc j Hj) as [m [Hm Hjm]].
      destruct (Nat.eq_dec m i) as [->|Hne].
      - apply better_not_below in Hb; [|now rewrite !f_len]. tauto.
      - apply (Hp m i); auto. eapply weakly_below_trans; eauto. }
    split; auto.
    intros j p Hji Hj E. apply f_nth in Hj. destruct Hj as [Hj ->].
    (* take the first row equal to row i: it is on the front too, contradiction with the pivot property *)
    assert (G : forall m, m <= j -> Forall2 Qeq (f i) (f m) -> exists m', m' <= j /\ Forall2 Qeq (f i) (f m') /\ on_front V m').
    { induction m as [m IHm] using (well_founded_induction lt_wf). intros Hm Em.
      destruct (existsb (fun q => negb (any_gt (f i) (f q)) && negb (any_gt (f q) (f i))) (seq 0 m)) eqn:Eb.
      - apply existsb_exists in Eb. destruct Eb as [q [Hq Hb]]. apply in_seq in Hq.
        apply andb_true_iff in Hb. rewrite !negb_true_iff in Hb. destruct Hb as [B1 B2].
        assert (Lq : q < n) by lia.
        apply any_gt_false in B1; [|now rewrite !f_len]. apply any_gt_false in B2; [|now rewrite !f_len].
        apply (IHm q); try lia. now apply weakly_below_antisym.
      - exists m. split; auto. split; auto. exists (f m). assert (Lm : m < n) by lia.
        split; [apply f_nth; auto|]. split.
        + intros q p Hq [Hw Hb]. apply (Hnd q p Hq). pose proof Hq as Hq'. apply f_nth in Hq'. destruct Hq' as [Lq ->]. split.
          * eapply weakly_below_trans; [|exact Hw]. now apply Forall2_Qeq_below.
          * apply better_not_below; [now rewrite !f_len|]. apply better_not_below in Hb; [|now rewrite !f_len].
            intro W. apply Hb. eapply weakly_below_trans; [exact W|]. now apply Forall2_Qeq_below.
        + intros q p Lq Hq Eq. apply f_nth in Hq. destruct Hq as [Lq' ->].
          assert (Et : existsb (fun q => negb (any_gt (f i) (f q)) && negb (any_gt (f q) (f i))) (seq 0 m) = true).
          { apply existsb_exists. exists q. split; [apply in_seq; lia|].
            assert (A1 : weakly_below (f i) (f q)) by (eapply weakly_below_trans; apply Forall2_Qeq_below; eauto).
            assert (A2 : weakly_below (f q) (f i)) by (eapply weakly_below_trans; apply Forall2_Qeq_below; apply Forall2_Qeq_sym; eauto).
            apply any_gt_false in A1; [|now rewrite !f_len]. apply any_gt_false in A2; [|now rewrite !f_len].
            now rewrite A1, A2. }
          congruence. }
    destruct (G j (le_n j) E) as [m [Lm [Em Hm]]].
    apply (Hp m i); auto; [lia|]. now apply Forall2_Qeq_below.
  - intros i r Hi. apply f_nth in Hi. destruct Hi as [Hi ->]. destruct (Hc i Hi) as [j [Hj Hb]].
    exists j, (f j). repeat split; auto. apply f_nth; auto.
  - intros i j r p Hi Hj Hne Ei Ej. apply f_nth in Ei, Ej. destruct Ei as [_ ->], Ej as [_ ->].
    apply Hp; auto.
Qed.
End Loop.

Lemma get_pareto_correct k V fuel : rect k V -> length V < fuel ->
  exists l, get_pareto fuel V = Some l /\ StronglySorted lt l /\ (forall i, In i l <-> on_front V i).
Proof.
  intros HV Hf. destruct (get_pareto_Inv V k HV fuel Hf) as [l [E I]].
  destruct (Inv_final V k HV l I) as [H1 [H2 _]]. exists l. auto.
Qed.
Lemma get_pareto_cover k V fuel l : rect k V -> length V < fuel -> get_pareto fuel V = Some l ->
   (forall i r, nth_error V i = Some r -> exists j p, In j l /\ nth_error V j = Some p /\ weakly_below r p) /\
   (forall i j r p, In i l -> In j l -> i <> j -> nth_error V i = Some r -> nth_error V j = Some p -> ~ weakly_below r p).
Proof.
  intros HV Hf E. destruct (get_pareto_Inv V k HV fuel Hf) as [l' [E' I]].
  rewrite E in E'. inversion E'; subst. destruct (Inv_final V k HV l' I) as [_ [_ H]]. exact H.
Qed.

Lemma fold_set_nth_length l (m : list bool) : length (fold_left (fun m i => set_nth i true m) l m) = length m.
Proof. revert m; induction l as [|x l IH]; intro m; simpl; auto. rewrite IH. apply set_nth_length. Qed.
Lemma fold_set_nth_true l m i :
  i < length m ->
  (nth_error (fold_left (fun m i => set_nth i true m) l m) i = Some true <-> In i l \/ nth_error m i = Some true).
Proof.
  revert m. induction l as [|x l IH]; intros m H; simpl; [tauto|].
  rewrite IH by (now rewrite set_nth_length).
  destruct (Nat.eq_dec x i) as [->|Hne].
  - rewrite nth_error_set_nth_eq by auto. tauto.
  - rewrite nth_error_set_nth_neq by auto. tauto.
Qed.
Lemma get_pareto_mask_correct fuel V l : get_pareto fuel V = Some l ->
  exists m, get_pareto_mask fuel V = Some m /\ length m = length V /\
    (forall i, i < length V -> (nth_error m i = Some true <-> In i l)).
Proof.
  intro E. unfold get_pareto_mask. rewrite E. eexists. split; [reflexivity|]. split.
  - rewrite fold_set_nth_length. apply repeat_length.
  - intros i Hi. rewrite fold_set_nth_true by (now rewrite repeat_length).
    rewrite nth_error_repeat by auto. split; [|auto]. intros [H|H]; [auto|discriminate].
Qed.
