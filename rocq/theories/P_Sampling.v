From Verif Require Import M_Base P_Base P_Sort M_Sampling S_Sampling.
From Coq Require Import Permutation Sorted.

Lemma lex_irrefl a : lex_lt a a = false.
Proof. induction a as [|x a IH]; simpl; auto. rewrite Nat.ltb_irrefl, IH, Nat.eqb_refl. reflexivity. Qed.
Lemma lex_trans a : forall b c, lex_lt a b = true -> lex_lt b c = true -> lex_lt a c = true.
Proof.
  induction a as [|x a IH]; intros [|y b] [|z c]; simpl; try congruence.
  rewrite !orb_true_iff, !andb_true_iff, !Nat.ltb_lt, !Nat.eqb_eq.
  intros [H|[-> H]] [K|[-> K]]; eauto; left; lia.
Qed.
Lemma lex_total a : forall b, lex_lt a b = false -> lex_lt b a = false -> a = b.
Proof.
  induction a as [|x a IH]; intros [|y b]; simpl; try congruence.
  rewrite !orb_false_iff, !andb_false_iff, !Nat.ltb_ge, !Nat.eqb_neq. intros [H1 H2] [H3 H4].
  assert (x = y) by lia. subst. f_equal. apply IH; [destruct H2 | destruct H4]; congruence.
Qed.
Lemma lex_dict a : forall b, length a = length b -> lex_lt a b = true -> dict_lt a b.
Proof.
  induction a as [|x a IH]; intros [|y b] L; simpl in *; try discriminate.
  rewrite orb_true_iff, andb_true_iff, Nat.ltb_lt, Nat.eqb_eq. intros [H|[-> H]].
  - exists [], x, y, a, b. auto.
  - destruct (IH b) as [p [u [v [a' [b' [-> [-> Hl]]]]]]]; auto.
    exists (y :: p), u, v, a', b'. auto.
Qed.
Definition lexR a b := lex_lt a b = true.

Lemma insert_row_In r l x : In x (insert_row r l) <-> x = r \/ In x l.
Proof.
  induction l as [|q l IH]; simpl; [intuition|].
  destruct (lex_lt r q) eqn:E1; simpl; [intuition|].
  destruct (lex_lt q r) eqn:E2; simpl; [rewrite IH; intuition|].
  rewrite (lex_total _ _ E1 E2). intuition.
Qed.
Lemma insert_row_sorted r l : StronglySorted lexR l -> StronglySorted lexR (insert_row r l).
Proof.
  induction 1 as [|q l Hs IH Hf]; simpl; [repeat constructor|].
  destruct (lex_lt r q) eqn:E1.
  - constructor; [now constructor|]. constructor; auto. eapply Forall_impl; [|exact Hf].
    intros a Ha. eapply lex_trans; eauto.
  - destruct (lex_lt q r) eqn:E2; [|now constructor].
    constructor; auto. apply Forall_forall. intros x Hx. apply insert_row_In in Hx.
    destruct Hx as [->|Hx]; auto. rewrite Forall_forall in Hf. auto.
Qed.
Lemma unique_rows_In l x : In x (unique_rows l) <-> In x l.
Proof. induction l as [|r l IH]; simpl; [tauto|]. rewrite insert_row_In, IH. intuition. Qed.
Lemma unique_rows_sorted l : StronglySorted lexR (unique_rows l).
Proof. induction l as [|r l IH]; simpl; [constructor | now apply insert_row_sorted]. Qed.
Lemma lex_sorted_NoDup l : StronglySorted lexR l -> NoDup l.
Proof.
  induction 1 as [|q l Hs IH Hf]; constructor; auto. intro H. rewrite Forall_forall in Hf.
  specialize (Hf q H). unfold lexR in Hf. rewrite lex_irrefl in Hf. discriminate.
Qed.
Lemma SS_firstn {A} (R : A -> A -> Prop) l n : StronglySorted R l -> StronglySorted R (firstn n l).
Proof.
  intro H. revert n. induction H as [|q l Hs IH Hf]; intros [|n]; simpl; try constructor; auto.
  rewrite Forall_forall in *. intros x Hx. apply Hf. rewrite <- (firstn_skipn n l). apply in_or_app; auto.
Qed.
Lemma firstn_In {A} n (l : list A) x : In x (firstn n l) -> In x l.
Proof. intro H. rewrite <- (firstn_skipn n l). apply in_or_app; auto. Qed.

Lemma draw_sorted_subset s k d : is_draw s k d -> is_subset s k (sort_nat d).
Proof.
  intros [Hl [Hn Hf]]. split; [now rewrite sort_nat_length|]. split; [now apply sort_nat_NoDup_lt|].
  eapply Permutation_Forall; [symmetry; apply sort_nat_perm | exact Hf].
Qed.

Section Run.
Variable draws : nat -> list nat.
Variables s k : nat.
Hypothesis Hd : k <= s -> forall t, is_draw s k (draws t).

Record SInv (t : nat) (all : list (list nat)) : Prop := {
  si_sorted : StronglySorted lexR all;
  si_in : forall r, In r all <-> exists i, i < t /\ r = sort_nat (draws i);
  si_le : t > 0 -> k <= s }.
Lemma SInv_0 : SInv 0 [].
Proof. clear Hd. split; [constructor | | lia]. intro r. split; [simpl; tauto | intros [i [? _]]; lia]. Qed.

Lemma step_inv t n all : SInv t all -> (n > 0 -> k <= s) ->
  SInv (t + n) (unique_rows (all ++ map sort_nat (map draws (seq t n)))).
Proof.
  clear Hd. intros [H1 H2 H3] Hn. split.
  - apply unique_rows_sorted.
  - intro r. rewrite unique_rows_In, in_app_iff, H2, map_map, in_map_iff. split.
    + intros [[i [? ?]]|[i [<- Hi]]]; [exists i; split; auto; lia|]. apply in_seq in Hi. exists i; split; auto; lia.
    + intros [i [Hi ->]]. destruct (Nat.lt_ge_cases i t); [left; eauto|right]. exists i. split; auto.
      apply in_seq. lia.
  - intro. destruct n; [rewrite Nat.add_0_r in *; auto | apply Hn; lia].
Qed.

Lemma loop_step fuel t num_sets all :
  sample_unique_loop (S fuel) draws t s num_sets k all =
  if length all <? num_sets then
    (if s <? k then Raise ValueError
     else sample_unique_loop fuel draws (t + 6 * (num_sets - length all) / 5) s num_sets k
        (unique_rows (all ++ map sort_nat (map draws (seq t (6 * (num_sets - length all) / 5))))))
  else Ok (firstn num_sets all).
Proof.
  clear Hd. cbn [sample_unique_loop]. destruct (Nat.ltb_spec (length all) num_sets) as [L|L]; auto.
  unfold sample_nonunique_sets.
  assert (Hp : 0 < 6 * (num_sets - length all) / 5).
  { apply Nat.div_str_pos. lia. }
  apply Nat.ltb_lt in Hp. rewrite Hp. cbn [andb]. destruct (s <? k); reflexivity.
Qed.

Lemma to_sample_pos n m : n < m -> 0 < 6 * (m - n) / 5.
Proof. clear Hd. intro. apply Nat.div_str_pos. lia. Qed.

Lemma loop_safe fuel : forall t num_sets all rows, SInv t all ->
  sample_unique_loop fuel draws t s num_sets k all = Ok rows ->
  exists t' all', SInv t' all' /\ num_sets <= length all' /\ rows = firstn num_sets all'.
Proof.
  induction fuel as [|fuel IH]; intros t num_sets all rows I H; [discriminate|].
  rewrite loop_step in H. destruct (Nat.ltb_spec (length all) num_sets) as [L|L].
  - destruct (Nat.ltb_spec s k) as [Lk|Lk]; [discriminate|].
    apply IH in H; auto. apply step_inv; auto.
  - inversion H; subst. eauto.
Qed.
Lemma SInv_subset t all r : SInv t all -> In r all -> is_subset s k r.
Proof.
  intros I H. pose proof H as H'. apply (si_in _ _ I) in H'. destruct H' as [i [Hi ->]].
  apply draw_sorted_subset, Hd. eapply si_le; eauto. lia.
Qed.
Lemma SS_imp_in {A} (R S : A -> A -> Prop) l : (forall a b, In a l -> In b l -> R a b -> S a b) ->
  StronglySorted R l -> StronglySorted S l.
Proof.
  intros H K. induction K as [|q l Hs IH Hf]; constructor.
  - apply IH. intros; apply H; simpl; auto.
  - rewrite Forall_forall in *. intros x Hx. apply H; simpl; auto.
Qed.

Lemma sample_unique_sets_safe fuel num_sets rows :
  sample_unique_sets fuel draws s num_sets k = Ok rows ->
  length rows = num_sets /\ NoDup rows /\ Forall (is_subset s k) rows /\ StronglySorted dict_lt rows /\
  Forall (fun r => exists t, Permutation r (draws t)) rows.
Proof.
  intro H. apply loop_safe in H; [|apply SInv_0]. destruct H as [t [all [I [L ->]]]].
  assert (Hs : StronglySorted lexR (firstn num_sets all)) by (apply SS_firstn, I).
  assert (Hsub : forall r, In r (firstn num_sets all) -> is_subset s k r).
  { intros r Hr. eapply SInv_subset; eauto. eapply firstn_In; eauto. }
  split; [rewrite firstn_length; lia|]. split; [now apply lex_sorted_NoDup|].
  split; [apply Forall_forall; auto|]. split.
  - eapply SS_imp_in; [|exact Hs]. intros a b Ha Hb Hab. apply lex_dict; auto.
    destruct (Hsub a Ha) as [-> _]. destruct (Hsub b Hb) as [-> _]. reflexivity.
  - apply Forall_forall. intros r Hr. apply firstn_In in Hr. apply (si_in _ _ I) in Hr.
    destruct Hr as [i [_ ->]]. exists i. apply sort_nat_perm.
Qed.
End Run.

(** ---- counting subsets ---- *)
(** all ascending [k]-subsets of [a .. a+n-1] *)
Fixpoint all_subsets (a n k : nat) : list (list nat) :=
  match n, k with
  | _, 0 => [[]]
  | 0, S _ => []
  | S n', S k' => map (cons a) (all_subsets (S a) n' k') ++ all_subsets (S a) n' k
  end.
Lemma all_subsets_length n : forall a k, length (all_subsets a n k) = binom n k.
Proof.
  induction n as [|n IH]; intros a [|k]; simpl; auto.
  rewrite app_length, map_length, !IH. reflexivity.
Qed.
Lemma all_subsets_In n : forall a k r, In r (all_subsets a n k) <->
   length r = k /\ StronglySorted lt r /\ Forall (fun x => a <= x < a + n) r.
Proof.
  induction n as [|n IH]; intros a [|k] r; simpl.
  - split; [intros [<-|[]]; repeat constructor | intros [H _]; destruct r; simpl in H; [auto|lia]].
  - split; [tauto|]. intros [H1 [_ H]]. destruct r as [|x r]; simpl in H1; [lia|]. inversion H; subst. lia.
  - split; [intros [<-|[]]; repeat constructor | intros [H _]; destruct r; simpl in H; [auto|lia]].
  - rewrite in_app_iff, in_map_iff. split.
    + intros [[r' [<- H]]|H]; apply IH in H; destruct H as [H1 [H2 H3]].
      * simpl. split; [lia|]. split.
        -- constructor; auto. eapply Forall_impl; [|exact H3]. simpl. intros; lia.
        -- constructor; [lia|]. eapply Forall_impl; [|exact H3]. simpl. intros; lia.
      * split; auto. split; auto. eapply Forall_impl; [|exact H3]. simpl. intros; lia.
    + intros [H1 [H2 H3]]. destruct r as [|x r]; [simpl in H1; lia|]. simpl in H1.
      inversion H2 as [|? ? Hs Hf]; subst. inversion H3 as [|? ? Hx Hr]; subst.
      destruct (Nat.eq_dec x a) as [->|Hne].
      * left. exists r. split; auto. apply IH. split; [lia|]. split; auto.
        rewrite Forall_forall in *. intros z Hz. specialize (Hf z Hz). specialize (Hr z Hz). lia.
      * right. apply IH. split; [simpl; lia|]. split; auto. constructor; [lia|].
        rewrite Forall_forall in *. intros z Hz. specialize (Hf z Hz). specialize (Hr z Hz). lia.
Qed.
Lemma all_subsets_NoDup n : forall a k, NoDup (all_subsets a n k).
Proof.
  induction n as [|n IH]; intros a [|k]; simpl; try (repeat constructor; simpl; tauto).
  assert (H : forall l1 l2 : list (list nat), NoDup l1 -> NoDup l2 -> (forall x, In x l1 -> ~ In x l2) -> NoDup (l1 ++ l2)).
  { induction l1 as [|x l1 IHl]; simpl; auto. intros l2 N1 N2 D. inversion N1; subst. constructor.
    - rewrite in_app_iff. intros [?|?]; [auto|]. eapply D; eauto.
    - apply IHl; auto. }
  apply H; auto.
  - apply FinFun.Injective_map_NoDup; auto. intros x y E. inversion E; auto.
  - intros x Hx Hx'. apply in_map_iff in Hx. destruct Hx as [r [<- _]].
    apply all_subsets_In in Hx'. destruct Hx' as [_ [_ Hf]]. inversion Hf; subst. lia.
Qed.
Lemma all_subsets_spec s k r : In r (all_subsets 0 s k) <-> is_subset s k r.
Proof.
  rewrite all_subsets_In. unfold is_subset. simpl. split; intros [H1 [H2 H3]]; split; auto; split; auto;
  eapply Forall_impl; try exact H3; simpl; intros; lia.
Qed.
(** [binom] counts the subsets: it is the length of every duplicate-free exhaustive list of them *)
Lemma binom_counts s k l : NoDup l -> (forall r, In r l <-> is_subset s k r) -> length l = binom s k.
Proof.
  intros Hn Hl. rewrite <- (all_subsets_length s 0 k). apply Permutation_length.
  apply NoDup_Permutation; auto using all_subsets_NoDup. intro r. now rewrite Hl, all_subsets_spec.
Qed.
Lemma subset_count_le s k l : NoDup l -> (forall r, In r l -> is_subset s k r) -> length l <= binom s k.
Proof.
  intros Hn Hl. rewrite <- (all_subsets_length s 0 k). apply NoDup_incl_length; auto.
  intros r Hr. apply all_subsets_spec; auto.
Qed.

Lemma loop_never draws s k num_sets : k <= s -> (forall t, is_draw s k (draws t)) -> binom s k < num_sets ->
  forall fuel t all, SInv draws s k t all -> sample_unique_loop fuel draws t s num_sets k all = Raise OutOfFuel.
Proof.
  intros Hk Hd Hb. induction fuel as [|fuel IH]; intros t all I; [reflexivity|].
  rewrite loop_step.
  assert (length all <= binom s k).
  { apply subset_count_le; [apply lex_sorted_NoDup; exact (si_sorted _ _ _ _ _ I)|].
    intros r Hr. exact (SInv_subset draws s k (fun _ => Hd) t all r I Hr). }
  destruct (Nat.ltb_spec (length all) num_sets); [|lia]. destruct (Nat.ltb_spec s k); [lia|].
  apply IH. apply step_inv; auto.
Qed.
Lemma sample_never draws s k num_sets : k <= s -> (forall t, is_draw s k (draws t)) -> binom s k < num_sets ->
  forall fuel, sample_unique_sets fuel draws s num_sets k = Raise OutOfFuel.
Proof. intros. apply loop_never; auto. apply SInv_0. Qed.

Lemma sorted_perm_eq (a : list nat) : forall b, StronglySorted lt a -> StronglySorted le b -> Permutation a b -> a = b.
Proof.
  induction a as [|x a IH]; intros b Ha Hb P.
  - symmetry. apply Permutation_nil. auto.
  - destruct b as [|y b]; [apply Permutation_sym, Permutation_nil in P; discriminate|].
    inversion Ha as [|? ? Ha1 Ha2]; inversion Hb as [|? ? Hb1 Hb2]; subst.
    rewrite Forall_forall in *.
    assert (x = y).
    { assert (Hx : In x (y :: b)) by (eapply Permutation_in; [exact P | simpl; auto]).
      assert (Hy : In y (x :: a)) by (eapply Permutation_in; [symmetry; exact P | simpl; auto]).
      destruct Hx as [->|Hx]; auto. destruct Hy as [->|Hy]; auto.
      specialize (Ha2 y Hy). specialize (Hb2 x Hx). lia. }
    subst. f_equal. apply IH; auto. eapply Permutation_cons_inv; exact P.
Qed.
Lemma fair_horizon s k draws l : fair s k draws -> (forall r, In r l -> is_subset s k r) ->
  exists T, forall r, In r l -> exists i, i < T /\ r = sort_nat (draws i).
Proof.
  intros Hf. induction l as [|r l IH]; intro H; [exists 0; simpl; tauto|].
  destruct IH as [T HT]; [simpl in H; auto|]. destruct (Hf r) as [t Ht]; [apply H; simpl; auto|].
  exists (Nat.max T (S t)). intros r' [<-|Hr].
  - exists t. split; [lia|]. apply sorted_perm_eq.
    + apply H; simpl; auto.
    + apply sort_nat_sorted.
    + rewrite sort_nat_perm. exact Ht.
  - destruct (HT r' Hr) as [i [? ?]]. exists i. split; auto. lia.
Qed.
Lemma loop_progress draws s k num_sets T : k <= s -> (forall t, is_draw s k (draws t)) ->
  num_sets <= binom s k -> (forall r, is_subset s k r -> exists i, i < T /\ r = sort_nat (draws i)) ->
  forall fuel t all, SInv draws s k t all -> T <= t + fuel ->
  exists rows, sample_unique_loop (S fuel) draws t s num_sets k all = Ok rows.
Proof.
  intros Hk Hd Hb HT. induction fuel as [|fuel IH]; intros t all I HF; rewrite loop_step.
  - assert (binom s k <= length all).
    { rewrite <- (all_subsets_length s 0 k). apply NoDup_incl_length; [apply all_subsets_NoDup|].
      intros r Hr. apply all_subsets_spec in Hr. apply HT in Hr. destruct Hr as [i [? ->]].
      apply (si_in _ _ _ _ _ I). exists i. split; auto. lia. }
    destruct (Nat.ltb_spec (length all) num_sets); [lia|eauto].
  - destruct (Nat.ltb_spec (length all) num_sets) as [L|L]; [|eauto].
    destruct (Nat.ltb_spec s k); [lia|]. apply IH; [apply step_inv; auto|].
    pose proof (to_sample_pos _ _ L). lia.
Qed.
Lemma sample_terminates draws s k num_sets : k <= s -> (forall t, is_draw s k (draws t)) -> fair s k draws ->
  num_sets <= binom s k -> exists fuel rows, sample_unique_sets fuel draws s num_sets k = Ok rows.
Proof.
  intros Hk Hd Hf Hb. destruct (fair_horizon s k draws (all_subsets 0 s k) Hf) as [T HT].
  { intros r Hr. now apply all_subsets_spec. }
  destruct (loop_progress draws s k num_sets T Hk Hd Hb) with (fuel := T) (t := 0) (all := @nil (list nat)) as [rows H].
  - intros r Hr. apply HT, all_subsets_spec, Hr.
  - apply SInv_0.
  - lia.
  - exists (S T), rows. exact H.
Qed.
