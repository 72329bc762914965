(** Lemmas about the representative queries. *)
From Coq Require Import List Arith Lia Sorted Permutation.
From Verif Require Import M_Base P_Base M_Sampling S_Sampling P_Sampling M_Acq S_Acq.
Import ListNotations.

Lemma comb_binom n : forall k, comb n k = binom n k.
Proof. induction n as [|n IH]; intros [|k]; cbn; auto. Qed.
Lemma combinations_all n : forall s k, combinations s n k = all_subsets s n k.
Proof. induction n as [|n IH]; intros s [|k]; cbn; rewrite ?IH; reflexivity. Qed.
Lemma binom_small n : forall k, n < k -> binom n k = 0.
Proof. induction n as [|n IH]; intros [|k] H; cbn; try lia; auto. rewrite !IH by lia. reflexivity. Qed.
Lemma binom_pos n : forall k, k <= n -> 0 < binom n k.
Proof. induction n as [|n IH]; intros [|k] H; cbn; try lia. assert (K := IH k). lia. Qed.
Lemma mapM_getitem {A} (X : list A) idx : (forall i, In i idx -> i < length X) -> exists ys, mapM (getitem X) idx = Ok ys /\ Forall2 (fun i x => nth_error X i = Some x) idx ys.
Proof.
  induction idx as [|i idx IH]; intro H.
  - exists []. split; [reflexivity|constructor].
  - destruct IH as [ys [E F]]; [intros; apply H; now right|]. destruct (nth_error X i) as [x|] eqn:Ei.
    + exists (x :: ys). split; [|now constructor]. cbn [mapM]. unfold getitem at 1. rewrite Ei. cbn [bind]. rewrite E. reflexivity.
    + apply nth_error_None in Ei. specialize (H i (or_introl eq_refl)). lia.
Qed.
Lemma rep_untrained {A} fuel pick draws np nq k (cand : list A) : rep_sampled fuel pick draws np nq k None cand = Ok None.
Proof. reflexivity. Qed.
Lemma rep_sampled_valid {A} fuel pick draws np nq k (X cand : list A) r :
  let N := Nat.min (length (pool X cand)) np in
  is_draw (length (pool X cand)) N (pick (length (pool X cand)) N) -> (k <= N -> forall t, is_draw N k (draws t)) ->
  rep_sampled fuel pick draws np nq k (Some X) cand = Ok r ->
  exists idx pts Qs, r = Some (pts, Qs) /\ is_draw (length (pool X cand)) N idx /\ Forall2 (fun i x => nth_error (pool X cand) i = Some x) idx pts /\
    length Qs = Nat.min nq (binom N k) /\ NoDup Qs /\ Forall (is_subset N k) Qs.
Proof.
  intros N Hp Hd H. unfold rep_sampled in H. fold (pool X cand) in H. fold N in H.
  destruct (mapM_getitem (pool X cand) (pick (length (pool X cand)) N)) as [pts [E F]].
  { intros i Hi. destruct Hp as [_ [_ Hp]]. rewrite Forall_forall in Hp. auto. }
  rewrite E in H. cbn [bind] in H. destruct (sample_unique_sets fuel draws N (Nat.min nq (comb N k)) k) as [Qs|e] eqn:ES; [|discriminate].
  cbn [bind] in H. inversion H; subst. exists (pick (length (pool X cand)) N), pts, Qs. split; [reflexivity|]. split; [exact Hp|]. split; [exact F|].
  destruct (sample_unique_sets_safe draws N k Hd _ _ _ ES) as [L [ND [S _]]]. rewrite comb_binom in L. auto.
Qed.
Lemma rep_sampled_total {A} pick draws np nq k (X cand : list A) :
  let N := Nat.min (length (pool X cand)) np in
  is_draw (length (pool X cand)) N (pick (length (pool X cand)) N) -> (k <= N -> forall t, is_draw N k (draws t)) -> (k <= N -> fair N k draws) ->
  exists fuel r, rep_sampled fuel pick draws np nq k (Some X) cand = Ok r.
Proof.
  intros N Hp Hd Hf. destruct (mapM_getitem (pool X cand) (pick (length (pool X cand)) N)) as [pts [E F]].
  { intros i Hi. destruct Hp as [_ [_ Hp]]. rewrite Forall_forall in Hp. auto. }
  assert (T : exists fuel rows, sample_unique_sets fuel draws N (Nat.min nq (comb N k)) k = Ok rows).
  { destruct (le_lt_dec k N) as [L|L].
    - apply sample_terminates; auto. rewrite comb_binom. lia.
    - rewrite comb_binom, binom_small by auto. rewrite Nat.min_0_r. exists 1, []. reflexivity. }
  destruct T as [fuel [rows T]]. exists fuel, (Some (pts, rows)). unfold rep_sampled. fold (pool X cand). fold N. rewrite E. cbn [bind]. now rewrite T.
Qed.

(** queries inside one of ten environments *)
Lemma SS_shift d q : StronglySorted lt q <-> StronglySorted lt (map (fun x => x + d) q).
Proof.
  induction q as [|x q IH]; cbn; [split; constructor|]. split; intro H; inversion H as [|? ? H1 H2]; subst; constructor; try (now apply IH).
  - rewrite Forall_forall in *. intros y Hy. apply in_map_iff in Hy. destruct Hy as [z [<- Hz]]. specialize (H2 z Hz). lia.
  - rewrite Forall_forall in *. intros y Hy. specialize (H2 (y + d)). assert (In (y + d) (map (fun x => x + d) q)) by (apply in_map_iff; eauto). specialize (H2 H0). lia.
Qed.
Lemma shift_env per k e q : is_subset per k q -> in_environment per k e (map (fun x => x + e * per) q).
Proof.
  intros [L [S F]]. split; [now rewrite map_length|]. split; [now apply SS_shift|]. rewrite Forall_forall in *. intros y Hy.
  apply in_map_iff in Hy. destruct Hy as [z [<- Hz]]. specialize (F z Hz). lia.
Qed.
Lemma env_shift per k e q : in_environment per k e q -> exists q', is_subset per k q' /\ q = map (fun x => x + e * per) q'.
Proof.
  intros [L [S F]]. rewrite Forall_forall in F. exists (map (fun x => x - e * per) q).
  assert (E : q = map (fun x => x + e * per) (map (fun x => x - e * per) q)).
  { rewrite map_map. rewrite <- (map_id q) at 1. apply map_ext_in. intros x Hx. specialize (F x Hx). lia. }
  split; auto. split; [now rewrite map_length|]. split; [apply (SS_shift (e * per)); now rewrite <- E|].
  rewrite Forall_forall. intros y Hy. apply in_map_iff in Hy. destruct Hy as [x [<- Hx]]. specialize (F x Hx). lia.
Qed.
Lemma rep_stable_eq rows k : k <= rows / 10 ->
  rep_stable rows k = Ok (concat (map (fun i => map (map (fun x => x + i * (rows / 10))) (all_subsets 0 (rows / 10) k)) (seq 0 10))).
Proof.
  intro H. unfold rep_stable. rewrite combinations_all. assert (P := binom_pos _ _ H). rewrite <- (all_subsets_length (rows / 10) 0 k) in P.
  destruct (all_subsets 0 (rows / 10) k) as [|c l]; [cbn in P; lia|reflexivity].
Qed.
Lemma rep_stable_small rows k : rows / 10 < k -> rep_stable rows k = Raise IndexError.
Proof.
  intro H. unfold rep_stable. rewrite combinations_all. assert (L := all_subsets_length (rows / 10) 0 k). rewrite binom_small in L by auto.
  destruct (all_subsets 0 (rows / 10) k); [reflexivity|discriminate].
Qed.
Lemma concat_length_const {A B} (g : A -> list B) n l : (forall x, length (g x) = n) -> length (concat (map g l)) = length l * n.
Proof. intro H. induction l as [|x l IH]; [reflexivity|]. cbn. rewrite app_length, H, IH. reflexivity. Qed.
Lemma NoDup_app_intro {A} (l1 l2 : list A) : NoDup l1 -> NoDup l2 -> (forall x, In x l1 -> ~ In x l2) -> NoDup (l1 ++ l2).
Proof.
  induction l1 as [|x l1 IH]; cbn; auto. intros N1 N2 D. inversion N1; subst. constructor.
  - rewrite in_app_iff. intros [?|?]; [auto|]. eapply D; eauto.
  - apply IH; auto.
Qed.
Lemma NoDup_concat_map {A B} (g : A -> list B) l : NoDup l -> (forall x, In x l -> NoDup (g x)) -> (forall x y z, In x l -> In y l -> In z (g x) -> In z (g y) -> x = y) ->
  NoDup (concat (map g l)).
Proof.
  induction l as [|a l IH]; intros N G D; cbn; [constructor|]. inversion N; subst. apply NoDup_app_intro.
  - apply G. now left.
  - apply IH; auto; [intros; apply G; now right|]. intros x y z Hx Hy. apply D; now right.
  - intros z Hz Hc. apply in_concat in Hc. destruct Hc as [m [Hm Hz']]. apply in_map_iff in Hm. destruct Hm as [y [<- Hy]].
    assert (a = y) by (apply (D a y z); auto; [now left|now right]). subst. auto.
Qed.
Lemma rep_stable_valid rows k : 1 <= k -> k <= rows / 10 -> exists Qs, rep_stable rows k = Ok Qs /\ length Qs = 10 * binom (rows / 10) k /\ NoDup Qs /\
  (forall q, In q Qs <-> exists e, e < 10 /\ in_environment (rows / 10) k e q) /\ (forall q x, In q Qs -> In x q -> x < rows).
Proof.
  intros H1 H. set (per := rows / 10) in *. eexists. split; [apply rep_stable_eq; exact H|]. fold per.
  assert (M : forall q, In q (concat (map (fun i => map (map (fun x => x + i * per)) (all_subsets 0 per k)) (seq 0 10))) <-> exists e, e < 10 /\ in_environment per k e q).
  { intro q. rewrite in_concat. split.
    - intros [m [Hm Hq]]. apply in_map_iff in Hm. destruct Hm as [e [<- He]]. apply in_seq in He. apply in_map_iff in Hq. destruct Hq as [q' [<- Hq]].
      exists e. split; [lia|]. apply shift_env. now apply all_subsets_spec.
    - intros [e [He Hq]]. destruct (env_shift _ _ _ _ Hq) as [q' [Hq' ->]]. exists (map (map (fun x => x + e * per)) (all_subsets 0 per k)).
      split; [apply (in_map (fun i => map (map (fun x => x + i * per)) (all_subsets 0 per k))); apply in_seq; lia|]. apply in_map. now apply all_subsets_spec. }
  split; [|split; [|split; [exact M|]]].
  - rewrite (concat_length_const _ (binom per k)); [reflexivity|]. intro i. now rewrite map_length, all_subsets_length.
  - apply NoDup_concat_map; [apply seq_NoDup| |].
    + intros i _. apply FinFun.Injective_map_NoDup; [|apply all_subsets_NoDup]. intros a b E.
      assert (E' : map (fun x => x - i * per) (map (fun x => x + i * per) a) = map (fun x => x - i * per) (map (fun x => x + i * per) b)) by now rewrite E.
      rewrite !map_map in E'. rewrite (map_ext _ (fun x => x)) in E' by (intro; lia). rewrite map_id in E'. rewrite (map_ext _ (fun x => x)) in E' by (intro; lia). now rewrite map_id in E'.
    + intros i j z _ _ Hi Hj. apply in_map_iff in Hi. destruct Hi as [a [<- Ha]]. apply in_map_iff in Hj. destruct Hj as [b [Eb Hb]].
      apply all_subsets_spec, (shift_env per k i) in Ha. apply all_subsets_spec, (shift_env per k j) in Hb. rewrite Eb in Hb.
      destruct Ha as [La [_ Fa]], Hb as [_ [_ Fb]]. destruct (map (fun x => x + i * per) a) as [|y l]; [cbn in La; lia|].
      inversion Fa as [|? ? Ya _]; subst. inversion Fb as [|? ? Yb _]; subst. nia.
  - intros q x Hq Hx. apply M in Hq. destruct Hq as [e [He [_ [_ F]]]]. rewrite Forall_forall in F. specialize (F x Hx).
    assert (D := Nat.mul_div_le rows 10 ltac:(lia)). fold per in D. nia.
Qed.
(** the sizes of the queries of a whole call *)
Lemma rep_alts_shown num_alts : num_alts <> Some 0 -> rep_alts num_alts = shown num_alts.
Proof. destruct num_alts as [[|[|[|k]]]|]; intro H; try reflexivity. congruence. Qed.
Lemma rep_sampled_sizes {A} fuel pick draws np nq num_alts (X cand : list A) pts Qs q :
  let N := Nat.min (length (pool X cand)) np in num_alts <> Some 0 ->
  is_draw (length (pool X cand)) N (pick (length (pool X cand)) N) -> (shown num_alts <= N -> forall t, is_draw N (shown num_alts) (draws t)) ->
  get_representative_Q fuel pick draws (RepSampled np nq) num_alts (Some X) cand = Ok (Some (pts, Qs)) -> In q Qs ->
  length q = shown num_alts /\ NoDup q /\ forall x, In x q -> x < length pts.
Proof.
  intros N HN Hp Hd H Hq. unfold get_representative_Q in H. rewrite rep_alts_shown in H by auto.
  destruct (rep_sampled_valid fuel pick draws np nq (shown num_alts) X cand _ Hp Hd H) as [idx [p [Q [E [[Li _] [F [_ [_ S]]]]]]]]. injection E as <- <-.
  rewrite Forall_forall in S. destruct (S q Hq) as [L [Ss B]]. assert (LF : length idx = length pts) by (clear - F; induction F; cbn; congruence). fold N in Li. split; [exact L|]. split.
  - clear - Ss. induction Ss as [|a l Sl IH Fl]; constructor; auto. intro I. rewrite Forall_forall in Fl. specialize (Fl a I). lia.
  - intros x Hx. rewrite Forall_forall in B. specialize (B x Hx). fold N in B. lia.
Qed.
Lemma rep_stable_sizes {A} fuel pick draws num_alts (file cand : list A) X pts Qs q : num_alts <> Some 0 ->
  get_representative_Q fuel pick draws (RepStable file) num_alts X cand = Ok (Some (pts, Qs)) -> In q Qs ->
  pts = file /\ length q = shown num_alts /\ NoDup q /\ forall x, In x q -> x < length pts.
Proof.
  intros HN H Hq. unfold get_representative_Q in H. rewrite rep_alts_shown in H by auto. destruct (rep_stable (length file) (shown num_alts)) as [Q|e] eqn:E; [|discriminate]. cbn [bind] in H. injection H as <- <-.
  assert (S2 : 1 <= shown num_alts) by (unfold shown; destruct num_alts; lia).
  destruct (le_lt_dec (shown num_alts) (length file / 10)) as [L|L]; [|rewrite rep_stable_small in E by auto; discriminate].
  destruct (rep_stable_valid (length file) (shown num_alts) S2 L) as [Q' [E' [_ [_ [I B]]]]]. rewrite E in E'. injection E' as <-.
  split; [reflexivity|]. destruct (proj1 (I q) Hq) as [e [_ [Lq [Ss _]]]]. split; [exact Lq|]. split; [|intros x; now apply B].
  clear - Ss. induction Ss as [|a l Sl IH Fl]; constructor; auto. intro J. rewrite Forall_forall in Fl. specialize (Fl a J). lia.
Qed.
