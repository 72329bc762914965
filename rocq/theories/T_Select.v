(** Candidate selection: properties C51 to C58. *)
From Verif Require Import M_Base M_Pareto M_Select M_UCB S_Pareto S_Select S_UCB P_Base P_Pareto P_Select P_UCB.
From Coq Require Import Permutation Sorted Reals Lra.

(** C51.  For any learner that picks single points: whatever [select] returns has the requested number of different,
    in-range, not previously selected candidates.  Nothing is assumed about the greedy criterion. *)
Theorem C51_selection_is_good : forall L cand mu n prev p pair_first P out,
  (pair_first = false \/ l_pair L = None) -> enumerates (l_enum L) -> length mu = length cand ->
  get_prefered_set_of_pts (l_pareto L) cand p = Ok P -> (forall i, In i P -> i < length cand) ->
  (l_best L = true -> prev = [] -> 1 <= num_alts_of L n) ->
  select L cand mu n prev p pair_first = Ok out -> good_selection (length cand) (num_alts_of L n) prev out.
Proof. intros L cand mu n prev p pf P out H1 H2 H3 H4 H5 H6 H. exact (proj1 (select_good L cand mu n prev p pf P H1 H2 H3 H4 H5 H6 out H)). Qed.
Print Assumptions C51_selection_is_good.

(** the number is the requested one, limited by the learner's maximum *)
Theorem C51_number : forall L n, num_alts_of L n <= n /\ (forall m, l_max L = Some m -> num_alts_of L n <= m) /\
  (num_alts_of L n = n \/ l_max L = Some (num_alts_of L n)).
Proof. exact num_alts_spec. Qed.
Print Assumptions C51_number.

(** if the greedy criterion always answers with one of the offered candidates, [select] fails exactly when there are
    too few unselected candidates *)
Theorem C51_fails_only_without_enough_candidates : forall L cand mu n prev p pair_first P,
  (pair_first = false \/ l_pair L = None) -> enumerates (l_enum L) -> length mu = length cand ->
  get_prefered_set_of_pts (l_pareto L) cand p = Ok P -> (forall i, In i P -> i < length cand) ->
  (l_best L = true -> prev = [] -> 1 <= num_alts_of L n) ->
  answers (l_greedy L) (length cand) ->
  (exists out, select L cand mu n prev p pair_first = Ok out /\ num_alts_of L n <= n_allowed (length cand) prev) \/
  (select L cand mu n prev p pair_first = Raise GenericException /\ n_allowed (length cand) prev < num_alts_of L n).
Proof. exact select_total. Qed.
Print Assumptions C51_fails_only_without_enough_candidates.

(** the learners of the package are such learners *)
Theorem C51_learners_answer : forall enum mu draw N, (forall k, enumerates (enum k)) -> N <= length mu ->
  answers (best_greedy enum mu) N /\ answers (worst_greedy enum mu) N /\ answers (random_greedy enum draw) N.
Proof. intros enum mu draw N H1 H2. exact (conj (best_answers enum mu N H1 H2) (conj (worst_answers enum mu N H1 H2) (random_answers enum draw N H1))). Qed.
Print Assumptions C51_learners_answer.
Theorem C51_ucb_answers : forall enum alpha mu var N, (forall k, enumerates (enum k)) -> N <= length mu -> N <= length var ->
  answers (ucb_greedy enum alpha mu var) N.
Proof. exact ucb_answers. Qed.
Print Assumptions C51_ucb_answers.

(** five candidates, set order reversed, BestLearner, two previously selected, preferred {0,3,4} *)
Definition ex_cand : list row := [[1#1]; [2#1]; [3#1]; [4#1]; [5#1]]%Q.
Definition ex_mu : list Q := [1#2; 3#1; 2#1; 3#1; 1#1]%Q.
Definition ex_best : learner := mkLearner (Some 4) false false (best_greedy (fun _ => @rev nat) ex_mu) None (@rev nat).
Example C51_ex : (true = false \/ l_pair ex_best = None) /\ enumerates (l_enum ex_best) /\ length ex_mu = length ex_cand /\
  get_prefered_set_of_pts (l_pareto ex_best) ex_cand (PrefList [3; 0; 4; 0]) = Ok [3; 4; 0] /\ answers (l_greedy ex_best) (length ex_cand) /\
  select ex_best ex_cand ex_mu 4 [3] (PrefList [3; 0; 4; 0]) true = Ok [4; 0; 1; 2] /\
  select ex_best ex_cand ex_mu 4 [3; 1] (PrefList [3; 0; 4; 0]) true = Raise GenericException.
Proof.
  split; [now right|]. split; [intro l; apply Permutation_sym, Permutation_rev|]. split; [reflexivity|]. split; [reflexivity|].
  split; [|split; vm_compute; reflexivity]. apply best_answers; [|auto]. intros k l. apply Permutation_sym, Permutation_rev.
Qed.

(** C52 *)
Theorem C52_preferred_first : forall L cand mu n prev p pair_first P out,
  (pair_first = false \/ l_pair L = None) -> enumerates (l_enum L) -> length mu = length cand ->
  get_prefered_set_of_pts (l_pareto L) cand p = Ok P -> (forall i, In i P -> i < length cand) ->
  (l_best L = true -> prev = [] -> 1 <= num_alts_of L n) ->
  select L cand mu n prev p pair_first = Ok out -> preferred_first (length cand) prev P out.
Proof. intros L cand mu n prev p pf P out H1 H2 H3 H4 H5 H6 H. exact (proj2 (select_good L cand mu n prev p pf P H1 H2 H3 H4 H5 H6 out H)). Qed.
Print Assumptions C52_preferred_first.
(** in [C51_ex] the preferred 4 and 0 come before 1 and 2; with always_select_best and a worst-first learner: *)
Definition ex_best_worst : learner := mkLearner None true false (worst_greedy (fun _ l => l) ex_mu) None (fun l => l).
Example C52_ex : enumerates (l_enum ex_best_worst) /\ select ex_best_worst ex_cand ex_mu 4 [] (PrefSet [0; 2; 4]) true = Ok [2; 0; 4; 1].
Proof. split; [intro; apply Permutation_refl|vm_compute; reflexivity]. Qed.

(** C53.  All candidates preferred: BestLearner *)
Theorem C53_best_learner_sorted : forall L enum cand mu n prev pair_first out,
  l_greedy L = best_greedy enum mu -> (forall k, enumerates (enum k)) -> l_pair L = None -> l_pareto L = false -> l_best L = false ->
  enumerates (l_enum L) -> length mu = length cand ->
  select L cand mu n prev PrefNone pair_first = Ok out ->
  length out = num_alts_of L n /\ ranked (val_le mu) (allowed (length cand) prev) out.
Proof.
  intros L enum cand mu n prev pf out Hg He Hp Hpa Hb Hel Hm H.
  exact (select_ranked_all L cand mu n prev pf (val_le mu) out (or_intror Hp) Hel Hm Hpa Hb
    (fun S i _ _ Hc => chosen_best enum mu L S i He Hg Hc) H).
Qed.
Print Assumptions C53_best_learner_sorted.
(** WorstLearner *)
Theorem C53_worst_learner_sorted : forall L enum cand mu n prev pair_first out,
  l_greedy L = worst_greedy enum mu -> (forall k, enumerates (enum k)) -> l_pair L = None -> l_pareto L = false -> l_best L = false ->
  enumerates (l_enum L) -> length mu = length cand ->
  select L cand mu n prev PrefNone pair_first = Ok out ->
  length out = num_alts_of L n /\ ranked (fun y x => val_le mu x y) (allowed (length cand) prev) out.
Proof.
  intros L enum cand mu n prev pf out Hg He Hp Hpa Hb Hel Hm H.
  exact (select_ranked_all L cand mu n prev pf (fun y x => val_le mu x y) out (or_intror Hp) Hel Hm Hpa Hb
    (fun S i _ _ Hc => chosen_worst enum mu L S i He Hg Hc) H).
Qed.
Print Assumptions C53_worst_learner_sorted.
(** UCBLearner on the mean and variance of a Gaussian process *)
Theorem C53_ucb_learner_sorted : forall L enum cand mu alpha mean var n prev pair_first out,
  l_greedy L = ucb_greedy enum alpha mean var -> (forall k, enumerates (enum k)) -> l_pair L = None -> l_pareto L = false -> l_best L = false ->
  enumerates (l_enum L) -> length mu = length cand -> length mean = length cand -> length var = length cand -> Forall (fun v => 0 <= v)%R var ->
  select L cand mu n prev PrefNone pair_first = Ok out ->
  length out = num_alts_of L n /\ ranked (ucb_le alpha mean var) (allowed (length cand) prev) out.
Proof.
  intros L enum cand mu alpha mean var n prev pf out Hg He Hp Hpa Hb Hel Hm _ _ _ H.
  exact (select_ranked_all L cand mu n prev pf (ucb_le alpha mean var) out (or_intror Hp) Hel Hm Hpa Hb
    (fun S i _ _ Hc => chosen_ucb enum alpha mean var L S i He Hg Hc) H).
Qed.
Print Assumptions C53_ucb_learner_sorted.
(** the uncertain candidate 0 beats the higher mean of candidate 1 *)
Definition ex_ucb : learner := mkLearner None false false (ucb_greedy (fun _ l => l) 1 [0; 1]%R [4; 0]%R) None (fun l => l).
Example C53_ex_ucb : Forall (fun v => 0 <= v)%R [4; 0]%R /\ select ex_ucb [[0#1]; [1#1]]%Q [0#1; 1#1]%Q 1 [] PrefNone true = Ok [0].
Proof.
  split; [repeat constructor; lra|]. unfold select, ex_ucb, ucb_greedy, score_greedy, pick_extreme, ucb_score, Rltb. cbn.
  replace (sqrt 4) with 2%R by (symmetry; replace 4%R with (2 * 2)%R by ring; apply sqrt_square; lra). rewrite sqrt_0.
  destruct (Rlt_dec (0 + 1 * 2) (1 + 1 * 0)) as [K|K]; [exfalso; lra|reflexivity].
Qed.
(** within a preferred set and then within the rest *)
Theorem C53_best_learner_sorted_in_blocks : forall L enum cand mu n prev p pair_first P out,
  l_greedy L = best_greedy enum mu -> (forall k, enumerates (enum k)) -> l_pair L = None -> l_best L = false ->
  enumerates (l_enum L) -> length mu = length cand ->
  get_prefered_set_of_pts (l_pareto L) cand p = Ok P -> (forall i, In i P -> i < length cand) ->
  select L cand mu n prev p pair_first = Ok out ->
  exists l1 l2, out = l1 ++ l2 /\ ranked (val_le mu) (fun y => In y P /\ allowed (length cand) prev y) l1 /\
    ranked (val_le mu) (fun y => ~ In y P /\ allowed (length cand) prev y) l2 /\
    (l2 <> [] -> forall i, In i P -> allowed (length cand) prev i -> In i l1).
Proof.
  intros L enum cand mu n prev p pf P out Hg He Hp Hb Hel Hm HP HPr H.
  exact (select_ranked L cand mu n prev p pf P (or_intror Hp) Hel Hm HP HPr (fun K => False_ind _ (Bool.diff_true_false (eq_trans (eq_sym K) Hb)))
    (val_le mu) out (fun S i _ _ Hc => chosen_best enum mu L S i He Hg Hc) Hb H).
Qed.
Print Assumptions C53_best_learner_sorted_in_blocks.
(** ties between 1 and 3 are resolved by the set order *)
Definition ex_worst : learner := mkLearner None false false (worst_greedy (fun _ l => l) ex_mu) None (fun l => l).
Definition ex_best_id : learner := mkLearner None false false (best_greedy (fun _ l => l) ex_mu) None (fun l => l).
Example C53_ex : select ex_best ex_cand ex_mu 3 [4] PrefNone true = Ok [3; 1; 2] /\ select ex_best_id ex_cand ex_mu 3 [4] PrefNone true = Ok [1; 3; 2] /\
  select ex_worst ex_cand ex_mu 2 [4] PrefNone false = Ok [0; 2].
Proof. vm_compute. auto. Qed.

(** C54 *)
Theorem C54_best_candidate_first : forall L cand mu n p pair_first P out,
  (pair_first = false \/ l_pair L = None) -> enumerates (l_enum L) -> length mu = length cand ->
  get_prefered_set_of_pts (l_pareto L) cand p = Ok P -> (forall i, In i P -> i < length cand) ->
  l_best L = true -> 1 <= num_alts_of L n ->
  select L cand mu n [] p pair_first = Ok out ->
  (exists b rest, out = b :: rest /\ (P <> [] -> In b P /\ forall j, In j P -> val_le mu j b) /\
                  (P = [] -> forall j, j < length cand -> val_le mu j b)) /\
  good_selection (length cand) (num_alts_of L n) [] out /\ preferred_first (length cand) [] P out.
Proof.
  intros L cand mu n p pf P out H1 H2 H3 H4 H5 Hb Hn H.
  exact (conj (select_best_first L cand mu n [] p pf P H1 H2 H3 H4 H5 out Hb eq_refl H)
              (select_good L cand mu n [] p pf P H1 H2 H3 H4 H5 (fun _ _ => Hn) out H)).
Qed.
Print Assumptions C54_best_candidate_first.
Example C54_ex : l_best ex_best_worst = true /\ select ex_best_worst ex_cand ex_mu 3 [] (PrefList []) true = Ok [1; 0; 4] /\
  select ex_best_worst ex_cand ex_mu 3 [] (PrefList [4; 2; 0]) true = Ok [2; 0; 4].
Proof. vm_compute. auto. Qed.

(** C55.  With return_not_selected the call gives a good selection and a disjoint rest, or there are fewer allowed
    preferred candidates than requested. *)
Theorem C55_not_selected_partial : forall L cand mu n prev p pair_first P fuel,
  (pair_first = false \/ l_pair L = None) -> enumerates (l_enum L) -> length mu = length cand ->
  get_prefered_set_of_pts (l_pareto L) cand p = Ok P -> (forall i, In i P -> i < length cand) ->
  (l_best L = true -> prev = [] -> 1 <= num_alts_of L n) ->
  answers (l_greedy L) (length cand) -> num_alts_of L n + length cand <= fuel ->
  (exists sel rest, select_ns L cand mu n prev p pair_first fuel = Ok (sel, rest) /\
     good_selection (length cand) (num_alts_of L n) prev sel /\ preferred_first (length cand) prev P sel /\
     NoDup (sel ++ rest) /\ forall i, In i rest -> allowed (length cand) prev i) \/
  (select_ns L cand mu n prev p pair_first fuel = Raise GenericException /\ n_pref_allowed (length cand) prev P < num_alts_of L n).
Proof. exact select_ns_cases. Qed.
Print Assumptions C55_not_selected_partial.
Example C55_ex : answers (l_greedy ex_best) (length ex_cand) /\
  select_ns ex_best ex_cand ex_mu 2 [] (PrefSet [0; 2; 4]) true 7 = Ok ([2; 4], [3; 1]) /\
  n_pref_allowed (length ex_cand) [] [0; 2; 4] = 3.
Proof.
  split; [|vm_compute; auto]. apply best_answers; [|auto]. intros k l. apply Permutation_sym, Permutation_rev.
Qed.
(** two candidates are requested and two exist, plain selection succeeds, but this call fails: the not preferred
    candidate is proposed first, is put aside, and the loop ends before it is taken back *)
Theorem C55_not_selected_refuted : exists L cand mu, answers (l_greedy L) (length cand) /\ enumerates (l_enum L) /\ l_pair L = None /\
  length mu = length cand /\ 2 <= n_allowed (length cand) [] /\
  select L cand mu 2 [] (PrefSet [1]) true = Ok [1; 0] /\
  forall fuel, 2 <= fuel -> select_ns L cand mu 2 [] (PrefSet [1]) true fuel = Raise GenericException.
Proof.
  exists (mkLearner None false false (best_greedy (fun _ l => l) [2#1; 1#1]%Q) None (fun l => l)), [[0#1]; [1#1]]%Q, [2#1; 1#1]%Q.
  split; [apply best_answers; [intros k l; apply Permutation_refl|auto]|]. split; [intro; apply Permutation_refl|].
  split; [reflexivity|]. split; [reflexivity|]. split; [vm_compute; auto|]. split; [vm_compute; reflexivity|].
  intros fuel Hf. destruct fuel as [|[|fuel]]; [lia|lia|]. destruct fuel; reflexivity.
Qed.
Print Assumptions C55_not_selected_refuted.

(** C56.  If the pair criterion answers with two different offered candidates and at least two preferred candidates
    are allowed, a pair-selecting learner obeys the same guarantees for n >= 2. *)
Theorem C56_pairs_partial : forall L f cand mu n prev p P,
  l_pair L = Some f -> answers_pairs f (length cand) -> answers (l_greedy L) (length cand) ->
  get_prefered_set_of_pts (l_pareto L) cand p = Ok P -> (forall i, In i P -> i < length cand) ->
  (l_best L = false \/ prev <> []) ->
  2 <= num_alts_of L n -> 2 <= n_pref_allowed (length cand) prev P -> num_alts_of L n <= n_allowed (length cand) prev ->
  exists out, select L cand mu n prev p true = Ok out /\
    good_selection (length cand) (num_alts_of L n) prev out /\ preferred_first (length cand) prev P out.
Proof. exact select_pair_good. Qed.
Print Assumptions C56_pairs_partial.
Definition first_two : nat -> list nat -> list nat -> result (nat * nat) :=
  fun _ idx _ => match idx with a :: b :: _ => Ok (a, b) | _ => Raise ValueError end.
Definition ex_pair : learner := mkLearner None false false (best_greedy (fun _ l => l) ex_mu) (Some first_two) (fun l => l).
Example C56_ex : answers_pairs first_two (length ex_cand) /\ select ex_pair ex_cand ex_mu 4 [1] (PrefSet [4; 0]) true = Ok [4; 0; 3; 2].
Proof.
  split; [|vm_compute; reflexivity]. intros k idx P Hn Hl Hr. destruct idx as [|a [|b idx]]; simpl in Hl; try lia.
  exists a, b. split; [reflexivity|]. split; [now left|]. split; [right; now left|]. intros ->. inversion Hn as [|? ? K _]. apply K. now left.
Qed.
(** asking a pair-selecting learner for one point gives two *)
Theorem C56_count_refuted : exists L f cand mu, l_pair L = Some f /\ answers_pairs f (length cand) /\ answers (l_greedy L) (length cand) /\
  select L cand mu 1 [] PrefNone true = Ok [0; 1] /\ ~ good_selection (length cand) 1 [] [0; 1].
Proof.
  exists ex_pair, first_two, ex_cand, ex_mu. split; [reflexivity|]. split; [exact (proj1 C56_ex)|].
  split; [apply best_answers; [intros k l; apply Permutation_refl|auto]|]. split; [vm_compute; reflexivity|]. intros [K _]. discriminate.
Qed.
Print Assumptions C56_count_refuted.
(** pick_pair_from_metric, which the pair learners use, looks at all candidates, so a previously selected and a not
    preferred candidate come back: with it as the pair criterion both exclusions fail *)
Definition metric_pair (draw : nat) (N : nat) (m : nat -> nat -> Q) (srt : list nat) : nat -> list nat -> list nat -> result (nat * nat) :=
  fun _ _ prev => pick_pair_from_metric N m prev srt draw.
Theorem C56_exclusions_refuted : exists N m srt cand mu out L, descending N (metric_at N m) srt /\ N = length cand /\
  l_pair L = Some (metric_pair 0 N m srt) /\
  select L cand mu 2 [0] (PrefSet [1; 2]) true = Ok out /\ In 0 out /\ ~ good_selection N 2 [0] out /\
  exists out', select L cand mu 2 [] (PrefSet [1; 2]) true = Ok out' /\ ~ preferred_first N [] [1; 2] out'.
Proof.
  exists 3, (fun a b => if (a + b =? 1) then 5#1 else 1#1)%Q, [1; 3; 2; 5; 6; 7; 0; 4; 8], [[0#1]; [1#1]; [2#1]]%Q, [0#1; 0#1; 0#1]%Q, [0; 1],
    (mkLearner None false false (best_greedy (fun _ l => l) [0#1; 0#1; 0#1]%Q)
       (Some (metric_pair 0 3 (fun a b => if (a + b =? 1) then 5#1 else 1#1)%Q [1; 3; 2; 5; 6; 7; 0; 4; 8])) (fun l => l)).
  split. { split.
    - apply NoDup_Permutation; [|apply seq_NoDup|].
      + repeat constructor; simpl; intuition discriminate.
      + intro x. rewrite in_seq. simpl. split; [intros K; repeat (destruct K as [<-|K]; [lia|]); destruct K|]. lia.
    - repeat constructor; vm_compute; discriminate. }
  split; [reflexivity|]. split; [reflexivity|]. split; [vm_compute; reflexivity|]. split; [now left|].
  split. { intros [_ [_ K]]. destruct (K 0) as [_ K2]; [now left|]. apply K2. now left. }
  exists [0; 1]. split; [vm_compute; reflexivity|]. intros [l1 [l2 [E [H1 [H2 H3]]]]].
  destruct l1 as [|x l1]; simpl in E.
  - subst l2. apply (H2 1); [right; now left|now left].
  - inversion E; subst. specialize (H1 0 (or_introl eq_refl)). simpl in H1. intuition discriminate.
Qed.
Print Assumptions C56_exclusions_refuted.
(** with return_not_selected a pair learner can be asked the same question for ever *)
Theorem C56_termination_refuted : exists L f cand mu, l_pair L = Some f /\ (forall k idx P, exists a b, f k idx P = Ok (a, b) /\ a <> b /\ a < length cand /\ b < length cand) /\
  forall fuel, select_ns L cand mu 2 [] (PrefSet [2]) true fuel = Raise OutOfFuel.
Proof.
  exists (mkLearner None false false (best_greedy (fun _ l => l) [0#1; 0#1; 0#1]%Q) (Some (fun _ _ _ => Ok (0, 1))) (fun l => l)),
    (fun _ _ _ => Ok (0, 1)), [[0#1]; [1#1]; [2#1]]%Q, [0#1; 0#1; 0#1]%Q.
  split; [reflexivity|]. split; [intros; exists 0, 1; simpl; repeat split; lia|].
  assert (G : forall L, l_pair L = Some (fun _ _ _ => Ok (0, 1)) -> forall fuel k notsel al, In 2 al ->
     ns_loop L true 2 [] fuel k [2] al notsel [] = Raise OutOfFuel).
  { intros L HL. induction fuel as [|fuel IH]; intros k notsel al Hal.
    - cbn [ns_loop length Nat.leb orb]. destruct al; [destruct Hal|]. reflexivity.
    - cbn [ns_loop length Nat.leb orb]. replace (length al =? 0) with false by (destruct al; [destruct Hal|reflexivity]).
      cbn [Nat.eqb andb Nat.sub Nat.ltb Nat.leb]. rewrite HL. cbn. apply IH.
      destruct (in_dec Nat.eq_dec 2 (remove_first 0 (remove_first 1 al))) as [|K]; auto. exfalso. apply K.
      apply in_remove_first_other; [|lia]. apply in_remove_first_other; [auto|lia]. }
  intros fuel. unfold select_ns, sel_start. cbn [l_best andb bind get_prefered_set_of_pts]. cbn [bind].
  change (diff (set_of [2]) (set_of [])) with [2].
  change (diff (diff (seq 0 (length [[0#1]; [1#1]; [2#1]]%Q)) (set_of [])) []) with [0; 1; 2].
  change (num_alts_of _ 2) with 2. rewrite G; [reflexivity|reflexivity|simpl; auto].
Qed.
Print Assumptions C56_termination_refuted.

(** C57 *)
Theorem C57_preferred_set : forall default_to_pareto k (cand : list row), rect k cand ->
  (forall p P, get_prefered_set_of_pts default_to_pareto cand p = Ok P ->
     NoDup P /\
     match p with
     | PrefNone => if default_to_pareto then forall i, In i P <-> on_front cand i else forall i, In i P <-> i < length cand
     | PrefPareto => forall i, In i P <-> on_front cand i
     | PrefSet s | PrefList s => forall i, In i P <-> In i s
     | PrefInt z => (z = 0%Z -> forall i, In i P <-> i < length cand) /\ ((0 < z)%Z -> forall i, In i P <-> (Z.of_nat i < z)%Z) /\ (0 <= z)%Z
     | PrefOther => False
     end) /\
  (forall p, (forall P, get_prefered_set_of_pts default_to_pareto cand p <> Ok P) ->
     get_prefered_set_of_pts default_to_pareto cand p = Raise ValueError /\ (p = PrefOther \/ exists z, p = PrefInt z /\ (z < 0)%Z)).
Proof. exact get_prefered_spec. Qed.
Print Assumptions C57_preferred_set.
(** every returned index is a candidate, unless a set, a list or a count with too large entries was passed *)
Theorem C57_indices_valid_partial : forall default_to_pareto k (cand : list row) p P, rect k cand ->
  get_prefered_set_of_pts default_to_pareto cand p = Ok P ->
  match p with PrefSet s | PrefList s => forall i, In i s -> i < length cand | PrefInt z => (z <= Z.of_nat (length cand))%Z | _ => True end ->
  forall i, In i P -> i < length cand.
Proof. exact get_prefered_range. Qed.
Print Assumptions C57_indices_valid_partial.
Example C57_ex : rect 2 [[1#1; 2#1]; [0#1; 1#1]; [2#1; 0#1]]%Q /\
  get_prefered_set_of_pts true [[1#1; 2#1]; [0#1; 1#1]; [2#1; 0#1]]%Q PrefNone = Ok [0; 2] /\
  get_prefered_set_of_pts true [[1#1; 2#1]; [0#1; 1#1]; [2#1; 0#1]]%Q (PrefInt 2) = Ok [0; 1] /\
  get_prefered_set_of_pts true [[1#1; 2#1]; [0#1; 1#1]; [2#1; 0#1]]%Q (PrefInt (-1)) = Raise ValueError.
Proof. split; [repeat constructor|vm_compute; auto]. Qed.
(** a count larger than the number of candidates yields indices of no candidate, and selection fails although there
    are enough candidates *)
Theorem C57_indices_valid_refuted : exists L cand mu, answers (l_greedy L) (length cand) /\ length mu = length cand /\ 2 <= n_allowed (length cand) [] /\
  get_prefered_set_of_pts false cand (PrefInt 4) = Ok [0; 1; 2; 3] /\ length cand = 3 /\
  select L cand mu 2 [] (PrefInt 4) true = Raise IndexError.
Proof.
  exists (mkLearner None false false (best_greedy (fun _ l => l) [0#1; 0#1; 0#1]%Q) None (fun l => l)), [[0#1]; [1#1]; [2#1]]%Q, [0#1; 0#1; 0#1]%Q.
  split; [apply best_answers; [intros k l; apply Permutation_refl|auto]|]. vm_compute. auto 10.
Qed.
Print Assumptions C57_indices_valid_refuted.

(** C58 *)
Theorem C58_best_fresh_pair : forall N m prev srt draw,
  2 <= N -> descending N (metric_at N m) srt -> (exists c, c < N /\ ~ In c prev) ->
  exists a b, pick_pair_from_metric N m prev srt draw = Ok (a, b) /\ best_fresh_pair N m prev a b.
Proof. exact pick_pair_spec. Qed.
Print Assumptions C58_best_fresh_pair.
Definition ex_metric (a b : nat) : Q := inject_Z (Z.of_nat ((a + 1) * (b + 1))).
Example C58_ex : descending 3 (metric_at 3 ex_metric) [7; 5; 2; 6; 3; 1; 8; 4; 0] /\
  pick_pair_from_metric 3 ex_metric [] [7; 5; 2; 6; 3; 1; 8; 4; 0] 1 = Ok (1, 2) /\
  pick_pair_from_metric 3 ex_metric [1; 2] [7; 5; 2; 6; 3; 1; 8; 4; 0] 1 = Ok (0, 2).
Proof.
  split; [split|vm_compute; auto].
  - apply NoDup_Permutation; [|apply seq_NoDup|].
    + repeat constructor; simpl; intuition discriminate.
    + intro x. rewrite in_seq. simpl. split; [intros K; repeat (destruct K as [<-|K]; [lia|]); destruct K|]. lia.
  - repeat constructor; vm_compute; auto; discriminate.
Qed.
(** when every candidate was selected before, the last entry is returned: a candidate paired with itself *)
Theorem C58_all_selected_refuted : exists N m srt draw, 2 <= N /\ descending N (metric_at N m) srt /\
  pick_pair_from_metric N m [0; 1] srt draw = Ok (0, 0).
Proof.
  exists 2, ex_metric, [1; 2; 3; 0], 0. split; [auto|]. split; [split|vm_compute; reflexivity].
  - apply NoDup_Permutation; [|apply seq_NoDup|].
    + repeat constructor; simpl; intuition discriminate.
    + intro x. rewrite in_seq. simpl. split; [intros K; repeat (destruct K as [<-|K]; [lia|]); destruct K|]. lia.
  - repeat constructor; vm_compute; auto; discriminate.
Qed.
Print Assumptions C58_all_selected_refuted.
