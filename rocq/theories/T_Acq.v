(** Properties C61, C94-C103: alignment-based acquisition *)
From Coq Require Import List Arith.
From Verif Require Import M_Base M_RBase M_Fake M_Select M_Info M_PrefProbit M_Sampling S_Sampling M_Acq S_Psd S_Acq P_RBase P_Acq P_Acq2 P_Acq4 P_Acq5 P_Acq6 P_Acq7.
From Coq Require Import Reals Lra Lia List.
From Verif Require Import S_Psd.
Import ListNotations.
Local Open Scope R_scope.

(** C61: the size threshold never matters, and the score is the expected alignment of two samples after hearing the answer *)
Theorem C61_loop_is_vectorised : forall M f p a b, quick_sum M f p a b = expand_sum M f p a b.
Proof. exact quick_expand. Qed.
Print Assumptions C61_loop_is_vectorised.
Theorem C61_threshold : forall M n n' f p a b, pair_align M n f p a b = pair_align M n' f p a b.
Proof. exact pair_align_size. Qed.
Print Assumptions C61_threshold.
Theorem C61_expected : forall M n f p a b, (0 < M)%nat -> (forall k, (k < M)%nat -> 0 < p k a b /\ 0 < p k b a) ->
  pair_align M n f p a b = answer_chance M (fun k => p k a b) * posterior_alignment M f (fun k => p k a b)
    + answer_chance M (fun k => p k b a) * posterior_alignment M f (fun k => p k b a).
Proof. exact pair_posterior. Qed.
Print Assumptions C61_expected.
Theorem C61_greedy_expected : forall M f P prev c, (0 < M)%nat -> (forall k a b, 0 < P k a b) ->
  greedy_align M f P prev c = sumn (S (length prev)) (fun q =>
    answer_chance M (fun k => choice_chance (P k) (prev ++ [c]) q) * posterior_alignment M f (fun k => choice_chance (P k) (prev ++ [c]) q)).
Proof. exact greedy_posterior. Qed.
Print Assumptions C61_greedy_expected.
Theorem C61_integrand : forall M f p, (0 < M)%nat -> (forall k, (k < M)%nat -> 0 < p k) -> pq_integrand M f p = answer_chance M p * posterior_alignment M f p.
Proof. exact integrand_posterior. Qed.
Print Assumptions C61_integrand.
Theorem C61_representative_answers : forall L Q, query_p L Q = map (choice_chance L Q) (seq 0 (length Q)).
Proof. exact query_choice. Qed.
Print Assumptions C61_representative_answers.
Definition ex_f (i j : nat) : R := if Nat.eqb i j then 1 else 0.
Definition ex_p (k a b : nat) : R := if Nat.eqb k 0 then (if Nat.ltb a b then 3/4 else 1/4) else 1/2.
Example C61_ex : pair_align 2 40 ex_f ex_p 0 1 = 8/15 /\ (forall k, (k < 2)%nat -> 0 < ex_p k 0%nat 1%nat /\ 0 < ex_p k 1%nat 0%nat).
Proof.
  split; [rewrite (pair_align_size 2 40 1); unfold pair_align, pair_E, expand_sum, sum_to, ex_f, ex_p; cbn; field|].
  intros [|[|k]] Hk; [| |lia]; unfold ex_p; cbn; lra.
Qed.

(** C94: who is compared with whom does not matter *)
Theorem C94_symmetric : forall k s Qs nrep rows m i j, (forall r, In r rows -> length r = nrep) -> alignment k s Qs nrep rows = Some m ->
  (i < length rows)%nat -> (j < length rows)%nat -> mentry m i j = mentry m j i.
Proof. exact alignment_sym. Qed.
Print Assumptions C94_symmetric.
Theorem C94_shape : forall k s Qs nrep rows m, alignment k s Qs nrep rows = Some m -> length m = length rows /\ forall r, In r m -> length r = length rows.
Proof. exact alignment_shape. Qed.
Print Assumptions C94_shape.
Definition ex_rows : list (list R) := [[0; 1; 3]; [2; 2; 1]; [5; -1; 0]].
Lemma ex_rows_proper : proper_rows 3 ex_rows.
Proof.
  intros r [<- | [<- | [<- | []]]]; (split; [reflexivity|]);
    [exists 0, 1; split; [now left|split; [right; now left|lra]]|exists 2, 1; split; [now left|split; [do 2 right; now left|lra]]|exists 5, 0; split; [now left|split; [do 2 right; now left|lra]]].
Qed.
Example C94_ex : (forall r, In r ex_rows -> length r = 3%nat) /\ exists m, alignment ASpearman 1 [] 3 ex_rows = Some m /\ (0 < length ex_rows)%nat /\ (1 < length ex_rows)%nat.
Proof. split; [intros r Hr; apply (ex_rows_proper r Hr)|]. eexists. split; [reflexivity|]. cbn; lia. Qed.

(** C95: every sample is aligned best with itself *)
Theorem C95_self_partial : forall k s Qs nrep rows m i j, k <> ALogLik -> (2 <= nrep)%nat -> proper_rows nrep rows -> alignment k s Qs nrep rows = Some m ->
  (i < length rows)%nat -> (j < length rows)%nat -> mentry m i j <= mentry m i i.
Proof. exact alignment_self. Qed.
Print Assumptions C95_self_partial.
Theorem C95_loglikelihood_refuted : exists s Qs rows m, proper_rows 2 rows /\ alignment ALogLik s Qs 2 rows = Some m /\ mentry m 0 0 < mentry m 0 1.
Proof. exact loglik_self_ex. Qed.
Print Assumptions C95_loglikelihood_refuted.
Example C95_ex : proper_rows 3 ex_rows /\ exists m, alignment AEpic 1 [] 3 ex_rows = Some m.
Proof. split; [exact ex_rows_proper|]. eexists. reflexivity. Qed.

(** C96: ranges of the alignment functions *)
Theorem C96_range : forall k s Qs nrep rows m i j, k <> ALogLik -> (2 <= nrep)%nat -> (forall r, In r rows -> length r = nrep) -> alignment k s Qs nrep rows = Some m ->
  (i < length rows)%nat -> (j < length rows)%nat ->
  match k with ARho => - sqrt 2 | AEpic | ASpearman => -1 | _ => 1 end <= mentry m i j <= match k with ARho | AEpic => 0 | _ => 1 end.
Proof. exact alignment_range. Qed.
Print Assumptions C96_range.
Theorem C96_loglikelihood : forall s Qs nrep rows m i j, (2 <= nrep)%nat -> Forall (fun Q => Q <> []) Qs -> alignment ALogLik s Qs nrep rows = Some m ->
  (i < length rows)%nat -> (j < length rows)%nat -> mentry m i j <= 0.
Proof. exact alignment_loglik_range. Qed.
Print Assumptions C96_loglikelihood.
Example C96_ex : (forall r, In r ex_rows -> length r = 3%nat) /\ Forall (fun Q : list nat => Q <> []) [[0; 1]%nat; [1; 2]%nat] /\
  exists m, alignment ALogLik 1 [[0; 1]%nat; [1; 2]%nat] 3 ex_rows = Some m.
Proof. split; [intros r Hr; apply (ex_rows_proper r Hr)|]. split; [repeat constructor; discriminate|]. eexists. reflexivity. Qed.

(** C97: what the alignment functions cannot distinguish *)
Theorem C97_rho : forall r r', r <> [] -> length r = length r' -> (rho_entry r r' = 0 <-> exists c, r' = map (fun x => x + c) r).
Proof. exact rho_zero. Qed.
Print Assumptions C97_rho.
Theorem C97_epic : forall x y, length x = length y -> not_constant x -> not_constant y ->
  (epic_entry x y = 0 <-> exists a b, 0 < a /\ y = map (fun v => a * v + b) x).
Proof. exact epic_zero. Qed.
Print Assumptions C97_epic.
Theorem C97_epic_opposite : forall a b x, a < 0 -> not_constant x -> epic_entry x (map (fun v => a * v + b) x) = -1.
Proof. exact epic_opposite. Qed.
Print Assumptions C97_epic_opposite.
Theorem C97_spearman : forall g x y, increasing_on x g -> spearman_entry (map g x) y = spearman_entry x y.
Proof. exact spearman_increasing. Qed.
Print Assumptions C97_spearman.
Theorem C97_spearman_same_order : forall g x, not_constant x -> increasing_on x g -> spearman_entry x (map g x) = 1.
Proof. exact spearman_self. Qed.
Print Assumptions C97_spearman_same_order.
Theorem C97_correlation : forall x y, length x = length y -> not_constant x -> not_constant y ->
  spearman_entry x y = pearson (rankdata x) (rankdata y) /\ corr x y = pearson x y.
Proof. intros x y HL Hx Hy. split; [exact (spearman_pearson x y HL Hx Hy)|exact (corr_pearson x y HL Hx Hy)]. Qed.
Print Assumptions C97_correlation.
Example C97_ex : not_constant [0; 1; 3] /\ increasing_on [0; 1; 3] (fun x => x * x) /\ not_constant (map (fun v => 2 * v + 1) [0; 1; 3]).
Proof.
  split; [exists 0, 1; repeat split; [now left|right; now left|lra]|]. split.
  - intros x y Hx Hy L. destruct Hx as [<- | [<- | [<- | []]]], Hy as [<- | [<- | [<- | []]]]; lra.
  - exists (2 * 0 + 1), (2 * 1 + 1). repeat split; [now left|right; now left|lra].
Qed.

(** C98: a score lies between the worst and the best alignment *)
Theorem C98_pair : forall M n f p a b lo hi, (0 < M)%nat -> (forall i j, (i < M)%nat -> (j < M)%nat -> lo <= f i j <= hi) -> answer_probabilities M p a b ->
  lo <= pair_align M n f p a b <= hi.
Proof. exact pair_align_range. Qed.
Print Assumptions C98_pair.
Theorem C98_greedy : forall M f P prev c lo hi, (0 < M)%nat -> (forall i j, (i < M)%nat -> (j < M)%nat -> lo <= f i j <= hi) -> (forall k a b, 0 < P k a b) ->
  lo <= greedy_align M f P prev c <= hi.
Proof. exact greedy_align_range. Qed.
Print Assumptions C98_greedy.
Theorem C98_uninformative : forall M n f p a b c, (0 < M)%nat -> answer_probabilities M p a b -> (forall k, (k < M)%nat -> p k a b = c) ->
  pair_align M n f p a b = mean_entry M f.
Proof. exact pair_align_uninformative. Qed.
Print Assumptions C98_uninformative.
Example C98_ex : answer_probabilities 2 ex_p 0 1 /\ (forall i j, (i < 2)%nat -> (j < 2)%nat -> 0 <= ex_f i j <= 1).
Proof.
  split; [intros [|[|k]] Hk; [| |lia]; unfold ex_p; cbn; lra|]. intros i j _ _. unfold ex_f. destruct (Nat.eqb i j); lra.
Qed.

(** C99: the two selection routines agree on pairs *)
Theorem C99_greedy_is_pair : forall M n f P a c, (0 < M)%nat -> answer_probabilities M P a c -> greedy_align M f P [a] c = pair_align M n f P a c.
Proof. exact greedy_pair. Qed.
Print Assumptions C99_greedy_is_pair.
Theorem C99_answers : forall P prev c, greedy_p P prev c = query_p P (prev ++ [c]).
Proof. exact greedy_query. Qed.
Print Assumptions C99_answers.
Example C99_ex : answer_probabilities 2 ex_p 0 1 /\ greedy_align 2 ex_f ex_p [0]%nat 1 = 8/15.
Proof. split; [apply C98_ex|]. rewrite (greedy_pair 2 40) by (try lia; apply C98_ex). apply C61_ex. Qed.

(** C100: asking a question never lowers the expected alignment *)
Theorem C100_pair_partial : forall k s Qs nrep rows m n p a b, k <> ALogLik -> (2 <= nrep)%nat -> rows <> [] -> proper_rows nrep rows ->
  alignment k s Qs nrep rows = Some m -> answer_probabilities (length rows) p a b ->
  mean_entry (length rows) (mentry m) <= pair_align (length rows) n (mentry m) p a b.
Proof. exact asking_pair. Qed.
Print Assumptions C100_pair_partial.
Theorem C100_greedy_partial : forall k s Qs nrep rows m P prev c, k <> ALogLik -> (2 <= nrep)%nat -> rows <> [] -> proper_rows nrep rows ->
  alignment k s Qs nrep rows = Some m -> (forall k a b, 0 < P k a b) ->
  mean_entry (length rows) (mentry m) <= greedy_align (length rows) (mentry m) P prev c.
Proof. exact asking_greedy. Qed.
Print Assumptions C100_greedy_partial.
Theorem C100_exact_gain : forall M n f p a b, (0 < M)%nat -> answer_probabilities M p a b ->
  let pbar := sumn M (fun k => p k a b) / INR M in
  pair_align M n f p a b = mean_entry M f + qform M f (fun k => p k a b - pbar) / (INR M * INR M * (pbar * (1 - pbar))).
Proof. exact pair_align_variance. Qed.
Print Assumptions C100_exact_gain.
Theorem C100_loglikelihood_refuted : exists s Qs rows m p, (forall r, In r rows -> length r = 2%nat) /\ alignment ALogLik s Qs 2 rows = Some m /\
  answer_probabilities (length rows) p 0 1 /\ (exists cands, forall k, p k = probit_of s (nth k cands [])) /\
  forall n, pair_align (length rows) n (mentry m) p 0 1 < mean_entry (length rows) (mentry m).
Proof. exact loglik_loss_ex. Qed.
Print Assumptions C100_loglikelihood_refuted.
Example C100_ex : proper_rows 3 ex_rows /\ (exists m, alignment ARho 1 [] 3 ex_rows = Some m) /\ answer_probabilities (length ex_rows) ex_p 0 1.
Proof.
  split; [exact ex_rows_proper|]. split; [eexists; reflexivity|]. intros [|[|[|k]]] Hk; [| | |cbn in Hk; lia]; unfold ex_p; cbn; lra.
Qed.

(** C101: greedy selection returns the best candidate, but cannot start a query *)
Theorem C101_first_refuted : forall trained M f P i0 ls d, acq_greedy trained M f P (i0 :: ls) [] d = Raise IndexError.
Proof. exact acq_greedy_first. Qed.
Print Assumptions C101_first_refuted.
Theorem C101_best_partial : forall M f P indicies prev d, indicies <> [] -> prev <> [] ->
  exists i v, acq_greedy true M f P indicies prev d = Ok (i, v) /\ In i indicies /\ v = greedy_align M f P prev i /\
    forall j, In j indicies -> greedy_align M f P prev j <= v.
Proof. exact acq_greedy_best. Qed.
Print Assumptions C101_best_partial.
Example C101_ex : acq_greedy false 2 ex_f ex_p [3; 4]%nat [1]%nat 7 = Ok (4%nat, 0) /\ acq_greedy true 2 ex_f ex_p [3; 4]%nat [] 7 = Raise IndexError.
Proof. split; reflexivity. Qed.

(** C102: representative queries *)
Theorem C102_sampled : forall A fuel pick draws np nq k (X cand : list A) r,
  let N := Nat.min (length (pool X cand)) np in
  is_draw (length (pool X cand)) N (pick (length (pool X cand)) N) -> ((k <= N)%nat -> forall t, is_draw N k (draws t)) ->
  rep_sampled fuel pick draws np nq k (Some X) cand = Ok r ->
  exists idx pts Qs, r = Some (pts, Qs) /\ is_draw (length (pool X cand)) N idx /\ Forall2 (fun i x => nth_error (pool X cand) i = Some x) idx pts /\
    length Qs = Nat.min nq (binom N k) /\ NoDup Qs /\ Forall (is_subset N k) Qs.
Proof. exact @rep_sampled_valid. Qed.
Print Assumptions C102_sampled.
Theorem C102_sampled_terminates : forall A pick draws np nq k (X cand : list A),
  let N := Nat.min (length (pool X cand)) np in
  is_draw (length (pool X cand)) N (pick (length (pool X cand)) N) -> ((k <= N)%nat -> forall t, is_draw N k (draws t)) -> ((k <= N)%nat -> fair N k draws) ->
  exists fuel r, rep_sampled fuel pick draws np nq k (Some X) cand = Ok r.
Proof. exact @rep_sampled_total. Qed.
Print Assumptions C102_sampled_terminates.
Theorem C102_stable_partial : forall rows k, (1 <= k)%nat -> (k <= rows / 10)%nat ->
  exists Qs, rep_stable rows k = Ok Qs /\ length Qs = (10 * binom (rows / 10) k)%nat /\ NoDup Qs /\
  (forall q, In q Qs <-> exists e, (e < 10)%nat /\ in_environment (rows / 10) k e q) /\ (forall q x, In q Qs -> In x q -> (x < rows)%nat).
Proof. exact rep_stable_valid. Qed.
Print Assumptions C102_stable_partial.
Theorem C102_stable_small_refuted : forall rows k, (rows / 10 < k)%nat -> rep_stable rows k = Raise IndexError.
Proof. exact rep_stable_small. Qed.
Print Assumptions C102_stable_small_refuted.
(** every query has as many alternatives as the selector shows, and at least two *)
Theorem C102_sampled_sizes : forall A fuel pick draws np nq num_alts (X cand : list A) pts Qs q,
  let N := Nat.min (length (pool X cand)) np in num_alts <> Some O ->
  is_draw (length (pool X cand)) N (pick (length (pool X cand)) N) -> ((shown num_alts <= N)%nat -> forall t, is_draw N (shown num_alts) (draws t)) ->
  get_representative_Q fuel pick draws (RepSampled np nq) num_alts (Some X) cand = Ok (Some (pts, Qs)) -> In q Qs ->
  length q = shown num_alts /\ NoDup q /\ forall x, In x q -> (x < length pts)%nat.
Proof. exact @rep_sampled_sizes. Qed.
Print Assumptions C102_sampled_sizes.
Theorem C102_stable_sizes : forall A fuel pick draws num_alts (file cand : list A) X pts Qs q, num_alts <> Some O ->
  get_representative_Q fuel pick draws (RepStable file) num_alts X cand = Ok (Some (pts, Qs)) -> In q Qs ->
  pts = file /\ length q = shown num_alts /\ NoDup q /\ forall x, In x q -> (x < length pts)%nat.
Proof. exact @rep_stable_sizes. Qed.
Print Assumptions C102_stable_sizes.
Theorem C102_unknown : forall A fuel pick draws num_alts X (cand : list A), get_representative_Q fuel pick draws RepOther num_alts X cand = Raise ValueError.
Proof. exact (fun _ _ _ _ _ _ _ => eq_refl). Qed.
Print Assumptions C102_unknown.
Example C102_sizes_ex :
  get_representative_Q 9 (fun _ _ => [2; 0]%nat) (fun t => [t mod 2; (t + 1) mod 2]%nat) (RepSampled 2 5) (Some 1%nat) (Some [7; 8; 9]%nat) [] = Ok (Some ([9; 7]%nat, [[0; 1]%nat])) /\
  is_draw 3 2 [2; 0]%nat /\ (forall t, is_draw 2 2 [t mod 2; (t + 1) mod 2]%nat) /\
  exists Qs, get_representative_Q 9 (fun _ _ => []) (fun _ => []) (RepStable (seq 0 20)) (Some 1%nat) None [] = Ok (Some (seq 0 20, Qs)) /\ In [2; 3]%nat Qs.
Proof.
  split; [reflexivity|]. split; [repeat split; repeat constructor; cbn; intuition lia|]. split.
  - intro t. assert (B := Nat.mod_upper_bound t 2 ltac:(lia)). assert (B' := Nat.mod_upper_bound (t + 1) 2 ltac:(lia)).
    assert (D := Nat.div_mod t 2 ltac:(lia)). assert (D' := Nat.div_mod (t + 1) 2 ltac:(lia)).
    repeat split; [|apply Forall_cons; [exact B|apply Forall_cons; [exact B'|apply Forall_nil]]]. repeat constructor; cbn [In]; intuition lia.
  - eexists. split; [reflexivity|]. right. now left.
Qed.
Example C102_ex : rep_stable 20 2 = Ok [[0;1];[2;3];[4;5];[6;7];[8;9];[10;11];[12;13];[14;15];[16;17];[18;19]]%nat /\ rep_stable 19 2 = Raise IndexError /\
  rep_sampled 9 (fun _ _ => [2; 0]%nat) (fun t => [t mod 2; (t + 1) mod 2]%nat) 2 5 2 (Some [7; 8; 9]%nat) [] = Ok (Some ([9; 7]%nat, [[0; 1]%nat])).
Proof. repeat split; reflexivity. Qed.

(** C103: comparing a group of samples with itself gives its alignment matrix *)
Theorem C103_same_partial : forall k s Qs nrep rows, (2 <= nrep)%nat -> k = AEpic \/ k = ASpearman \/ k = AOne ->
  alignment_between k nrep rows rows = Ok (alignment k s Qs nrep rows).
Proof. exact between_same. Qed.
Print Assumptions C103_same_partial.
Theorem C103_swap : forall k nrep r1 r2 m m' i j, (2 <= nrep)%nat -> (forall r, In r (r1 ++ r2) -> length r = nrep) ->
  alignment_between k nrep r1 r2 = Ok (Some m) -> alignment_between k nrep r2 r1 = Ok (Some m') ->
  (i < length r1)%nat -> (j < length r2)%nat -> mentry m i j = mentry m' j i.
Proof. exact between_swap. Qed.
Print Assumptions C103_swap.
Theorem C103_missing_refuted : forall k nrep rows, (2 <= nrep)%nat -> k = ARho \/ k = ALogLik ->
  alignment_between k nrep rows rows = Raise NotImplementedError.
Proof. exact between_missing. Qed.
Print Assumptions C103_missing_refuted.
Example C103_ex : (forall r, In r (ex_rows ++ ex_rows) -> length r = 3%nat) /\ exists m, alignment_between AEpic 3 ex_rows ex_rows = Ok (Some m).
Proof. split; [intros r Hr; apply in_app_or in Hr; destruct Hr as [Hr|Hr]; apply (ex_rows_proper r Hr)|]. eexists. reflexivity. Qed.
