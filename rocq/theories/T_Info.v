(** Properties C59, C60, C91, C92, C93: information gains *)
From Verif Require Import M_Base M_RBase M_Info S_Util S_Info P_RBase P_Info P_Info2 P_Info3 P_Info4.
From Coq Require Import Reals Lra Lia.
Local Open Scope R_scope.

(** C59 *)
Theorem C59_mutual_information : forall pk Q all_w, Q <> [] -> all_w <> [] -> has_cols all_w Q -> exists ps,
  Forall2 (fun r p => luce pk (map (fun i => nth i r 0) Q) p) all_w ps /\
  calc_info_gain (length all_w) pk Q all_w = Ok (mutual_information (length Q) ps).
Proof. exact info_gain_is_mi. Qed.
Print Assumptions C59_mutual_information.
Theorem C59_range : forall pk Q all_w g, Q <> [] -> all_w <> [] -> has_cols all_w Q -> calc_info_gain (length all_w) pk Q all_w = Ok g ->
  0 <= g /\ g <= ln (INR (length Q)) / ln 2 /\ g <= ln (INR (length all_w)) / ln 2.
Proof. exact info_gain_range. Qed.
Print Assumptions C59_range.
Theorem C59_zero : forall pk Q all_w, pk <> 0 -> Q <> [] -> all_w <> [] -> has_cols all_w Q ->
  (calc_info_gain (length all_w) pk Q all_w = Ok 0 <-> forall r r', In r all_w -> In r' all_w -> same_differences Q r r').
Proof. exact info_gain_zero. Qed.
Print Assumptions C59_zero.
Theorem C59_greedy : forall pk all_w indicies prev, indicies <> [] -> all_w <> [] -> has_cols all_w (prev ++ indicies) ->
  exists i g, mutual_greedy (length all_w) pk all_w indicies prev = Ok (i, g) /\ In i indicies /\
    calc_info_gain (length all_w) pk (prev ++ [i]) all_w = Ok g /\
    forall j v, In j indicies -> calc_info_gain (length all_w) pk (prev ++ [j]) all_w = Ok v -> v <= g.
Proof. exact mutual_greedy_best. Qed.
Print Assumptions C59_greedy.
(** two samples that disagree about the order of alternatives 0 and 1: the score is positive *)
Example C59_ex : has_cols [[0; 1; 2]; [1; 0; 2]] ([1; 0]%nat) /\ ~ same_differences [1; 0]%nat [0; 1; 2] [1; 0; 2] /\
  calc_info_gain 2 10 [1; 0]%nat [[0; 1; 2]; [1; 0; 2]] <> Ok 0.
Proof.
  assert (H : has_cols [[0; 1; 2]; [1; 0; 2]] ([1; 0]%nat)).
  { intros r i [<- | [<- | []]] [<- | [<- | []]]; simpl; lia. }
  assert (N : ~ same_differences [1; 0]%nat [0; 1; 2] [1; 0; 2]).
  { intro K. specialize (K 1%nat 0%nat 1 0 0 1 (or_introl eq_refl) (or_intror (or_introl eq_refl)) eq_refl eq_refl eq_refl eq_refl). lra. }
  split; [exact H|split; [exact N|]]. intro E. apply N. change 2%nat with (length [[0; 1; 2]; [1; 0; 2]]) in E at 1.
  refine (proj1 (info_gain_zero 10 _ _ _ _ _ H) E _ _ _ _); try discriminate; [lra|now left|right; now left].
Qed.

(** C60: with the default method every candidate scores 0 *)
Theorem C60_default_refuted : forall p_B P i0 ls prev draw, prev <> [] -> positive_matrix (length p_B) P ->
  (forall i, In i (prev ++ i0 :: ls) -> (i < length p_B)%nat) -> rsum p_B = 1 ->
  (forall i, In i (i0 :: ls) -> exists h, calc_H_B_Q MethodProbit (prev ++ [i]) p_B P = Ok h /\ code_entropy p_B - h = 0) /\
  bayes_greedy MethodProbit p_B P (i0 :: ls) prev draw = Ok (i0, Some 0).
Proof. exact bayes_default. Qed.
Print Assumptions C60_default_refuted.
(** the same beliefs: the default method returns whichever candidate comes first, the method '999' the informative one *)
Theorem C60_method_999_partial : forall d,
  bayes_greedy MethodProbit pB4 P4 [3; 0]%nat [2]%nat d = Ok (3%nat, Some 0) /\
  exists g, bayes_greedy Method999 pB4 P4 [3; 0]%nat [2]%nat d = Ok (0%nat, Some g) /\ 0 < g.
Proof.
  intro d. split; [|exact (bayes_999_chooses d)]. apply bayes_default.
  - discriminate.
  - split; [reflexivity|]. intros row H. repeat destruct H as [<- | H]; try contradiction; split; try reflexivity;
      intros x K; repeat destruct K as [<- | K]; try contradiction; lra.
  - intros i H. cbn in H. unfold pB4. cbn [length]. repeat destruct H as [<- | H]; try contradiction; lia.
  - unfold pB4. cbn. lra.
Qed.
Print Assumptions C60_method_999_partial.
Example C60_ex : positive_matrix (length pB4) P4 /\ rsum pB4 = 1 /\ code_entropy pB4 = ln 2.
Proof.
  split; [|split; [unfold pB4; cbn; lra|exact entropy_pB4]].
  split; [reflexivity|]. intros row H. repeat destruct H as [<- | H]; try contradiction; split; try reflexivity;
      intros x K; repeat destruct K as [<- | K]; try contradiction; lra.
Qed.

(** C91: the pair score is negative for beliefs that contradict the predicted answer *)
Theorem C91_negative_refuted : forall m c,
  (m = MethodProbit \/ m = Method99) /\ c = 99/100 \/ m = Method999 /\ c = 999/1000 ->
  exists p_B p_q, prob_vector p_B /\ length p_B = 2%nat /\ (forall a b, 0 < p_q a b < 1) /\ (forall a b, p_q a b + p_q b a = 1) /\
    pair_info_gain m p_B p_q 0 1 < 0.
Proof.
  intros m c H. exists [1 - c; c], (p_q2 c).
  assert (Hc : 99/100 <= c <= 999/1000) by (destruct H as [[_ ->] | [_ ->]]; lra).
  split; [|split; [reflexivity|split; [|split; [|now apply negative_pair]]]].
  - split; [intros x [<- | [<- | []]]; lra|cbn; lra].
  - intros [|[|a]] [|[|b]]; cbn; lra.
  - intros [|[|a]] [|[|b]]; cbn; lra.
Qed.
Print Assumptions C91_negative_refuted.
(** when the answer model satisfies the law of total probability the score is not negative *)
Theorem C91_nonnegative_partial : forall m p_B p_q i j,
  let n := length p_B in let w c := nth c p_B 0 in
  let post a b c := pair_q_B m p_q a b c * w c / p_q a b in
  rsum p_B = 1 -> 0 < p_q i j -> 0 < p_q j i -> p_q i j + p_q j i = 1 ->
  (forall c, (c < n)%nat -> / 10 ^ 17 <= w c /\ / 10 ^ 17 <= post i j c /\ / 10 ^ 17 <= post j i c /\
                            pair_q_B m p_q i j c + pair_q_B m p_q j i c = 1) ->
  rsum (map (fun c => pair_q_B m p_q i j c * w c) (seq 0 n)) = p_q i j ->
  0 <= pair_info_gain m p_B p_q i j.
Proof. exact pair_gain_nonneg. Qed.
Print Assumptions C91_nonnegative_partial.
Example C91_ex : 0 <= pair_info_gain Method99 [1/2; 1/2] (fun _ _ => 1/2) 0 1.
Proof.
  apply pair_gain_nonneg; cbn [length nth]; try (cbn; lra).
  intros [|[|c]] Hc; cbn; [| |exfalso; cbn in Hc; lia]; repeat split; lra.
Qed.

(** C92: the first alternative of a query is the first index, whatever the samples say *)
Theorem C92_first_refuted : forall pk all_w i0 ls, pk <> 0 -> all_w <> [] -> has_cols all_w (i0 :: ls) ->
  mutual_greedy (length all_w) pk all_w (i0 :: ls) [] = Ok (i0, 0).
Proof. exact mutual_first. Qed.
Print Assumptions C92_first_refuted.
Example C92_ex : mutual_greedy 2 10 [[0; 5; 7]; [1; 5; -3]] [1; 0; 2]%nat [] = Ok (1%nat, 0).
Proof.
  change 2%nat with (length [[0; 5; 7]; [1; 5; -3]]) at 1. apply mutual_first; [lra|discriminate|].
  intros r i [<- | [<- | []]] [<- | [<- | [<- | []]]]; simpl; lia.
Qed.

(** C93: the pair asked before any training may name one candidate twice *)
Theorem C93_repeated_refuted : forall i ls, exists d1 d2, bayes_pair_untrained (i :: ls) d1 d2 = Ok (i, i).
Proof. exact untrained_repeated. Qed.
Print Assumptions C93_repeated_refuted.
Theorem C93_in_range_partial : forall ls d1 d2, ls <> [] -> exists a b, bayes_pair_untrained ls d1 d2 = Ok (a, b) /\ In a ls /\ In b ls /\
  (NoDup ls -> (a = b <-> d1 mod length ls = d2 mod length ls)).
Proof. exact untrained_in. Qed.
Print Assumptions C93_in_range_partial.
Example C93_ex : bayes_pair_untrained [4; 7; 9]%nat 5 5 = Ok (9, 9)%nat /\ bayes_pair_untrained [4; 7; 9]%nat 5 6 = Ok (9, 4)%nat.
Proof. split; reflexivity. Qed.
