(** Properties C62-C66 and C75: learners that mix rating and pair queries. *)
From Verif Require Import M_Base M_Pairs M_Store M_Mixed S_Mixed P_Mixed.
From Coq Require Import Reals Lra.
From Verif Require Import M_Mixed.

(** C62: over any history of attached models and (possibly failing) queries *)
Theorem C62_set_fixed : forall h pr ar,
  fst (schedule_select SetFixed (schedule_run SetFixed h) pr ar) =
  match pr, ar with
  | Ok p, Ok a => Ok (if 8 <=? answered_since_attach h then PairQ p else RateQ a)
  | Raise e, _ => Raise e
  | _, Raise e => Raise e
  end.
Proof. exact (schedule_answer SetFixed). Qed.
Print Assumptions C62_set_fixed.
Theorem C62_alternating : forall h pr ar,
  fst (schedule_select Alternating (schedule_run Alternating h) pr ar) =
  match pr, ar with
  | Ok p, Ok a => Ok (if Nat.even (answered_since_attach h) then PairQ p else RateQ a)
  | Raise e, _ => Raise e
  | _, Raise e => Raise e
  end.
Proof. exact (schedule_answer Alternating). Qed.
Print Assumptions C62_alternating.
Definition hist62 : list scall := [Ask (Ok [0; 1]) (Ok [2]); Attach; Ask (Ok [0; 1]) (Ok [2]); Ask (Raise IndexError) (Ok [2]); Ask (Ok [3; 1]) (Ok [2])].
Example C62_ex : answered_since_attach hist62 = 2 /\
  fst (schedule_select Alternating (schedule_run Alternating hist62) (Ok [4; 5]) (Ok [6])) = Ok (PairQ [4; 5]) /\
  fst (schedule_select SetFixed (schedule_run SetFixed hist62) (Ok [4; 5]) (Ok [6])) = Ok (RateQ [6]).
Proof. vm_compute. auto. Qed.

(** C63: the plain learner returns the better type *)
Theorem C63_rate_choose : forall pr ar pm am u,
  rate_choose_select pr ar pm am u =
  match pr, ar with
  | Ok p, Ok a => Ok (if Rlt_dec am pm then PairQ p else if Rlt_dec pm am then RateQ a else if Rlt_dec (1/2) u then PairQ p else RateQ a)
  | Raise e, _ => Raise e
  | _, Raise e => Raise e
  end.
Proof. exact rate_choose_select_spec. Qed.
Print Assumptions C63_rate_choose.
(** the scaled learner: away from the wrong tie test *)
Theorem C63_mixed_comparison_partial : forall alpha pm am u p a,
  ((alpha * am < (1 - alpha) * pm)%R -> mixed_comparison alpha pm am u p a = PairQ p) /\
  (((1 - alpha) * pm <= alpha * am)%R -> pm <> (alpha * am)%R -> mixed_comparison alpha pm am u p a = RateQ a).
Proof. exact mixed_comparison_spec. Qed.
Print Assumptions C63_mixed_comparison_partial.
Example C63_ex : mixed_comparison (1/4) 1 2 0 [0; 1] [2] = PairQ [0; 1] /\ mixed_comparison (1/4) (1/4) 2 0 [0; 1] [2] = RateQ [2].
Proof. split; [apply mixed_comparison_spec; lra|apply mixed_comparison_spec; lra]. Qed.
(** a strictly worse scaled pair score can be returned, because the unscaled score is compared for the tie *)
Theorem C63_worse_pair_refuted : exists alpha pm am u p a, ((1 - alpha) * pm < alpha * am)%R /\ (0 < alpha < 1)%R /\ (0 <= u < 1)%R /\
  mixed_comparison alpha pm am u p a = PairQ p.
Proof. exists (1/2)%R, 1%R, 2%R, (3/4)%R, [0; 1], [2]. split; [lra|]. split; [lra|]. split; [lra|]. exact mixed_comparison_worse. Qed.
Print Assumptions C63_worse_pair_refuted.
(** an exact tie of the scaled scores is not broken at random *)
Theorem C63_tie_refuted : exists alpha pm am p a, ((1 - alpha) * pm = alpha * am)%R /\ (0 < alpha < 1)%R /\
  forall u, mixed_comparison alpha pm am u p a = RateQ a.
Proof. exists (1/2)%R, 1%R, 1%R, [0; 1], [2]. split; [lra|]. split; [lra|]. intro u. apply mixed_comparison_spec; lra. Qed.
Print Assumptions C63_tie_refuted.

(** C64 *)
Theorem C64_probability_range : forall s n, good_param s -> is_prob (mixed_probability s n).
Proof. exact prob_ok. Qed.
Print Assumptions C64_probability_range.
Theorem C64_peak_decreasing : forall s n m,
  match s with SPeak | SPeak2 => True | SPeak3 p => (0 <= p)%R | _ => False end ->
  (2 <= n <= m)%nat -> (mixed_probability s m <= mixed_probability s n)%R.
Proof. exact peak_decreasing. Qed.
Print Assumptions C64_peak_decreasing.
Theorem C64_rating_iff_draw : forall s n u pr ar,
  strategy_select s (Some n) u pr ar =
  (if Rle_dec u (mixed_probability s n)
   then match ar with Ok a => (Ok (RateQ a), Some (S n)) | Raise e => (Raise e, Some n) end
   else match pr with Ok p => (Ok (PairQ p), Some (S n)) | Raise e => (Raise e, Some n) end).
Proof. exact strategy_select_eq. Qed.
Print Assumptions C64_rating_iff_draw.
(** the probabilities are not monotone over all calls, and a negative decay leaves [0,1] *)
Theorem C64_monotone_refuted : (mixed_probability SPeak 0 < mixed_probability SPeak 2)%R /\ ~ is_prob (mixed_probability (SPeak3 (-1)) 4).
Proof. exact prob_refuted. Qed.
Print Assumptions C64_monotone_refuted.
Example C64_ex : good_param (SPeak3 (1/2)) /\ good_param (SRevPeak (1/3)) /\ (2 <= 3 <= 7)%nat /\ mixed_probability (SRevPeak (1/3)) 9 = (1/3)%R.
Proof. simpl. unfold is_prob. repeat split; try lra; lia. Qed.

(** C65: one call after any history *)
Theorem C65_mode_changes : forall v2 p h x r n' st', let (n, st) := decision_run v2 p h in
  decision_select v2 p (n, st) x = (r, (n', st')) ->
  n' = match r with Ok _ => S n | Raise _ => n end /\
  (~ evaluation n -> st' = st) /\
  (forall q, r = Ok q -> st' = 0 \/ st' = 1 \/ st' = 2) /\ st' <= 3.
Proof. exact decision_after. Qed.
Print Assumptions C65_mode_changes.
Theorem C65_mode_final : forall v2 p h h', no_attach h' -> 16 <= fst (decision_run v2 p h) ->
  snd (decision_run v2 p (h ++ h')) = snd (decision_run v2 p h).
Proof. exact decision_final. Qed.
Print Assumptions C65_mode_final.
Theorem C65_evaluation : forall v2 p n st x q n' st', evaluation n -> (0 < i_pm x)%R -> (0 < i_am x)%R ->
  decision_select v2 p (n, st) x = (Ok q, (n', st')) ->
  ((2 * i_am x < i_pm x)%R -> st' = 2 /\ exists l, i_pair x = Ok l /\ q = PairQ l) /\
  ((2 * i_pm x < i_am x)%R -> st' = 1 /\ exists l, i_abs x = Ok l /\ q = RateQ l) /\
  ((i_am x <= 2 * i_pm x)%R -> (i_pm x <= 2 * i_am x)%R -> st' = 0).
Proof. exact decision_evaluation. Qed.
Print Assumptions C65_evaluation.
(** between the evaluations a rating is asked iff the draw is at most the chance of the mode *)
Theorem C65_draw : forall v2 p n st x, ~ evaluation n -> st <= 2 ->
  fst (decision_select v2 p (n, st) x) =
  (if Rle_dec (i_u x) (rating_chance v2 p n st) then match i_abs x with Ok a => Ok (RateQ a) | Raise e => Raise e end
   else match i_pair x with Ok a => Ok (PairQ a) | Raise e => Raise e end).
Proof. exact decision_draw. Qed.
Print Assumptions C65_draw.
(** an evaluation without a clear winner draws as if undecided *)
Theorem C65_even : forall v2 p n st x q, evaluation n -> (0 < i_pm x)%R -> (0 < i_am x)%R -> (i_am x <= 2 * i_pm x)%R -> (i_pm x <= 2 * i_am x)%R ->
  fst (decision_select v2 p (n, st) x) = Ok q ->
  (if Rle_dec (i_u x) (rating_chance v2 p n 0) then exists a, i_abs x = Ok a /\ q = RateQ a else exists l, i_pair2 x = Ok l /\ q = PairQ l).
Proof. exact decision_even. Qed.
Print Assumptions C65_even.
Example C65_draw_ex : ~ evaluation 3 /\ 1 <= 2 /\ evaluation 10 /\
  let x := mkIn (3/100) (Ok [0; 1]) (Ok [2; 3]) (Ok [1]) (Ok [1]) (Ok tt) 1 1 in fst (decision_select true (1/3) (10, 0) x) = Ok (RateQ [1]) /\ fst (decision_select false 1 (0, 0) x) = Ok (RateQ [1]).
Proof.
  split; [intros [H|[H|H]]; discriminate|]. split; [auto with arith|]. split; [right; left; reflexivity|]. cbn zeta. split.
  - unfold decision_select. cbn [is_eval Nat.eqb orb i_samples i_pair i_comp i_pm i_am]. unfold ratio_gt_2, eqb. destruct (Req_EM_T 1 0); [lra|]. rewrite (proj2 (gtb_false _ _)) by (rewrite Rmax_left; lra).
    unfold decision_prob, coin_query, leb. cbn. destruct Rle_dec; [reflexivity|lra].
  - rewrite decision_draw; [|intros [H|[H|H]]; discriminate|auto with arith]. cbn. destruct Rle_dec; [reflexivity|lra].
Qed.
Example C65_ex : decision_run true (1/2) (repeat ask65 16) = (16, 2) /\ no_attach [ask65; ask65].
Proof.
  split; [exact (decision_run_ex 16)|]. intros c [<-|[<-|[]]]; discriminate.
Qed.

(** C66: false in three ways.  Every one of the first [d] calls raises although both inner learners answered *)
Theorem C66_first_calls_refuted : forall d n p a o1 o2 o3 ap al m, n < d ->
  alignment_select d n (Ok p) (Ok a) o1 o2 o3 ap al m = (Raise UnboundLocalError, S n, m).
Proof. exact alignment_first. Qed.
Print Assumptions C66_first_calls_refuted.
(** an answered call leaves the model fitted to the ratings only, and the next prediction uses that fit *)
Theorem C66_stale_fit_refuted : forall ap al, exists m' q d,
  alignment_select 0 0 (Ok [0; 1]) (Ok [2]) Fits Fits Fits ap al m66 = (Ok q, 1, m') /\
  data_of (mS m') = data_of (mS m66) /\ sOpt (mS m') = true /\
  predict Fits m66 = (m66, Ok (FromFit (data_of (mS m66)))) /\
  predict Fits m' = (m', Ok (FromFit d)) /\ d <> data_of (mS m').
Proof. exact (alignment_stale [0; 1] [2]). Qed.
Print Assumptions C66_stale_fit_refuted.
(** a failing fit in between loses the ratings *)
Theorem C66_data_lost_refuted : forall ap al, exists m' e,
  alignment_select 0 0 (Ok [0; 1]) (Ok [2]) Fits (FailsInFit None) Fits ap al m66 = (Raise e, 0, m') /\
  sAbs (mS m66) = Some ([1#2]%Q, [2]) /\ sAbs (mS m') = None.
Proof. exact (alignment_lost [0; 1] [2]). Qed.
Print Assumptions C66_data_lost_refuted.
(** what holds: an answer comes from the type with the larger alignment, and the training data are unchanged *)
Theorem C66_alignment_partial : forall d n pr ar o1 o2 o3 ap al m q n' m',
  alignment_select d n pr ar o1 o2 o3 ap al m = (Ok q, n', m') ->
  d <= n /\ n' = S n /\ data_of (mS m') = data_of (mS m) /\
  ((al < ap)%R -> exists p, pr = Ok p /\ q = PairQ p) /\ ((ap <= al)%R -> exists a, ar = Ok a /\ q = RateQ a).
Proof. exact alignment_select_spec. Qed.
Print Assumptions C66_alignment_partial.
(** and once the first [d] calls are over every call whose fits and inner learners succeed is answered *)
Theorem C66_answers_partial : forall d n p a ap al m, d <= n -> sX (mS m) <> None -> (exists b, snd (predict Fits m) = Ok b) ->
  exists q m', alignment_select d n (Ok p) (Ok a) Fits Fits Fits ap al m = (Ok q, S n, m').
Proof. exact alignment_answers. Qed.
Print Assumptions C66_answers_partial.
Example C66_ex : sX (mS m66) <> None /\ (exists b, snd (predict Fits m66) = Ok b) /\ sAbs (mS m66) <> None /\ sRel (mS m66) <> None.
Proof. vm_compute. split; [discriminate|]. split; [eauto|]. split; discriminate. Qed.

(** C75: the learner with the equality check; [x] and [y] are the two points of the selected pair *)
Theorem C75_equal_checking : forall limit eta2 pm am u x y i j a,
  (share_coordinate x y -> (eta2 < limit)%R -> equal_checking limit eta2 pm am u (shares_coordinate x y) [i; j] a = Ok (RateQ a)) /\
  (~ share_coordinate x y \/ (limit <= eta2)%R ->
     equal_checking limit eta2 pm am u (shares_coordinate x y) [i; j] a =
     Ok (if Rlt_dec am pm then PairQ [i; j] else if Rlt_dec pm am then RateQ a else if Rlt_dec (1/2) u then PairQ [i; j] else RateQ a)).
Proof. exact equal_checking_spec. Qed.
Print Assumptions C75_equal_checking.
(** a selection that is not a pair is refused *)
Theorem C75_pairs_only : forall limit eta2 pm am u b p a, length p <> 2 ->
  equal_checking limit eta2 pm am u b p a = Raise NotImplementedError.
Proof. exact equal_checking_pairs_only. Qed.
Print Assumptions C75_pairs_only.
Example C75_ex : share_coordinate [1#1; 2#1]%Q [0#1; 4#2]%Q /\ ~ share_coordinate [1#1; 2#1]%Q [2#1; 1#1]%Q.
Proof.
  split; [exists 1, (2#1)%Q, (4#2)%Q; repeat split; reflexivity|]. intros [i [a [b [H1 [H2 H3]]]]].
  destruct i as [|[|[|i]]]; simpl in *; inversion H1; inversion H2; subst; discriminate.
Qed.
