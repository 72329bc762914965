(** Model of the learners that choose between rating and pair queries:
    /repo/src/lop/active_learning/RateChooseLearner.py, MixedStrategy.py and MixedTypeDecision.py.

    What the two inner learners answer in a call ([pairwise_l.select], [abs_l.select], ...), their scores and the random
    draws are inputs of the step functions.  Scores and probabilities are exact reals. *)
From Verif Require Import M_Base M_Store.
From Coq Require Import Reals.

(** a selection, tagged with the query type it belongs to: a list from [abs_l] is a rating query *)
Definition sel : Type := list nat.
Inductive query : Type := PairQ (l : sel) | RateQ (l : sel).
Definition is_pair (q : query) : bool := match q with PairQ _ => true | RateQ _ => false end.

(** float comparisons *)
Definition gtb (x y : R) : bool := if Rlt_dec y x then true else false.
Definition leb (x y : R) : bool := if Rle_dec x y then true else false.
Definition eqb (x y : R) : bool := if Req_EM_T x y then true else false.

(** ---- RateChooseLearner.py ---- *)
(** RateChooseLearner.py:86-95: choice by score; [u] is np.random.random() *)
Definition rate_choose (pair_m abs_m u : R) (p a : sel) : query :=
  if gtb pair_m abs_m then PairQ p
  else if eqb pair_m abs_m then (if gtb u (1/2) then PairQ p else RateQ a)
  else RateQ a.
(** RateChooseLearner.py:68-98 [RateChooseLearner.select]: both inner learners are asked, pairs first *)
Definition rate_choose_select (pr ar : result sel) (pair_m abs_m u : R) : result query :=
  do p <- pr; do a <- ar; Ok (rate_choose pair_m abs_m u p a).

(** RateChooseLearner.py:168-186, MixedComparision: the tie test of line 176 compares the unscaled pair score *)
Definition mixed_comparison (alpha pair_sel_metric abs_sel_metric u : R) (p a : sel) : query :=
  let abs_metric := (alpha * abs_sel_metric)%R in                       (* line 169 *)
  let pair_metric := ((1 - alpha) * pair_sel_metric)%R in               (* line 170 *)
  if gtb pair_metric abs_metric then PairQ p                            (* line 174 *)
  else if eqb pair_sel_metric abs_metric then (if gtb u (1/2) then PairQ p else RateQ a)   (* lines 176-183 *)
  else RateQ a.

(** RateChooseLearner.py:362-397, MixedComparisionEqualChecking; [same_coord] is the test of line 377,
    [eta2] the effect size of line 371 *)
Definition equal_checking (limit eta2 pair_m abs_m u : R) (same_coord : bool) (p a : sel) : result query :=
  if negb (length p =? 2) then Raise NotImplementedError                (* lines 370-373 *)
  else if same_coord && gtb limit eta2 then Ok (RateQ a)                (* lines 377-383 *)
  else Ok (rate_choose pair_m abs_m u p a).                             (* lines 387-397 *)
(** line 377: [(candidate_pts[pair_idxs] == candidate_pts[pair_idxs[::-1]]).all(axis=0).any()] for two points *)
Definition shares_coordinate (x y : list Q) : bool := existsb (fun ab : Q * Q => Qeq_bool (fst ab) (snd ab)) (combine x y).

(** counters: [None] is a missing attribute num_calls *)
Inductive schedule : Type := SetFixed | Alternating.
(** RateChooseLearner.py:241-254 and 288-300: the decision after [n] counted calls *)
Definition schedule_pair (k : schedule) (n : nat) : bool :=
  match k with
  | SetFixed => 7 <? n                  (* line 246: num_calls > 7 *)
  | Alternating => n mod 2 =? 0         (* line 293 *)
  end.
(** RateChooseLearner.py:241-254 / 288-300 [select]: result and new num_calls *)
Definition schedule_select (k : schedule) (n : nat) (pr ar : result sel) : result query * nat :=
  match pr with
  | Raise e => (Raise e, n)
  | Ok p => match ar with
            | Raise e => (Raise e, n)
            | Ok a => (Ok (if schedule_pair k n then PairQ p else RateQ a), S n)
            end
  end.
(** calls on such a learner; [Attach] is set_model (lines 260-264), which resets num_calls *)
Inductive scall : Type := Attach | Ask (pr ar : result sel).
Definition schedule_step (k : schedule) (n : nat) (c : scall) : nat :=
  match c with Attach => 0 | Ask pr ar => snd (schedule_select k n pr ar) end.
(** RateChooseLearner.py:216 [__init__] sets num_calls = 0 *)
Definition schedule_run (k : schedule) (h : list scall) : nat := fold_left (schedule_step k) h 0.

(** ---- MixedStrategy.py ---- *)
Inductive strategy : Type := SBase (p : R) | SPeak | SPeak2 | SPeak3 (p : R) | SRevPeak (p : R).
(** MixedStrategy.py:50-51, 107-115, 125-133, 144-152, 164-170 [mixed_probability] after [n] counted calls *)
Definition mixed_probability (s : strategy) (n : nat) : R :=
  match s with
  | SBase p => p
  | SPeak => match n with 0 => (1/10) | 1 => (5/10) | 2 => (9/10) | _ => ((8/10) * exp ((2 - INR n) * (2/10)) + 1/10) end
  | SPeak2 => match n with 0 => (1/10) | 1 => (5/10) | 2 => (9/10) | _ => ((9/10) * exp ((2 - INR n) * (2/10))) end
  | SPeak3 p => match n with 0 => (1/10) | 1 => (5/10) | 2 => (9/10) | _ => ((9/10) * exp ((2 - INR n) * p)) end
  | SRevPeak p => match n with 0 => (9/10) | 1 => (1/10) | _ => p end
  end%R.
(** lines 76-81: ask for a rating iff the draw is at most the probability; only the chosen inner learner is asked *)
Definition coin_query (prob u : R) (pr ar : result sel) : result query :=
  if leb u prob then (do a <- ar; Ok (RateQ a)) else (do p <- pr; Ok (PairQ p)).
(** MixedStrategy.py:73-86 [select]; num_calls exists only after set_model (line 96) *)
Definition strategy_select (s : strategy) (n : option nat) (u : R) (pr ar : result sel) : result query * option nat :=
  match n with
  | None => (match s with
             | SBase p => do _ <- coin_query p u pr ar; Raise AttributeError     (* line 84 *)
             | _ => Raise AttributeError                                         (* mixed_probability *)
             end, None)
  | Some n => match coin_query (mixed_probability s n) u pr ar with
              | Ok q => (Ok q, Some (S n))
              | Raise e => (Raise e, Some n)
              end
  end.

(** ---- MixedDecision, MixedStrategy.py:176-309 and MixedDecision2, 313-459 ---- *)
(** [v2 = false] is MixedDecision (probability of MixedStrategyPeak3), [v2 = true] MixedDecision2 (lines 336-342) *)
Definition decision_prob (v2 : bool) (p : R) (n : nat) : R := mixed_probability (if v2 then SRevPeak p else SPeak3 p) n.
(** what happens inside one call: the draw, the answers of pairwise_l (first and possible second call), abs_l and
    abs_comp, failure of the sampling of lines 256-263, and the two scores *)
Record dinput := mkIn {
  i_u : R; i_pair : result sel; i_pair2 : result sel; i_abs : result sel; i_comp : result sel; i_samples : result unit;
  i_pm : R; i_am : R }.
(** lines 269-272: [max(pm/am, am/pm) > 2.0] with the float results for a zero divisor (inf, nan) *)
Definition ratio_gt_2 (pm am : R) : bool :=
  if eqb am 0 then (if eqb pm 0 then false else gtb pm 0)
  else if eqb pm 0 then gtb am 0
  else gtb (Rmax (pm / am) (am / pm)) 2.
Definition is_eval (n : nat) : bool := (n =? 5) || (n =? 10) || (n =? 15).       (* line 218 *)
(** MixedStrategy.py:214-297 [select]; the object state is (num_calls, state); an exception leaves num_calls unchanged *)
Definition decision_select (v2 : bool) (p : R) (nst : nat * nat) (x : dinput) : result query * (nat * nat) :=
  let '(n, st) := nst in
  let st := if is_eval n then 3 else st in
  let finish (r : result query) (st' : nat) :=
    match r with Ok q => (Ok q, (S n, st')) | Raise e => (Raise e, (n, st)) end in
  match st with
  | 0 => finish (coin_query (decision_prob v2 p n) (i_u x) (i_pair x) (i_abs x)) 0
  | 1 => finish (coin_query (95/100)%R (i_u x) (i_pair x) (i_abs x)) 1
  | 2 => finish (coin_query (5/100)%R (i_u x) (i_pair x) (i_abs x)) 2
  | 3 =>
      match i_samples x, i_pair x, i_comp x with
      | Raise e, _, _ => (Raise e, (n, 3))
      | _, Raise e, _ => (Raise e, (n, 3))
      | _, _, Raise e => (Raise e, (n, 3))
      | Ok _, Ok pair_idxs, Ok _ =>
          if ratio_gt_2 (i_pm x) (i_am x) then
            if gtb (i_pm x) (i_am x) then finish (Ok (PairQ pair_idxs)) 2
            else match i_abs x with                       (* state is assigned before the inner call, line 277 *)
                 | Ok a => finish (Ok (RateQ a)) 1
                 | Raise e => (Raise e, (n, 1))
                 end
          else finish (coin_query (decision_prob v2 p n) (i_u x) (i_pair2 x) (i_abs x)) 0
      end
  | _ => (Raise UnboundLocalError, (S n, st))             (* sel_idxs never assigned *)
  end.
Inductive dcall : Type := DAttach | DAsk (x : dinput).
(** set_model (lines 304-309) resets both *)
Definition decision_step (v2 : bool) (p : R) (s : nat * nat) (c : dcall) : nat * nat :=
  match c with DAttach => (0, 0) | DAsk x => snd (decision_select v2 p s x) end.
Definition decision_run (v2 : bool) (p : R) (h : list dcall) : nat * nat := fold_left (decision_step v2 p) h (0, 0).

(** ---- AlignmentDecision, MixedTypeDecision.py ---- *)
Definition with_labels (m : model) (r : option (list M_Pairs.pair)) (a : option (list Q * list nat)) : model :=
  mkModel (mGP m) (set_abs (set_rel (mS m) r) a) (mFit m).
(** MixedTypeDecision.py:98-173 [determine_query_type]: [o1], [o2], [o3] say how the fits of lines 106, 122 and 134 end,
    [ap], [ar] are the two mean alignments.  The sample size M of the inner learner, which is changed and restored, is
    left out, as are predict calls on the already optimised model. *)
Definition determine_query_type (o1 o2 o3 : outcome) (ap ar : R) (m : model) : model * result bool :=
  match predict o1 m with                                         (* line 106 *)
  | (m0, Raise e) => (m0, Raise e)
  | (m0, Ok _) =>
      let pref_data := sRel (mS m0) in
      let rating_data := sAbs (mS m0) in                          (* lines 112-113 *)
      match optimize o2 (with_labels m0 pref_data None) with      (* lines 121-122 *)
      | (m1, Done) =>
          match optimize o3 (with_labels m1 None rating_data) with  (* lines 130-134 *)
          | (m2, Done) => (with_labels m2 pref_data rating_data, Ok (gtb ap ar))   (* lines 143-144, 173 *)
          | (m2, Raised e) => (m2, Raise e)
          | (m2, Refused) => (m2, Raise GenericException)
          end
      | (m1, Raised e) => (m1, Raise e)
      | (m1, Refused) => (m1, Raise GenericException)
      end
  end.
(** MixedTypeDecision.py:68-95 [select] with counter [n] and threshold [d]: before the decision calls rating_score and
    pref_score are never assigned, so line 95 raises after the counter was incremented *)
Definition alignment_select (d n : nat) (pr ar : result sel) (o1 o2 o3 : outcome) (ap al : R) (m : model)
  : result query * nat * model :=
  if n <? d then
    match (if n mod 2 =? 0 then (do p <- pr; Ok (PairQ p)) else (do a <- ar; Ok (RateQ a))) with
    | Ok _ => (Raise UnboundLocalError, S n, m)
    | Raise e => (Raise e, n, m)
    end
  else
    match determine_query_type o1 o2 o3 ap al m with
    | (m', Raise e) => (Raise e, n, m')
    | (m', Ok b) =>
        match (if b then (do p <- pr; Ok (PairQ p)) else (do a <- ar; Ok (RateQ a))) with
        | Ok q => (Ok q, S n, m')
        | Raise e => (Raise e, n, m')
        end
    end.
