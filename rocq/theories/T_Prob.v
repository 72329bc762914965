(** Property C146: ProbabilityLearner *)
From Coq Require Import Reals Lra Lia List QArith.
From Verif Require Import M_Base M_RBase M_Normal M_Pareto M_Select M_GP M_PBest M_Prob S_PBest S_Prob P_Base P_Normal P_PBest P_PBest2 P_Prob.
Import ListNotations.
Local Open Scope R_scope.

(** no call returns a candidate *)
Theorem C146_candidate_refuted : forall ext continues kind n mu K i, prob_greedy ext continues kind n mu K <> Ok (Some i).
Proof. exact greedy_none. Qed.
Print Assumptions C146_candidate_refuted.
(** so every selection of at least one more point fails *)
Theorem C146_select_refuted : forall L ext continues kind N m K cand mu num_alts prev0 p,
  (forall pref prev sel, sel_start L cand mu prev0 p = Ok (pref, prev, sel) -> (length sel < num_alts_of L num_alts)%nat) ->
  fails (select_o L (fun _ _ _ => prob_greedy ext continues kind N m K) cand mu num_alts prev0 p).
Proof. exact (fun L ext continues kind N m K cand mu num_alts prev0 p => select_fails L _ cand mu num_alts prev0 p (fun _ _ _ => greedy_none ext continues kind N m K)). Qed.
Print Assumptions C146_select_refuted.
(** with return_not_selected and a preferred point left, it does not end *)
Theorem C146_endless_refuted : forall L ext N m K cand mu num_alts prev0 p pref prev sel, total_cdf (ext_full ext) -> sel_start L cand mu prev0 p = Ok (pref, prev, sel) ->
  (length sel < num_alts_of L num_alts)%nat -> pref <> [] -> diff (diff (seq 0 (length cand)) prev) sel <> [] ->
  forall fuel, select_ns_o L (fun _ _ _ => prob_greedy ext true KindPrefGP N m K) cand mu num_alts prev0 p fuel = Raise OutOfFuel.
Proof. exact (fun L ext N m K cand mu num_alts prev0 p pref prev sel HT => select_ns_endless L _ cand mu num_alts prev0 p pref prev sel (fun _ _ _ => total_greedy ext N m K HT)). Qed.
Print Assumptions C146_endless_refuted.
(** the printed values for two candidates are the chances of being the better one *)
Theorem C146_two_partial : forall ext mu0 mu1 a b c, exact_zero (ext_full ext) -> 0 < a + c - 2 * b ->
  prob_values ext 2 [mu0; mu1] [[a; b]; [b; c]] = Ok [ndtr ((mu0 - mu1) / sqrt (a + c - 2 * b)); ndtr ((mu1 - mu0) / sqrt (a + c - 2 * b))].
Proof. exact values_two. Qed.
Print Assumptions C146_two_partial.
Theorem C146_two_order_partial : forall ext mu0 mu1 a b c p0 p1, exact_zero (ext_full ext) -> 0 < a + c - 2 * b ->
  prob_values ext 2 [mu0; mu1] [[a; b]; [b; c]] = Ok [p0; p1] -> (mu1 < mu0 <-> p1 < p0) /\ p0 + p1 = 1.
Proof. exact values_two_order. Qed.
Print Assumptions C146_two_order_partial.
(** a model which is no PreferenceGP has no chances: both loops raise in their first step *)
Theorem C146_other_models_refuted : forall L ext continues kind N m K cand mu num_alts prev0 p pref prev sel, kind <> KindPrefGP -> sel_start L cand mu prev0 p = Ok (pref, prev, sel) -> (length sel < num_alts_of L num_alts)%nat ->
  (pref <> [] \/ diff (diff (seq 0 (length cand)) prev) sel <> [] -> select_o L (fun _ _ _ => prob_greedy ext continues kind N m K) cand mu num_alts prev0 p = Raise UnboundLocalError) /\
  (diff (diff (seq 0 (length cand)) prev) sel <> [] -> forall fuel, (0 < fuel)%nat -> select_ns_o L (fun _ _ _ => prob_greedy ext continues kind N m K) cand mu num_alts prev0 p fuel = Raise UnboundLocalError).
Proof. exact other_models. Qed.
Print Assumptions C146_other_models_refuted.
(** the selection used here is that of the other learners *)
Theorem C146_same_selection : forall L cand mu num_alts prev0 p, l_pair L = None ->
  select_o L (fun k idx P => do i <- l_greedy L k idx P; Ok (Some i)) cand mu num_alts prev0 p = do r <- select L cand mu num_alts prev0 p true; Ok (map Some r).
Proof. exact select_same. Qed.
Print Assumptions C146_same_selection.
(** three candidates, one to be selected, a routine that is exact for one variable *)
Definition ex_cdf (m : list R) (cov : list (list R)) : result R := match m, cov with [x], [[v]] => Ok (ndtr (- x / sqrt v)) | _, _ => Ok (1 / 2) end.
Definition ex_pl : learner := mkLearner None false false (fun _ idx _ => match idx with i :: _ => Ok i | [] => Raise ValueError end) None (fun l => l).
Definition ex_cand : list row := [[1%Q]; [2%Q]; [3%Q]].
Example C146_ex : exact_zero ex_cdf /\ total_cdf ex_cdf /\ l_pair ex_pl = None /\ 0 < 2 + 3 - 2 * 1 /\
  sel_start ex_pl ex_cand [1%Q; 3%Q; 2%Q] [] PrefNone = Ok ([0; 1; 2]%nat, [], []) /\ (0 < num_alts_of ex_pl 1)%nat /\ diff (diff (seq 0 (length ex_cand)) []) [] <> [] /\
  select ex_pl ex_cand [1%Q; 3%Q; 2%Q] 1 [] PrefNone true = Ok [0%nat].
Proof.
  split; [intros m v _; reflexivity|]. split.
  - intros m cov. assert (H : exists p, Ok (1 / 2) = Ok p /\ 0 <= p <= 1) by (exists (1 / 2); split; [reflexivity|lra]). destruct m as [|x [|]]; try exact H. destruct cov as [|[|v [|]] [|]]; try exact H. exists (ndtr (- x / sqrt v)). split; [reflexivity|]. assert (T := ndtr_range (- x / sqrt v)). lra.
  - split; [reflexivity|]. split; [lra|]. split; [reflexivity|]. split; [cbn; lia|]. split; [discriminate|reflexivity].
Qed.
