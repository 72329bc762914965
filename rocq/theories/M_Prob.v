(** Model of /repo/src/lop/active_learning/ProbabilityLearner.py (lines 38-92) and of ActiveLearner.select (ActiveLearner.py:74-172) for
    a learner without select_pair whose select_greedy may return None ([None] here).  The prints and the plot are left out. *)
From Verif Require Import M_Base M_RBase M_Pareto M_Select M_GP M_PBest.
Local Open Scope R_scope.

(** ProbabilityLearner.py:51-82: the array [p]; [ext_full] is multivariate_normal(mean, cov).cdf(0).  The loops of lines 54-64 are those of
    ActiveLearner.py:316-326, line 71 is line 333 there *)
Definition prob_values (ext : cdf_ext) (n : nat) (mu : list R) (K : matrix) : result (list R) :=
  mapM (fun i => ext_full ext (mu_star mu n i) (K_star K n i)) (seq 0 n).
(** ProbabilityLearner.py:47-92 [select_greedy].  For a model that is no PreferenceGP, [p] is unbound in line 88.  [continues] tells
    whether the user goes on from the debugger of line 92 or quits, which raises; after it the function ends without a return *)
Definition prob_greedy (ext : cdf_ext) (continues : bool) (kind : model_kind) (n : nat) (mu : list R) (K : matrix) : result (option nat) :=
  match kind with
  | KindPrefGP => do p <- prob_values ext n mu K; if continues then Ok None else Raise GenericException
  | KindPrefLinear | KindGP => Raise UnboundLocalError
  end.

(** [A.remove(x)]: None is in no set of indices *)
Definition set_remove_o (x : option nat) (A : list nat) : result (list nat) :=
  match x with Some i => set_remove i A | None => Raise KeyError end.
(** the indices among the selected values ([set(sel_pts)] of ActiveLearner.py:149; None is no index) *)
Definition indices (sel : list (option nat)) : list nat := flat_map (fun x => match x with Some i => [i] | None => [] end) sel.
(** ActiveLearner.py:138-172: the loop of M_Select.sel_loop *)
Fixpoint sel_loop_o (greedy : nat -> list nat -> list nat -> result (option nat)) (n N : nat) (prev : list nat)
    (fuel k : nat) (pref : list nat) (allo : option (list nat)) (sel : list (option nat)) : result (list (option nat)) :=
  if (n <=? length sel)%nat then Ok sel else
  match fuel with
  | O => Raise OutOfFuel
  | S fuel' =>
      let P := union prev (indices sel) in
      match pref with
      | _ :: _ =>
          do i <- greedy k pref P;
          do pref' <- set_remove_o i pref;
          sel_loop_o greedy n N prev fuel' (S k) pref' allo (sel ++ [i])
      | [] =>
          let al := match allo with None => diff (diff (seq 0 N) prev) (indices sel) | Some a => a end in
          match al with
          | [] => Raise GenericException
          | _ :: _ =>
              do i <- greedy k al P;
              do al' <- set_remove_o i al;
              sel_loop_o greedy n N prev fuel' (S k) pref (Some al') (sel ++ [i])
          end
      end
  end.
(** ActiveLearner.py:74-172 [select] with return_not_selected=False; [L] supplies the options of the learner *)
Definition select_o (L : learner) (greedy : nat -> list nat -> list nat -> result (option nat)) (cand : list row) (mu : list Q) (num_alts : nat)
    (prev0 : list nat) (p : prefer) : result (list (option nat)) :=
  let n := num_alts_of L num_alts in
  do st <- sel_start L cand mu prev0 p;
  let '(pref, prev, sel) := st in
  sel_loop_o greedy n (length cand) prev n 0 pref None (map Some sel).

(** ActiveLearner.py:124-128 *)
Definition place_o (pref : list nat) (notsel sel : list (option nat)) (x : option nat) : list nat * list (option nat) * list (option nat) :=
  match x with
  | Some i => if (mem i pref || (length pref =? 0)%nat)%bool then (remove_first i pref, notsel, sel ++ [x]) else (pref, notsel ++ [x], sel)
  | None => if (length pref =? 0)%nat then (pref, notsel, sel ++ [x]) else (pref, notsel ++ [x], sel)
  end.
(** [A.discard(x)] *)
Definition discard_o (x : option nat) (A : list nat) : list nat := match x with Some i => remove_first i A | None => A end.
(** ActiveLearner.py:102-129: the loop of M_Select.ns_loop *)
Fixpoint ns_loop_o (greedy : nat -> list nat -> list nat -> result (option nat)) (n : nat) (prev : list nat)
    (fuel k : nat) (pref al : list nat) (notsel sel : list (option nat)) : result (list (option nat) * list (option nat)) :=
  if ((n <=? length sel)%nat || (length al =? 0)%nat)%bool then Ok (sel, notsel) else
  match fuel with
  | O => Raise OutOfFuel
  | S fuel' =>
      let P := union prev (indices sel) in
      match pref, notsel with
      | [], x :: notsel' =>
          let '(pref', notsel'', sel') := place_o pref notsel' sel x in
          ns_loop_o greedy n prev fuel' (S k) pref' (discard_o x al) notsel'' sel'
      | _, _ =>
          do x <- greedy k al P;
          let '(pref', notsel', sel') := place_o pref notsel sel x in
          ns_loop_o greedy n prev fuel' (S k) pref' (discard_o x al) notsel' sel'
      end
  end.
(** ActiveLearner.py:74-137 [select] with return_not_selected=True; [fuel] bounds the loop *)
Definition select_ns_o (L : learner) (greedy : nat -> list nat -> list nat -> result (option nat)) (cand : list row) (mu : list Q) (num_alts : nat)
    (prev0 : list nat) (p : prefer) (fuel : nat) : result (list (option nat) * list (option nat)) :=
  let n := num_alts_of L num_alts in
  do st <- sel_start L cand mu prev0 p;
  let '(pref, prev, sel) := st in
  do r <- ns_loop_o greedy n prev fuel 0 pref (diff (diff (seq 0 (length cand)) prev) sel) [] (map Some sel);
  if (length (fst r) =? n)%nat then Ok r else Raise GenericException.
