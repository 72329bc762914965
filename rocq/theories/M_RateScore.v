(** Model of /repo/experiments/experiment_helper.py:429-445 [rating_score_from_fake_f].  The utilities [real_y] of line 432 are given;
    arithmetic is exact, so that [np.arange] has five entries (line 430). *)
From Verif Require Import M_Base M_RBase.
Local Open Scope R_scope.

(** lines 430-431; equal bounds give the step 0, which numpy refuses (python floats; numpy floats raise a ValueError) *)
Definition decision_pts (lo hi : R) : result (list R) :=
  if Req_EM_T lo hi then Raise ZeroDivisionError
  else Ok (0 :: map (fun i => lo + INR i * ((hi - lo) / 5)) (seq 1 4)).
(** lines 437-441: the last decision point below [y], or -1 *)
Fixpoint last_below (y : R) (i : Z) (pts : list R) (idx : Z) : Z :=
  match pts with
  | [] => idx
  | pt :: pts' => last_below y (i + 1) pts' (if Rltb pt y then i else idx)
  end.
(** lines 435-445 *)
Definition rating_scores (lo hi : R) (real_y : list R) : result (list R) :=
  do pts <- decision_pts lo hi;
  Ok (map (fun y => IZR (last_below y 0 pts (-1)) / 5 + 1 / 10) real_y).
