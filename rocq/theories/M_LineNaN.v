(** Model of the line searches and of the Newton update of /repo/src/lop/models/PreferenceModel.py for objectives that may be missing (NaN)
    or infinite.  Steps are real numbers; M_Search has the same functions for objectives that are numbers or minus infinity. *)
From Verif Require Import M_Base M_RBase M_Float M_Search.
Local Open Scope R_scope.

(** PreferenceModel.py:426-448 [binary_line_search]; [phi lam] is loss_func(F - lam*descent); a comparison with NaN is False (line 442) *)
Fixpoint binary_search_x (phi : R -> fval) (min_lambda max_lambda : R) (max_itr : nat) : R :=
  match max_itr with
  | O => 5 / 10 * (min_lambda + max_lambda)                                   (* line 448 *)
  | S n =>
      let lam_dis := max_lambda - min_lambda in
      let mid_lambda := lam_dis * (5 / 10) + min_lambda in
      let lam_1 := lam_dis * (25 / 100) + min_lambda in
      let lam_2 := lam_dis * (75 / 100) + min_lambda in
      if fltb (phi lam_2) (phi lam_1) then binary_search_x phi min_lambda mid_lambda n
      else binary_search_x phi mid_lambda max_lambda n
  end.
(** PreferenceModel.py:462-466, the loop *)
Fixpoint iter_loop_x (phi : R -> fval) (pts : list R) (best_lamb : R) (best_loss : fval) : R :=
  match pts with
  | [] => best_lamb
  | lamb :: pts' => if fltb best_loss (phi lamb) then iter_loop_x phi pts' lamb (phi lamb) else iter_loop_x phi pts' best_lamb best_loss
  end.
(** PreferenceModel.py:457-471 [iterative_line_search] *)
Definition iterative_search_x (phi : R -> fval) (min_lambda max_lambda : R) (max_itr : nat) : result R :=
  match max_itr with
  | O => Raise ZeroDivisionError
  | _ => let best_lamb := iter_loop_x phi (arange min_lambda max_lambda max_itr) (-1) NInf in
         if Req_EM_T best_lamb (-1) then Raise GenericException else Ok best_lamb
  end.
(** PreferenceModel.py:386-413 [newton_update] *)
Definition newton_update_x (F descent : list R) (loss : list R -> fval) (t : lambda_type) (max_itr : nat) : result (list R) :=
  do lamb <- match t with
             | Binary => Ok (binary_search_x (fun lam => loss (step_from F descent lam)) 0 (15 / 10) max_itr)
             | Iter => iterative_search_x (fun lam => loss (step_from F descent lam)) (1 / 100) (15 / 10) max_itr
             | Static => Raise AttributeError
             | Other => Raise ValueError
             end;
  Ok (step_from F descent lamb).
