(** Model of the updates of the hyper-parameters: /repo/src/lop/models/PreferenceGP.py, [hyperparameter_search] (lines 370-429) and the
    sequence of its calls in [optimize] (lines 290-332).  The gradients are arguments, as are the random draws. *)
From Verif Require Import M_RBase M_Fake M_Util M_Kernel M_Hyper.
Local Open Scope R_scope.

(** [x0 - grad_hyper * 0.01] (line 397): vectors of different lengths do not broadcast, unless one of them has length one *)
Definition gradient_step (x0 grad : list R) : result (list R) :=
  if Nat.eqb (length x0) (length grad) then Ok (zipw (fun x g => x - g * (1 / 100)) x0 grad)
  else match x0, grad with
       | [x], _ => Ok (map (fun g => x - g * (1 / 100)) grad)
       | _, [g] => Ok (map (fun x => x - g * (1 / 100)) x0)
       | _, _ => Raise ValueError
       end.
(** line 426: [hyper_likli < -130], true for minus infinity *)
Definition terrible (l : option R) : bool := match l with None => true | Some x => Rltb x (-130) end.
(** PreferenceGP.py:370-429, one update: the parameters are read (line 374) and written back by the gradient (line 359), the step is
    taken and written (lines 397-422), and parameters of a very low prior are drawn again (lines 425-430).  [grad] is the gradient
    of line 392, [d] are the draws of line 429, [g] is the gamma function *)
Definition update_hyper (g : R -> R) (m : hmodel) (grad : list R) (d : draws) : result hmodel :=
  let x0 := get_hyper m in
  do m0 <- set_hyper m x0;
  do x <- gradient_step x0 grad;
  do m1 <- set_hyper m0 x;
  if terrible (hyper_likelihood g m1) then randomize_hyper m1 d else Ok m1.
(** PreferenceGP.py:298-330: the parameters are drawn (line 298) and then updated once per call of [hyperparameter_search] *)
Fixpoint hyper_updates (g : R -> R) (m : hmodel) (l : list (list R * draws)) : result hmodel :=
  match l with
  | [] => Ok m
  | (grad, d) :: l' => do m' <- update_hyper g m grad d; hyper_updates g m' l'
  end.
Definition hyper_run (g : R -> R) (m : hmodel) (d : draws) (l : list (list R * draws)) : result hmodel :=
  do m' <- randomize_hyper m d; hyper_updates g m' l.
