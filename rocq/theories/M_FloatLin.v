(** Floating-point model of the fit of the linear model: /repo/src/lop/models/PreferenceLinear.py:55-142 and the Newton step it takes,
    PreferenceModel.py:386-448.  As in M_Float every operation is the exact one followed by the rounding of a format; the order in which a
    matrix product adds is an argument, and so is the inversion of a matrix.  Only comparisons are labelled; the first addition to an array
    of zeros (lines 126-136) is exact and left out. *)
From Verif Require Import M_Base M_RBase M_PrefProbit M_Search M_Float M_FloatProbit M_FloatKern.
Local Open Scope R_scope.

(** a row times a column of a matrix product (PreferenceLinear.py:60, 124, 139, 140) *)
Definition dot_fl (F : fmt) (sm : list fval -> fval) (a b : list fval) : fval := sm (map (fun ab => fmul F (fst ab) (snd ab)) (combine a b)).
(** PreferenceLinear.py:60 and 124: [X @ w] *)
Definition latent_fl (F : fmt) (sm : list fval -> fval) (X : list (list R)) (w : list fval) : list fval := map (fun x => dot_fl F sm (map Fin x) w) X.
(** a column of the training points (lines 139-140) *)
Definition col_fl (X : list (list R)) (j : nat) : list fval := map (fun x => Fin (nth j x 0)) X.
(** PreferenceLinear.py:139: [grad_ll @ x]; [g] is the gradient by the latent values and [d] the number of columns *)
Definition lin_grad_fl (F : fmt) (sm : list fval -> fval) (X : list (list R)) (d : nat) (g : nat -> fval) : list fval :=
  map (fun j => dot_fl F sm (map g (seq 0 (length X))) (col_fl X j)) (seq 0 d).
(** PreferenceLinear.py:140: [x.T @ W @ x] *)
Definition lin_W_fl (F : fmt) (sm : list fval -> fval) (X : list (list R)) (d : nat) (W : nat -> nat -> fval) : list (list fval) :=
  let n := length X in
  map (fun a => let row := map (fun i => dot_fl F sm (col_fl X a) (map (fun k => W k i) (seq 0 n))) (seq 0 n) in
                map (fun b => dot_fl F sm row (col_fl X b)) (seq 0 d)) (seq 0 d).
(** PreferenceModel.py:397-400: [gradient @ inverse(hess)], or the gradient when the inversion raises ([None]) *)
Definition descent_fl (F : fmt) (sm : list fval -> fval) (inv : list (list fval) -> option (list (list fval))) (g : list fval) (hess : list (list fval)) : list fval :=
  match inv hess with
  | Some H => map (fun j => dot_fl F sm g (map (fun r => nth j r NaN) H)) (seq 0 (length g))
  | None => g
  end.
(** PreferenceModel.py:412, 439-440: [F - lamb * descent] *)
Definition step_fl (F : fmt) (w d : list fval) (lam : R) : list fval := map (fun wd => fsub F (fst wd) (fmul F (Fin lam) (snd wd))) (combine w d).
(** PreferenceModel.py:426-448 [binary_line_search]; the steps are multiples of 1.5 by short binary fractions, which are exact *)
Fixpoint binary_search_fl (phi : R -> fval) (min_lambda max_lambda : R) (max_itr : nat) : R :=
  match max_itr with
  | O => 1 / 2 * (min_lambda + max_lambda)
  | S n =>
      let lam_dis := max_lambda - min_lambda in
      let mid_lambda := lam_dis * (1 / 2) + min_lambda in
      if fltb (phi (lam_dis * (3 / 4) + min_lambda)) (phi (lam_dis * (1 / 4) + min_lambda)) then binary_search_fl phi min_lambda mid_lambda n
      else binary_search_fl phi mid_lambda max_lambda n
  end.
(** latent values that are numbers *)
Fixpoint fins (l : list fval) : option (list R) :=
  match l with
  | [] => Some []
  | Fin x :: l' => match fins l' with Some r => Some (x :: r) | None => None end
  | _ => None
  end.
(** PreferenceLinear.py:87-97: one round; [loss] is the objective of lines 147-153.  Latent values that are not numbers are not modelled
    (NotImplementedError stands for them). *)
Definition lin_update_fl (F : fmt) (sm : list fval -> fval) (inv : list (list fval) -> option (list (list fval))) (loss : list fval -> fval)
    (s : R) (y : list pair) (X : list (list R)) (w : list fval) : result (list fval) :=
  match fins (latent_fl F sm X w) with
  | None => Raise NotImplementedError
  | Some f =>
      let d := length w in
      let g := lin_grad_fl F sm X d (derv_fl F s y (fun i => nth i f 0)) in
      let hess := map (map fneg) (lin_W_fl F sm X d (W_fl F s y (fun i => nth i f 0))) in (* line 90 *)
      let desc := descent_fl F sm inv g hess in
      Ok (step_fl F w desc (binary_search_fl (fun lam => loss (step_fl F w desc lam)) 0 (3 / 2) 5))
  end.
(** PreferenceLinear.py:103 [np.linalg.norm(w_new - w, ord=2)] above delta_f = 0.002 (line 41) *)
Definition norm_fl (F : fmt) (sm : list fval -> fval) (v : list fval) : fval := fsqrt F (sm (map (fun x => fmul F x x) v)).
Definition far_fl (F : fmt) (sm : list fval -> fval) (v w : list fval) : bool :=
  fltb (Fin (rd F (2 / 1000))) (norm_fl F sm (map (fun ab => fsub F (fst ab) (snd ab)) (combine v w))).
(** PreferenceLinear.py:82-110 [optimize] from the weights [w0] drawn in lines 71-72: the number of rounds and the weights kept *)
Definition lin_optimize_fl (F : fmt) (sm : list fval -> fval) (inv : list (list fval) -> option (list (list fval))) (loss : list fval -> fval)
    (s : R) (y : list pair) (X : list (list R)) (w0 : list fval) (maxloops : nat) : result (nat * list fval) :=
  linear_optimize (fun _ => lin_update_fl F sm inv loss s y X) (far_fl F sm) w0 maxloops (S maxloops).
