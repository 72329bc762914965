(** Model of [add] in /repo/src/lop/models/GP.py with the arrays numpy stretches: uncertainties given as a number, a numpy array or a python
    sequence, outputs given as a numpy array or a python list, and arrays of length one. *)
From Verif Require Import M_Base M_RBase M_Kernel M_Fake M_GP.
Local Open Scope R_scope.

(** the argument [training_sigma] (GP.py:65-66): a number, a numpy array, which is no [Sequence], or a python list or tuple *)
Inductive sigma_in := InNum (s : R) | InArr (l : list R) | InSeq (l : list R).
(** GP.py:66-67: [np.ones(len(y)) * training_sigma] *)
Definition noise_in (n : nat) (s : sigma_in) : result (list R) :=
  match s with
  | InNum s => Ok (map (fun one => one * s) (repeat 1 n))
  | InArr l => bzip Rmult (repeat 1 n) l
  | InSeq l => Ok l
  end.
(** GP.py:69: [y - self.mean_func(X)]; without a mean function the number 0 is taken off (line 53), which python lists do not support *)
Definition centre (mean : option (point -> R)) (is_array : bool) (X : list point) (y : list R) : result (list R) :=
  match mean with
  | None => if is_array then Ok (map (fun v => v - 0) y) else Raise TypeError
  | Some m => bzip Rminus y (map m X)
  end.
(** GP.py:65-78 [add] *)
Definition gp_add_in (mean : option (point -> R)) (is_array : bool) (X : list point) (y : list R) (sigma : sigma_in) (st : option gp_data)
  : result (option gp_data) :=
  do sig <- noise_in (length y) sigma;
  do y <- centre mean is_array X y;
  match st with
  | None => Ok (Some {| gX := X; gy := y; gsig := sig |})
  | Some d => Ok (Some {| gX := gX d ++ X; gy := gy d ++ y; gsig := gsig d ++ sig |})
  end.
(** a call history (GP.py:65, 83); exceptions are raised before anything is assigned and caught by the caller *)
Inductive gin_op := InAdd (is_array : bool) (X : list point) (y : list R) (sigma : sigma_in) | InReset.
(** GP.py:65-85 *)
Definition gin_step (mean : option (point -> R)) (st : option gp_data) (p : gin_op) : option gp_data :=
  match p with
  | InAdd a X y s => match gp_add_in mean a X y s st with Ok st' => st' | Raise _ => st end
  | InReset => gp_reset st
  end.
(** GP.py:47-50: a new object and a history of calls *)
Definition gin_run (mean : option (point -> R)) (h : list gin_op) : option gp_data := fold_left (gin_step mean) h None.
