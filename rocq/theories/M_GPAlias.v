(** Model of what /repo/src/lop/models/GP.py keeps by reference: the array of points and the python list of uncertainties of the first call
    of [add], which the caller can still write to.  Line 69 makes a new array of outputs, [np.append] new arrays of everything.  Arrays and
    lists of the caller are numbered; writes keep no shape, which allows more than numpy does. *)
From Verif Require Import M_Base M_RBase M_Kernel M_GP.
Local Open Scope R_scope.

(** the arrays of the caller that are passed as X, and the lists passed as training_sigma (GP.py:65) *)
Record gmem := mkGMem { gm_X : nat -> list point; gm_S : nat -> list R }.
(** GP.py:48-49: what the object owns; a number says that the attribute is the caller's array or list instead *)
Record gobj := mkGObj { go_own : option gp_data; go_X : option nat; go_S : option nat }.
(** the attributes as the code reads them (GP.py:101-115) *)
Definition gview (m : gmem) (o : gobj) : option gp_data :=
  match go_own o with
  | None => None
  | Some d => Some {| gX := match go_X o with Some l => gm_X m l | None => gX d end; gy := gy d;
                      gsig := match go_S o with Some l => gm_S m l | None => gsig d end |}
  end.
(** training_sigma: a number or array, of which line 67 makes a new array, or a list of the caller (GP.py:66-67) *)
Inductive gsigma := GNumber (s : R) | GList (l : nat).
(** its value during the call (GP.py:65) *)
Definition sigma_of (m : gmem) (s : gsigma) : sigma_arg := match s with GNumber s => SScalar s | GList l => SSeq (gm_S m l) end.
(** GP.py:65-78 [add]; line 69 is the only one that raises, before anything is assigned *)
Definition galias_add (mean : option (point -> R)) (m : gmem) (o : gobj) (x : nat) (y : list R) (s : gsigma) : gobj :=
  match gp_add mean (gm_X m x) y (sigma_of m s) (gview m o) with
  | Raise _ => o
  | Ok st => match go_own o with
             | None => mkGObj st (Some x) (match s with GList l => Some l | GNumber _ => None end)   (* lines 71-74 *)
             | Some _ => mkGObj st None None                                                       (* lines 76-78 *)
             end
  end.
(** calls on the object and assignments of the caller (GP.py:65, 83) *)
Inductive gop := GAAdd (x : nat) (y : list R) (s : gsigma) | GAReset | GWriteX (l : nat) (rows : list point) | GWriteS (l : nat) (s : list R).
(** assignment to one array or list *)
Definition gupd {A} (f : nat -> A) (l : nat) (a : A) : nat -> A := fun k => if Nat.eqb k l then a else f k.
(** one call or assignment (GP.py:65-85) *)
Definition gstep (mean : option (point -> R)) (w : gmem * gobj) (p : gop) : gmem * gobj :=
  let '(m, o) := w in
  match p with
  | GAAdd x y s => (m, galias_add mean m o x y s)
  | GAReset => (m, mkGObj (gp_reset (go_own o)) None None)
  | GWriteX l rows => (mkGMem (gupd (gm_X m) l rows) (gm_S m), o)
  | GWriteS l s => (mkGMem (gm_X m) (gupd (gm_S m) l s), o)
  end.
(** a history; exceptions are caught by the caller *)
Definition grun (mean : option (point -> R)) (w : gmem * gobj) (h : list gop) : gmem * gobj := fold_left (gstep mean) h w.
(** the training data after a history *)
Definition gseen (w : gmem * gobj) : option gp_data := gview (fst w) (snd w).
(** GP.py:44-56 [__init__] *)
Definition gnew : gobj := mkGObj None None None.
