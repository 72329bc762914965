(** Specification vocabulary for the training data of a Gaussian process kept by reference. *)
From Verif Require Import M_Base M_RBase M_Kernel M_GP M_GPAlias.

(** a history of calls by value; a call that raises changes nothing *)
Definition by_value (mean : option (point -> R)) (st : option gp_data) (p : gp_op) : option gp_data :=
  match p with
  | GAdd X y s => match gp_add mean X y s st with Ok st' => st' | Raise _ => st end
  | GReset => None
  end.
(** the calls of a history, each with what its arrays contained when it was made *)
Fixpoint gcontents (m : gmem) (h : list gop) : list gp_op :=
  match h with
  | [] => []
  | GAAdd x y s :: h' => GAdd (gm_X m x) y (sigma_of m s) :: gcontents m h'
  | GAReset :: h' => GReset :: gcontents m h'
  | GWriteX l rows :: h' => gcontents (mkGMem (gupd (gm_X m) l rows) (gm_S m)) h'
  | GWriteS l s :: h' => gcontents (mkGMem (gm_X m) (gupd (gm_S m) l s)) h'
  end.
(** no array and no list is written to after it was passed *)
Definition left_alone (h : list gop) : Prop := forall h1 p h2, h = h1 ++ p :: h2 ->
  (forall l rows y s, p = GWriteX l rows -> ~ In (GAAdd l y s) h1) /\
  (forall l v x y, p = GWriteS l v -> ~ In (GAAdd x y (GList l)) h1).
Definition is_gwrite (p : gop) : Prop := match p with GWriteX _ _ | GWriteS _ _ => True | _ => False end.
