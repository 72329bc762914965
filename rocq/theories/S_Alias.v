(** Specification vocabulary for training data kept by reference. *)
From Verif Require Import M_Base M_Pairs M_Pareto M_Store M_Alias.

(** arrays after the assignments of a history *)
Fixpoint mem_after (m : mem) (h : list aop) : mem :=
  match h with
  | [] => m
  | WX l rows :: h' => mem_after (mkMem (upd (mX m) l rows) (mO m) (mI m)) h'
  | WO l y :: h' => mem_after (mkMem (mX m) (upd (mO m) l y) (mI m)) h'
  | WI l i :: h' => mem_after (mkMem (mX m) (mO m) (upd (mI m) l i)) h'
  | _ :: h' => mem_after m h'
  end.
(** the calls of a history, each with what its arrays contained when it was made *)
Fixpoint contents (m : mem) (h : list aop) : list op :=
  match h with
  | [] => []
  | AAdd x y :: h' => OAdd (mX m x) (labels_of m y) :: contents m h'
  | APrior x :: h' => OAddPrior (mX m x) :: contents m h'
  | ARemove b :: h' => ORemove b :: contents m h'
  | AReset :: h' => OReset :: contents m h'
  | p :: h' => contents (mem_after m [p]) h'
  end.
(** an array was passed to a call *)
Definition passed_X (l : nat) (p : aop) : Prop := (exists y, p = AAdd l y) \/ p = APrior l.
Definition passed_O (l : nat) (p : aop) : Prop := exists x, p = AAdd x (AOrd2 l).
Definition passed_I (l : nat) (p : aop) : Prop := exists x v, p = AAdd x (AAbsT v l).
(** no array is written to after it was passed *)
Definition arrays_left_alone (h : list aop) : Prop := forall h1 p h2, h = h1 ++ p :: h2 ->
  (forall l rows, p = WX l rows -> Forall (fun q => ~ passed_X l q) h1) /\
  (forall l y, p = WO l y -> Forall (fun q => ~ passed_O l q) h1) /\
  (forall l i, p = WI l i -> Forall (fun q => ~ passed_I l q) h1).
Definition is_write (p : aop) : Prop := match p with WX _ _ | WO _ _ | WI _ _ => True | _ => False end.
