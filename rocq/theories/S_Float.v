(** Specification vocabulary for floating-point numbers. *)
From Coq Require Import Reals ZArith List Permutation.
From Flocq Require Import Core.
From Verif Require Import M_Base M_RBase M_Float.
Import ListNotations.
Local Open Scope R_scope.

(** [a] comes out of adding up [l], in any order and with any brackets *)
Inductive adds (F : fmt) : list fval -> fval -> Prop :=
  | adds_one x : adds F [x] x
  | adds_two l1 l2 l a b : adds F l1 a -> adds F l2 b -> Permutation l (l1 ++ l2) -> adds F l (fadd F a b).
Definition sums (F : fmt) (sm : list fval -> fval) : Prop := forall l, l <> [] -> adds F l (sm l).
(** a rounding: keeps the order and the numbers of the format, among them the integers up to 2^53 *)
Definition rounding (F : fmt) : Prop :=
  (forall x y, x <= y -> rd F x <= rd F y) /\ (forall x, rd F (rd F x) = rd F x) /\ (forall z, (Z.abs z <= 2 ^ 53)%Z -> rd F (IZR z) = IZR z) /\
  IZR (2 ^ 53) < huge F.
(** numbers between 0 and [t] are rounded to 0 *)
Definition flushes (F : fmt) (t : R) : Prop := forall x, 0 <= x < t -> rd F x = 0.
(** binary64, to nearest, ties to even *)
Definition b64 : fmt := mkfmt (round radix2 (FLT_exp (-1074) 53) ZnearestE) (bpow radix2 1024).
(** finite and between 0 and 1 *)
Definition unit_fin (v : fval) : Prop := exists x, v = Fin x /\ 0 <= x <= 1.
(** a matrix with rows, none of them empty *)
Definition sized (r : list (list R)) : Prop := r <> [] /\ forall row, In row r -> row <> [] /\ (Z.of_nat (length row) <= 2 ^ 53)%Z.
