(** Vocabulary for arrays of plain numbers used as points. *)
From Verif Require Import M_Base M_RBase M_Store M_Kernel M_GP M_OneD.

(** a well-formed array whose points have [d] coordinates; plain numbers have one *)
Definition holds {A} (d : nat) (X : arr A) : Prop := width X = d /\ Forall (fun r => length r = d) (arr_rows X).
(** the zero points given by the user have [d] coordinates *)
Fixpoint zeros_fit (d : nat) (k : kern) : Prop :=
  match k with
  | ZRBF _ _ _ (Some z) => length z = d
  | KAdd a b | KMul a b => zeros_fit d a /\ zeros_fit d b
  | _ => True
  end.

(** the same numbers as an array of rows with one coordinate *)
Definition column {A} (l : list A) : list (list A) := map (fun x => [x]) l.

(** a store of plain numbers and a store of rows hold the same points and labels *)
Definition same_store (a : astore) (s : store) : Prop :=
  match aX a with
  | None => sX s = None
  | Some (Arr1 l) => sX s = Some (column l)
  | Some (Arr2 _ _) => False
  end /\
  sRel (aL a) = sRel s /\ sOrd (aL a) = sOrd s /\ sAbs (aL a) = sAbs s /\ sPrior (aL a) = sPrior s /\
  sOpt (aL a) = sOpt s /\ sPareto (aL a) = sPareto s.

(** a call with plain numbers and the same call with rows *)
Inductive same_call : aop -> op -> Prop :=
| SAdd l y : same_call (AAdd (Arr1 l) y) (OAdd (column l) y)
| SRemove b : same_call (ARemove b) (ORemove b)
| SReset : same_call AReset OReset.

(** a history with the way every call ended *)
Fixpoint run_st (s : store) (ops : list op) : store * list status :=
  match ops with
  | [] => (s, [])
  | o :: ops' => let '(s', st) := step s o in let '(s2, sts) := run_st s' ops' in (s2, st :: sts)
  end.

(** calls of [add] and [reset] of a Gaussian process with plain numbers, and with rows *)
Inductive same_gp_call : option (arr R * list R * sigma_arg) -> gp_op -> Prop :=
| SGAdd l y s : same_gp_call (Some (Arr1 l, y, s)) (GAdd (column l) y s)
| SGReset : same_gp_call None GReset.
(** the labels are accepted by [add] *)
Definition accepted (s : store) (n : nat) (y : labels) : Prop := snd (add_labels s n y) = Done.
(** the part of a sum or product that is evaluated first *)
Fixpoint leading (k : kern) : kern := match k with KAdd a _ | KMul a _ => leading a | _ => k end.
