(** The finished runs of an experiment, and what it means that a file lies in a folder. *)
From Coq Require Import String List.
From Verif Require Import M_Results.
From Coq Require Import List.
Import ListNotations.

(** the results of the runs that ended before anything went wrong *)
Fixpoint finished {V} (evs : list (event V)) : list (nat -> V) :=
  match evs with Finished r :: rest => r :: finished rest | _ => [] end.
(** the file has one row for each of these runs, in order, in every array *)
Definition holds {V} (file : list (list (option V))) (rs : list (nat -> V)) : Prop :=
  forall a, a < 11 -> nth_error file a = Some (map (fun r => Some (r a)) rs).
(** ... and perhaps further rows *)
Definition holds_first {V} (file : list (list (option V))) (rs : list (nat -> V)) : Prop :=
  forall a, a < 11 -> exists rest, nth_error file a = Some (map (fun r => Some (r a)) rs ++ rest)%list.
(** a path inside a directory; the directory is written without a slash at the end *)
Definition inside (path dir : string) : Prop := exists rest, path = (dir ++ "/" ++ rest)%string.
