(** Specification vocabulary for the synthetic utilities: orders on arrays, single-point semantics, dominance. *)
From Verif Require Import M_Base M_RBase M_Fake.
Local Open Scope R_scope.

(** same shape and no entry smaller *)
Definition arr_le (a b : arr) : Prop :=
  match a, b with
  | Scal x, Scal y => x <= y
  | PList l, PList l' | Vec l, Vec l' => Forall2 Rle l l'
  | Mat m, Mat m' => Forall2 (Forall2 Rle) m m'
  | Tens t, Tens t' => Forall2 (Forall2 (Forall2 Rle)) t t'
  | _, _ => False
  end.

(** every entry satisfies [P] *)
Definition arr_all (P : R -> Prop) (a : arr) : Prop :=
  match a with
  | Scal x => P x
  | PList l | Vec l => Forall P l
  | Mat m => Forall (Forall P) m
  | Tens t => Forall (Forall (Forall P)) t
  end.

(** both calls succeed with related values, or both raise the same exception *)
Definition res_rel {A} (P : A -> A -> Prop) (r s : result A) : Prop :=
  match r, s with
  | Ok a, Ok b => P a b
  | Raise e, Raise e' => e = e'
  | _, _ => False
  end.

(** a utility never decreases when rewards increase, on the arrays whose entries satisfy [P] *)
Definition monotone_on (P : R -> Prop) (f : arr -> result arr) : Prop :=
  forall a b, arr_all P a -> arr_all P b -> arr_le a b -> res_rel arr_le (f a) (f b).

(** batch evaluation is entrywise single evaluation: [u] gives the value of one option *)
Definition batch_agrees (d : nat) (f : arr -> result arr) (u : list R -> R) : Prop :=
  (forall x, length x = d -> f (Vec x) = Ok (Scal (u x))) /\
  (forall m, Forall (fun x => length x = d) m -> f (Mat m) = Ok (Vec (map u m))).

(** the same for the (queries x options x rewards) arrays built by [rewards[Qs]] *)
Definition query_agrees (d : nat) (f : arr -> result arr) (u : list R -> R) : Prop :=
  forall t, Forall (Forall (fun x => length x = d)) t -> f (Tens t) = Ok (Mat (map (map u) t)).

(** [y] improves on [x] in some reward and is nowhere worse *)
Definition improves (x y : list R) : Prop :=
  Forall2 Rle x y /\ exists k a b, nth_error x k = Some a /\ nth_error y k = Some b /\ a < b.

(** [u] is strictly increasing with respect to improvement of [d]-dimensional rewards *)
Definition strictly_increasing (d : nat) (u : list R -> R) : Prop :=
  forall x y, length x = d -> length y = d -> improves x y -> u x < u y.

(** one-dimensional utilities are applied entry by entry *)
Definition entrywise (f : arr -> result arr) (u : R -> R) : Prop :=
  (forall x, f (Scal x) = Ok (Scal (u x))) /\ (forall l, f (Vec l) = Ok (Vec (map u l))) /\
  (forall l, f (PList l) = Ok (Vec (map u l))) /\
  (forall m, Forall (fun r => length r = 1%nat) m -> f (Mat m) = Ok (Mat (map (map u) m))).
