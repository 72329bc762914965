(** Specification vocabulary for the training-data store: what is observable (stored points and labels) and what the
    labels mean.  It uses the attribute projections of the model's record and nothing of its functions. *)
From Coq Require Import Sorted.
From Verif Require Import M_Base M_Pareto M_Store.

(** the stored points and labels as lists ("nothing stored" and "no attribute yet" look the same) *)
Definition points (s : store) : list row := match sX s with None => [] | Some X => X end.
Definition rel (s : store) : list (Z * nat * nat) := match sRel s with None => [] | Some l => l end.
Definition ord_v (s : store) : list Z := match sOrd s with None => [] | Some (v, _) => v end.
Definition ord_i (s : store) : list nat := match sOrd s with None => [] | Some (_, i) => i end.
Definition abs_v (s : store) : list Q := match sAbs s with None => [] | Some (v, _) => v end.
Definition abs_i (s : store) : list nat := match sAbs s with None => [] | Some (_, i) => i end.

(** every stored label names stored points *)
Definition rel_in_range (s : store) : Prop :=
  forall d u v, In (d, u, v) (rel s) -> u < length (points s) /\ v < length (points s).
Definition labels_in_range (s : store) : Prop :=
  rel_in_range s /\ (forall i, In i (ord_i s) -> i < length (points s)) /\
  (forall i, In i (abs_i s) -> i < length (points s)).

(** the caller labels points it passes (or, for explicit index arrays, points stored after the call) *)
Definition about_batch (n_old n_new : nat) (y : labels) : Prop :=
  match y with
  | LRel l => forall d u v, In (d, u, v) l -> u < n_new /\ v < n_new
  | LOrd l => length l <= n_new
  | LOrd2 l => forall d i, In (d, i) l -> i < n_old + n_new
  | LAbs l => length l <= n_new
  | LAbsT _ idx => forall i, In i idx -> i < n_old + n_new
  | _ => True
  end.

(** what a pair says: which sign about which two points of the list [X] *)
Definition says (X : list row) (p : Z * nat * nat) : Z * option row * option row :=
  let '(d, u, v) := p in (d, nth_error X u, nth_error X v).

(** strict domination: larger in every coordinate *)
Definition dominates (a b : row) : Prop := Forall2 (fun x y => (y < x)%Q) a b.
Definition same_width (k : nat) (X : list row) : Prop := Forall (fun r => length r = k) X.

(** [p] says that a strictly dominating point of [X] is preferred *)
Definition pareto_truth (X : list row) (p : Z * nat * nat) : Prop :=
  let '(d, u, v) := p in
  d = (-1)%Z /\ exists a b, nth_error X u = Some a /\ nth_error X v = Some b /\ dominates a b.

(** point [i] is named by some stored pair *)
Definition referenced (s : store) (i : nat) : Prop := exists d u v, In (d, u, v) (rel s) /\ (u = i \/ v = i).

(** [l] is the sub-list of [X] at the ascending positions [keep] *)
Definition picked (X : list row) (keep : list nat) (l : list row) : Prop :=
  StronglySorted lt keep /\ Forall2 (fun i x => nth_error X i = Some x) keep l.

(** stored ratings are usable by the bounded rating probit *)
Definition ratings_ok (s : store) : Prop := forall x, In x (abs_v s) -> (1#1000 <= x <= 999#1000)%Q.

(** equal stored data (everything except the re-optimisation flag) *)
Definition same_data (s t : store) : Prop :=
  sX s = sX t /\ sRel s = sRel t /\ sOrd s = sOrd t /\ sAbs s = sAbs t /\ sPrior s = sPrior t.

(** a history in which no add was rejected, no explicit optimize call failed, no failure happened inside a
    hyper-parameter search (failures of a plain lazy fit inside predict are allowed) and remove_without_reference was
    not called directly *)
Definition call_ok (m : model) (o : mop) : Prop :=
  match o with
  | MStore (OAdd X y) => snd (step (mS m) (OAdd X y)) = Done
  | MStore (ORemove _) => False
  | MOptimize f => f = Fits
  | MPredict f => forall d, f <> FailsInSearch d
  | _ => True
  end.
Fixpoint accepted (m : model) (ops : list mop) : Prop :=
  match ops with [] => True | o :: ops' => call_ok m o /\ accepted (mstep m o) ops' end.

(** histories whose labels are about stored points: [op_about] for all label types, [about_rel] for pairs only *)
Definition op_about (s : store) (o : op) : Prop :=
  match o with OAdd X y => about_batch (length (points s)) (length X) y | _ => True end.
Definition is_add_or_reset (o : op) : Prop := match o with OAdd _ _ | OReset => True | _ => False end.
Fixpoint history_about (s : store) (ops : list op) : Prop :=
  match ops with [] => True | o :: ops' => op_about s o /\ history_about (fst (step s o)) ops' end.
Definition about_rel (s : store) (o : op) : Prop :=
  match o with OAdd X (LRel l) => about_batch (length (points s)) (length X) (LRel l) | _ => True end.
Fixpoint rel_history_about (s : store) (ops : list op) : Prop :=
  match ops with [] => True | o :: ops' => about_rel s o /\ rel_history_about (fst (step s o)) ops' end.

(** the ratings / ordinal labels passed to a call *)
Definition ratings_of (y : labels) : option (list Q) := match y with LAbs v | LAbsT v _ => Some v | _ => None end.
Definition ordinals_of (y : labels) : option (list Z) := match y with LOrd v => Some v | LOrd2 l => Some (map fst l) | _ => None end.

(** a sequence of adds none of which is rejected *)
Definition add_ok (s : store) (Xy : list row * labels) : option store :=
  match add s (fst Xy) (snd Xy) with (s', Done) => Some s' | _ => None end.
Fixpoint adds_ok (s : store) (l : list (list row * labels)) : option store :=
  match l with [] => Some s | a :: l' => match add_ok s a with Some s' => adds_ok s' l' | None => None end end.

(** what validation does to a list of ratings: every stored value is usable, values already usable are kept, others move
    to the nearer end, and the order is preserved *)
Definition ratings_image (v w : list Q) : Prop :=
  Forall2 (fun x r => (1#1000 <= r <= 999#1000)%Q /\ ((1#1000 <= x <= 999#1000)%Q -> r = x) /\
                      ((x < 1#1000)%Q -> r = 1#1000) /\ ((999#1000 < x)%Q -> r = 999#1000)) v w /\
  forall i j a b ra rb, nth_error v i = Some a -> nth_error v j = Some b -> nth_error w i = Some ra ->
    nth_error w j = Some rb -> (a <= b)%Q -> (ra <= rb)%Q.
