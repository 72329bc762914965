(** Model of /repo/src/lop/models/PreferenceModel.py:482-543 [plot_preference]: the arrows and points it draws.

    Arrays of points are those of M_OneD, arrows those of M_Viz.  Indices of labels are natural numbers.  [self.F] is [None] when the
    attribute does not exist; it is set by a fit (PreferenceGP.py:285) and kept when points are added later. *)
From Verif Require Import M_Base M_RBase M_Pairs M_OneD M_Viz.
Local Open Scope R_scope.

(** line 511-518: a point in the plane *)
Definition plot_point (X : arr R) (F : list R) (i : nat) : result (R * R) :=
  match X with
  | Arr1 l => do x <- getitem l i; do f <- getitem F i; Ok (x, f)             (* lines 516-518 *)
  | Arr2 _ M => do r <- getitem M i; do a <- getitem r 0; do b <- getitem r 1; Ok (a, b)
  end.
(** lines 504-529, one pair *)
Definition plot_pair (X : arr R) (F : list R) (p : pair) : result arrow :=
  let '(label, i1, i2) := p in
  let first := Z.eqb label (get_dk 1 0) in                                    (* line 505 *)
  do sm_pt <- plot_point X F (if first then i2 else i1);
  do lg_pt <- plot_point X F (if first then i1 else i2);
  Ok (mkArrow sm_pt lg_pt (between sm_pt lg_pt (1 / 2)) (between sm_pt lg_pt (1 / 2 + 1 / 1000))).
(** lines 534-541: the points of the ratings; [abs_data] is (values, indices) *)
Definition plot_ratings (X : arr R) (abs_data : list R * list nat) : result (list (R * R)) :=
  match X with
  | Arr1 l => do xs <- mapM (getitem l) (snd abs_data); Ok (combine xs (fst abs_data))          (* line 539 *)
  | Arr2 w M => if Nat.eqb w 2
      then mapM (fun i => do r <- getitem M i; do a <- getitem r 0; do b <- getitem r 1; Ok (a, b)) (snd abs_data)  (* line 541 *)
      else Ok []
  end.
(** lines 482-541: [self_X], [self_F] are the attributes, [call] is [self(X)], [arg_X] and [arg_F] the optional arguments *)
Definition plot_preference (self_X : option (arr R)) (self_F : option (list R)) (call : arr R -> result (list R))
    (pref_pairs : option (list pair)) (abs_data : option (list R * list nat)) (arg_X : option (arr R)) (arg_F : option (list R))
  : result (list arrow * list (R * R)) :=
  let oX := match arg_X with Some X => Some X | None => self_X end in         (* lines 485-486 *)
  do oF <- match arg_F, oX with
           | Some F, _ => Ok (Some F)
           | None, Some X => match self_F with Some F => Ok (Some F) | None => do F <- call X; Ok (Some F) end (* lines 487-491 *)
           | None, None => Ok None
           end;
  match self_X, oX with
  | Some sX, Some X =>                                                        (* line 496 *)
      if match sX with Arr2 w _ => Nat.ltb 2 w | Arr1 _ => false end then Raise ValueError  (* lines 497-498 *)
      else
        let F := match oF with Some F => F | None => [] end in
        do arrows <- match pref_pairs with None => Ok [] | Some ps => mapM (plot_pair X F) ps end;
        do points <- match abs_data with None => Ok [] | Some a => plot_ratings X a end;
        Ok (arrows, points)
  | _, _ => Ok ([], [])
  end.
