(** Model of the training-data store of /repo/src/lop/models/PreferenceModel.py (lines 44-279) with the default three
    probits, and of the lazy re-optimisation flag as used by PreferenceGP.py:97-149, 290-338 and
    PreferenceLinear.py:49-108.

    Points are rows of rationals (finite floats); all rows are assumed to have equal length, as numpy requires.
    Labels are typed (a list of pairs really is a list of pairs).  Indices are non-negative; python's negative indices
    are not modelled, except for the slice of [get_prior_pts].  [training_sigma] is computed and never used by the
    code and is left out. *)
From Verif Require Import M_Base M_Pairs M_Pareto.

(** PreferenceModel.py:44-61, the mutable attributes set by the constructor that concern training data.
    [sRel], [sOrd], [sAbs] are y_train[0], y_train[1], y_train[2] ([probit_idxs] of line 50). *)
Record store := mkStore {
  sX : option (list row);
  sRel : option (list pair);
  sOrd : option (list Z * list nat);
  sAbs : option (list Q * list nat);
  sPrior : option (Z * Z);
  sOpt : bool;                 (* self.optimized *)
  sPareto : bool }.            (* self.pareto_pairs *)

(** PreferenceModel.py:44-61 [__init__] *)
Definition init (pareto_pairs : bool) : store := mkStore None None None None None false pareto_pairs.

(** The [y] and [type] arguments of [add] (lines 187, 198, 210, 232). *)
Inductive labels : Type :=
| LRel (y : list pair)                      (* type='relative_discrete', y a list of tuples *)
| LOrd (y : list Z)                         (* type='ordinal', 1-d *)
| LOrd2 (y : list (Z * nat))                (* type='ordinal', 2-d rows (label, index), used as is (line 218) *)
| LAbs (v : list Q)                         (* type='abs', ndarray *)
| LAbsT (v : list Q) (idxs : list nat)      (* type='abs', tuple (values, indices), used as is (lines 233-235) *)
| LAbsOther                                 (* type='abs', any other python object (line 239) *)
| LUnknown.                                 (* a type string matching no branch *)

(** How a call ended: normally, by the early [return] of line 241, or with an exception. *)
Inductive status : Type := Done | Refused | Raised (e : exn).

(** number of stored points: [len(self.X_train)] *)
Definition npts (s : store) : nat := match sX s with None => 0 | Some X => length X end.
Definition pts_of (s : store) : list row := match sX s with None => [] | Some X => X end.

(** PreferenceModel.py:191-196: append the new points *)
Definition add_points (s : store) (X : list row) : store :=
  mkStore (Some (pts_of s ++ X)) (sRel s) (sOrd s) (sAbs s) (sPrior s) (sOpt s) (sPareto s).

Definition set_rel (s : store) (r : option (list pair)) : store :=
  mkStore (sX s) r (sOrd s) (sAbs s) (sPrior s) (sOpt s) (sPareto s).
Definition set_ord (s : store) (o : option (list Z * list nat)) : store :=
  mkStore (sX s) (sRel s) o (sAbs s) (sPrior s) (sOpt s) (sPareto s).
Definition set_abs (s : store) (a : option (list Q * list nat)) : store :=
  mkStore (sX s) (sRel s) (sOrd s) a (sPrior s) (sOpt s) (sPareto s).
Definition set_prior (s : store) (p : option (Z * Z)) : store :=
  mkStore (sX s) (sRel s) (sOrd s) (sAbs s) p (sOpt s) (sPareto s).
Definition set_opt (s : store) (b : bool) : store :=
  mkStore (sX s) (sRel s) (sOrd s) (sAbs s) (sPrior s) b (sPareto s).

(** lines 205-209: [np.append] on the stored pairs, or first assignment *)
Definition append_rel (s : store) (y : list pair) : store :=
  match sRel s with
  | None => set_rel s (Some y)
  | Some old => set_rel s (Some (old ++ y))
  end.

(** lines 223-231 *)
Definition append_ord (s : store) (v : list Z) (idx : list nat) : store :=
  match sOrd s with
  | None => set_ord s (Some (v, idx))
  | Some (v0, i0) => set_ord s (Some (v0 ++ v, i0 ++ idx))
  end.
(** lines 248-252 *)
Definition append_abs (s : store) (v : list Q) (idx : list nat) : store :=
  match sAbs s with
  | None => set_abs s (Some (v, idx))
  | Some (v0, i0) => set_abs s (Some (v0 ++ v, i0 ++ idx))
  end.

(** lines 245-246: the two [np.where] clamps *)
Definition clamp (v : Q) : Q :=
  let v1 := if Qlt_bool v (1#1000) then 1#1000 else v in
  if Qlt_bool (999#1000) v1 then 999#1000 else v1.

(** lines 243-252 *)
Definition add_abs (s : store) (v : list Q) (idxs : list nat) : store * status :=
  if existsb (fun x => Qlt_bool x 0) v || existsb (fun x => Qlt_bool 1 x) v then (s, Raised ValueError)
  else (append_abs s (map clamp v) idxs, Done).

(** lines 220-231 *)
Definition add_ord (s : store) (v : list Z) (idxs : list nat) : store * status :=
  if existsb (fun x => (x <=? 0)%Z) v then (s, Raised GenericException)
  else (append_ord s v idxs, Done).

(** lines 198-252, the branch on the label type; [s] already holds the new points, [len_X] is the old length *)
Definition add_labels (s : store) (len_X : nat) (y : labels) : store * status :=
  match y with
  | LRel y =>
      let y := if 0 <? len_X then map (fun p : pair => let '(d, u, v) := p in (d, u + len_X, v + len_X)) y else y in
      match y with
      | [] => (s, Done)                                               (* lines 203-204 *)
      | _ => (append_rel s y, Done)
      end
  | LOrd y => add_ord s y (map (fun i => i + len_X) (seq 0 (length y)))  (* lines 213-216 *)
  | LOrd2 y => add_ord s (map fst y) (map snd y)
  | LAbs v => add_abs s v (seq len_X (length v))                         (* lines 236-238 *)
  | LAbsT v idxs => add_abs s v idxs
  | LAbsOther => (s, Refused)                                         (* lines 239-241 *)
  | LUnknown => (s, Done)
  end.

(** [np.all(x > row)] for one stored row (line 259) *)
Fixpoint all_gt (x r : row) : bool :=
  match x, r with
  | a :: x', b :: r' => Qlt_bool b a && all_gt x' r'
  | _, _ => true
  end.

(** lines 255-262; [get_dk(1,0)] of line 256 is computed by the model of get_dk *)
Definition pareto_new_pairs (all : list row) (len_X : nat) (X : list row) : list pair :=
  concat (map (fun ix : nat * row =>
            map (fun j => (get_dk 1 0, fst ix + len_X, j))
                (map fst (filter (fun jr : nat * row => all_gt (snd ix) (snd jr)) (enumerate all))))
          (enumerate X)).

(** lines 254-276 *)
Definition add_pareto (s : store) (len_X : nat) (X : list row) : store :=
  if sPareto s && (1 <? npts s) then
    match pareto_new_pairs (pts_of s) len_X X with
    | [] => s
    | pairs => append_rel s pairs
    end
  else s.

(** PreferenceModel.py:187-279 [add]: the store after the call and how the call ended *)
Definition add (s : store) (X : list row) (y : labels) : store * status :=
  let len_X := npts s in                                              (* lines 191-196 *)
  let s1 := add_points s X in
  match add_labels s1 len_X y with
  | (s2, Done) => (set_opt (add_pareto s2 len_X X) false, Done)       (* lines 254-279 *)
  | (s2, st) => (s2, st)
  end.

(** PreferenceModel.py:166-169 [reset] *)
Definition reset (s : store) : store := mkStore None None None None None (sOpt s) (sPareto s).

(** lines 114-122: is point [i] named by a pair?  (counts[i] != 0) *)
Definition mentioned (ps : list pair) (i : nat) : bool :=
  existsb (fun p : pair => let '(_, u, v) := p in (u =? i) || (v =? i)) ps.
(** lines 126-133: the final value of counts[i], the number of removed points with index <= i *)
Definition removed_upto (ps : list pair) (i : nat) : nat :=
  length (filter (fun j => negb (mentioned ps j)) (seq 0 (S i))).
(** np.delete(self.X_train, idx_to_rm, axis=0), line 136 *)
Definition keep_rows (ps : list pair) (X : list row) : list row :=
  map snd (filter (fun ir : nat * row => mentioned ps (fst ir)) (enumerate X)).
(** lines 139-144 *)
Definition renumber (ps : list pair) (p : pair) : pair :=
  let '(d, u, v) := p in (d, u - removed_upto ps u, v - removed_upto ps v).
Definition pair_in_range (n : nat) (p : pair) : bool := let '(_, u, v) := p in (u <? n) && (v <? n).

(** PreferenceModel.py:113-150 [remove_without_reference] *)
Definition remove_without_reference (s : store) (remove_prior : bool) : store * status :=
  match sX s with
  | None => (s, Raised AttributeError)                                (* line 114: None.shape *)
  | Some X =>
      match sRel s with
      | None => (s, Raised TypeError)                                 (* line 120: iterating None *)
      | Some ps =>
          if forallb (pair_in_range (length X)) ps then
            let num_rm := length X - length (keep_rows ps X) in
            let s1 := set_rel (mkStore (Some (keep_rows ps X)) (sRel s) (sOrd s) (sAbs s) (sPrior s) (sOpt s) (sPareto s))
                              (Some (map (renumber ps) ps)) in
            if remove_prior then
              match sPrior s with
              | None => (s1, Raised TypeError)                        (* line 149: None[0] *)
              | Some (a, b) => (set_prior s1 (Some (a, (b - Z.of_nat num_rm)%Z)), Done)
              end
            else (s1, Done)
          else (s, Raised IndexError)                                 (* line 121/122 *)
      end
  end.

(** PreferenceModel.py:75-103 [add_prior], with [pts] the points of line 85-90 or 95 *)
Definition add_prior (s : store) (pts : list row) : store * status :=
  if negb (sPareto s) then (s, Done)                                  (* lines 77-79 *)
  else
    let s1 := set_prior s (Some (Z.of_nat (npts s), Z.of_nat (npts s + length pts))) in  (* lines 98-101 *)
    match add s1 pts (LRel []) with
    | (s2, Done) => remove_without_reference s2 true
    | r => r
    end.

(** python slice bound of a list of length n *)
Definition slice_bound (n : nat) (z : Z) : nat :=
  if (z <? 0)%Z then Z.to_nat (z + Z.of_nat n) else Nat.min (Z.to_nat z) n.
Definition slice {A} (l : list A) (a b : Z) : list A :=
  let i := slice_bound (length l) a in
  let j := slice_bound (length l) b in
  firstn (j - i) (skipn i l).
(** PreferenceModel.py:157-161 [get_prior_pts]; [Ok None] is python's None *)
Definition get_prior_pts (s : store) : result (option (list row)) :=
  match sPrior s with
  | None => Ok None
  | Some (a, b) => match sX s with None => Raise TypeError | Some X => Ok (Some (slice X a b)) end
  end.

(** The calls a user can make on the store. *)
Inductive op : Type :=
| OAdd (X : list row) (y : labels)
| OAddPrior (pts : list row)
| ORemove (remove_prior : bool)
| OReset.
Definition step (s : store) (o : op) : store * status :=
  match o with
  | OAdd X y => add s X y
  | OAddPrior pts => add_prior s pts
  | ORemove b => remove_without_reference s b
  | OReset => (reset s, Done)
  end.
(** A history of calls; exceptions are caught by the caller, who goes on using the object. *)
Definition run (s : store) (ops : list op) : store := fold_left (fun s o => fst (step s o)) ops s.

(** ---- lazy optimisation ---- *)
(** the training data a fit is computed from: X_train and y_train *)
Definition data : Type :=
  option (list row) * option (list pair) * option (list Z * list nat) * option (list Q * list nat).
Definition data_of (s : store) : data := (sX s, sRel s, sOrd s, sAbs s).

(** number of points of a fit *)
Definition data_npts (d : data) : nat := match d with (Some X, _, _, _) => length X | _ => 0 end.

(** a model object: its class ([mGP] is true for PreferenceGP, false for PreferenceLinear), the store and the data its
    latent vector (F, W, K of PreferenceGP, w of PreferenceLinear) was last fitted to; [None] before the first fit *)
Record model := mkModel { mGP : bool; mS : store; mFit : option data }.
Definition new_model (gp pareto_pairs : bool) : model := mkModel gp (init pareto_pairs) None.

(** How the numerical work of one optimisation ends: it succeeds; it raises in the fit, leaving [fit] behind; or
    (only with use_hyper_optimization, PreferenceGP.py:291-332) it raises inside hyperparameter_search, which has
    already set the flag [optimized] (line 372), leaving the fit to a fold of the data. *)
Inductive outcome : Type :=
| Fits
| FailsInFit (fit : option data)
| FailsInSearch (fit : option data).

(** PreferenceGP.py:290-338 / PreferenceLinear.py:69-108 [optimize]: the last step fits to the stored data and sets
    [optimized] (line 338 / 108). *)
Definition optimize (o : outcome) (m : model) : model * status :=
  match sX (mS m) with
  | None => (m, Raised AttributeError)      (* cov(None, None) / None.shape *)
  | Some _ =>
      match o with
      | Fits => (mkModel (mGP m) (set_opt (mS m) true) (Some (data_of (mS m))), Done)
      | FailsInFit d => (mkModel (mGP m) (mS m) d, Raised LinAlgError)
      | FailsInSearch d => (mkModel (mGP m) (set_opt (mS m) true) d, Raised LinAlgError)
      end
  end.

(** what a prediction was computed from *)
Inductive basis : Type := FromPrior | FromFit (d : data).

(** the computation of a prediction from the fitted vector: PreferenceGP.py:113-149 multiplies cov(X, X_train) by a
    vector of the length of F (line 137), so a fit to another number of points raises ValueError;
    PreferenceLinear.py:56-62 uses only w.  Without any fit the attributes do not exist. *)
Definition from_fit (m : model) : result basis :=
  match mFit m with
  | None => Raise AttributeError
  | Some d => if mGP m && negb (data_npts d =? npts (mS m)) then Raise ValueError else Ok (FromFit d)
  end.

(** PreferenceGP.py:97-149 [predict] / PreferenceLinear.py:49-62: without data the prior is returned (lines 98-104);
    else optimise if needed (lines 107-108) and use the fitted latent vector *)
Definition predict (o : outcome) (m : model) : model * result basis :=
  match sX (mS m) with
  | None => (m, Ok FromPrior)
  | Some _ =>
      if sOpt (mS m) then (m, from_fit m)
      else match optimize o m with
           | (m', Done) => (m', from_fit m')
           | (m', Raised e) => (m', Raise e)
           | (m', Refused) => (m', Raise GenericException)
           end
  end.

(** user-level calls on a model object *)
Inductive mop : Type :=
| MStore (o : op)
| MPredict (o : outcome)
| MOptimize (o : outcome).
Definition mstep (m : model) (o : mop) : model :=
  match o with
  | MStore o => mkModel (mGP m) (fst (step (mS m) o)) (mFit m)
  | MPredict f => fst (predict f m)
  | MOptimize f => fst (optimize f m)
  end.
Definition mrun (m : model) (ops : list mop) : model := fold_left mstep ops m.
