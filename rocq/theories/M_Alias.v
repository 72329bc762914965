(** Model of what /repo/src/lop/models/PreferenceModel.py and GP.py keep by reference: arrays that the caller passed to [add] and can
    still write to.  Arrays made by [np.append], [np.delete], [np.array], [np.where] are new and known to the model object only.
    Arrays of one kind (points, 2-d ordinal labels, index arrays) are numbered; writes keep no shape, which allows more than numpy does. *)
From Verif Require Import M_Base M_Pairs M_Pareto M_Store.

(** the arrays of the caller that are passed as X, as 2-d ordinal labels and as y[1] of a tuple (PreferenceModel.py:187, 218, 235) *)
Record mem := mkMem { mX : nat -> list row; mO : nat -> list (Z * nat); mI : nat -> list nat }.
(** PreferenceModel.py:44-61: [base] holds what the object owns; a number says that the attribute is the caller's array instead *)
Record obj := mkObj { base : store; rX : option nat; rO : option nat; rI : option nat }.
(** the attributes as the code reads them (PreferenceModel.py:57-58) *)
Definition view (m : mem) (o : obj) : store :=
  let s := base o in
  mkStore (match rX o with Some l => Some (mX m l) | None => sX s end) (sRel s)
    (match rO o with Some l => Some (map fst (mO m l), map snd (mO m l)) | None => sOrd s end)
    (match sAbs s, rI o with Some (v, _), Some l => Some (v, mI m l) | a, _ => a end)
    (sPrior s) (sOpt s) (sPareto s).
(** the labels passed to [add]: by value where the code copies them (PreferenceModel.py:201, 206, 214, 245), else the caller's array *)
Inductive alabels : Type :=
| ACopied (y : labels)                      (* every other label argument *)
| AOrd2 (l : nat)                           (* type='ordinal', 2-d array (line 218) *)
| AAbsT (v : list Q) (l : nat).             (* type='abs', tuple, y[1] is the array (lines 233-235) *)
(** PreferenceModel.py:187, the labels as read during the call *)
Definition labels_of (m : mem) (y : alabels) : labels :=
  match y with ACopied y => y | AOrd2 l => LOrd2 (mO m l) | AAbsT v l => LAbsT v (mI m l) end.
(** PreferenceModel.py:191-196: the first array is kept, later ones are copied *)
Definition keep_X (s : store) (x : nat) : option nat := match sX s with None => Some x | Some _ => None end.
(** PreferenceModel.py:223-231: views of the first 2-d array are kept (line 224), later ones are copied; [st] tells whether the labels
    were accepted (line 221) *)
Definition keep_O (s : store) (y : alabels) (st : status) (r : option nat) : option nat :=
  match y, st, sOrd s with
  | AOrd2 l, Done, None => Some l
  | AOrd2 _, Done, Some _ | ACopied (LOrd _), Done, _ | ACopied (LOrd2 _), Done, _ => None
  | _, _, _ => r
  end.
(** PreferenceModel.py:233-252: y[1] of the first tuple is kept (line 252), later ones are copied (line 250) *)
Definition keep_I (s : store) (y : alabels) (st : status) (r : option nat) : option nat :=
  match y, st, sAbs s with
  | AAbsT _ l, Done, None => Some l
  | AAbsT _ _, Done, Some _ | ACopied (LAbs _), Done, _ | ACopied (LAbsT _ _), Done, _ => None
  | _, _, _ => r
  end.
(** PreferenceModel.py:187-279 [add] *)
Definition aadd (m : mem) (o : obj) (x : nat) (y : alabels) : obj * status :=
  let s := view m o in
  let '(s', st) := add s (mX m x) (labels_of m y) in
  (mkObj s' (keep_X s x) (keep_O s y st (rO o)) (keep_I s y st (rI o)), st).
(** PreferenceModel.py:113-150: line 136 is reached *)
Definition deletes (s : store) : bool :=
  match sX s, sRel s with Some X, Some ps => forallb (pair_in_range (length X)) ps | _, _ => false end.
(** PreferenceModel.py:113-150 [remove_without_reference]; the pairs that lines 143-144 write to were copied by [add] *)
Definition aremove (m : mem) (o : obj) (remove_prior : bool) : obj * status :=
  let s := view m o in
  let '(s', st) := remove_without_reference s remove_prior in
  (mkObj s' (if deletes s then None else rX o) (rO o) (rI o), st).
(** PreferenceModel.py:75-103 [add_prior] with method='exact' (line 94) *)
Definition aprior (m : mem) (o : obj) (x : nat) : obj * status :=
  let s := view m o in
  if negb (sPareto s) then (o, Done)
  else
    let o1 := mkObj (set_prior (base o) (Some (Z.of_nat (npts s), Z.of_nat (npts s + length (mX m x))))) (rX o) (rO o) (rI o) in
    match aadd m o1 x (ACopied (LRel [])) with
    | (o2, Done) => aremove m o2 true
    | r => r
    end.
(** PreferenceModel.py:166-169 [reset] *)
Definition areset (o : obj) : obj := mkObj (reset (base o)) None None None.

(** calls on the model and assignments of the caller to arrays (PreferenceModel.py:75, 113, 166, 187) *)
Inductive aop : Type :=
| AAdd (x : nat) (y : alabels) | APrior (x : nat) | ARemove (b : bool) | AReset
| WX (l : nat) (rows : list row) | WO (l : nat) (y : list (Z * nat)) | WI (l : nat) (i : list nat).
(** assignment to one array *)
Definition upd {A} (f : nat -> A) (l : nat) (a : A) : nat -> A := fun k => if k =? l then a else f k.
(** one call or assignment; the calls leave the arrays of the caller as they are (PreferenceModel.py:75-169, 187-279) *)
Definition astep (w : mem * obj) (p : aop) : mem * obj :=
  let '(m, o) := w in
  match p with
  | AAdd x y => (m, fst (aadd m o x y))
  | APrior x => (m, fst (aprior m o x))
  | ARemove b => (m, fst (aremove m o b))
  | AReset => (m, areset o)
  | WX l rows => (mkMem (upd (mX m) l rows) (mO m) (mI m), o)
  | WO l y => (mkMem (mX m) (upd (mO m) l y) (mI m), o)
  | WI l i => (mkMem (mX m) (mO m) (upd (mI m) l i), o)
  end.
(** a history; exceptions are caught by the caller *)
Definition arun (w : mem * obj) (h : list aop) : mem * obj := fold_left astep h w.
(** the training data after a history (PreferenceModel.py:57-58) *)
Definition seen (w : mem * obj) : store := view (fst w) (snd w).
(** PreferenceModel.py:44-61 [__init__] *)
Definition anew (pareto_pairs : bool) : obj := mkObj (init pareto_pairs) None None None.
