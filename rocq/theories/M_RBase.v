(** Vectors of reals: the numpy reductions used by the numeric code. *)
From Verif Require Export M_Base.
From Coq Require Export Reals.

(** [np.sum] of a vector *)
Fixpoint rsum (l : list R) : R := match l with [] => 0%R | x :: l' => (x + rsum l')%R end.
(** [np.max], [np.min] of a non-empty vector with head [x]; of an empty vector they raise ValueError *)
Definition rmax1 (x : R) (l : list R) : R := fold_left Rmax l x.
Definition rmin1 (x : R) (l : list R) : R := fold_left Rmin l x.
Definition np_max (l : list R) : result R := match l with [] => Raise ValueError | x :: l' => Ok (rmax1 x l') end.
Definition np_min (l : list R) : result R := match l with [] => Raise ValueError | x :: l' => Ok (rmin1 x l') end.
(** float comparisons *)
Definition Rltb (x y : R) : bool := if Rlt_dec x y then true else false.
Definition Rleb (x y : R) : bool := if Rle_dec x y then true else false.
(** [np.cumsum] starting from [acc] *)
Fixpoint cumsum (acc : R) (l : list R) : list R :=
  match l with [] => [] | x :: l' => (acc + x)%R :: cumsum (acc + x)%R l' end.
