(** Model of /repo/src/lop/utilities/preference_pairs.py *)
From Verif Require Import M_Base.

(** A preference pair [(dk, u, v)] as built throughout preference_pairs.py (e.g. lines 55-56, 85, 97);
    indices are the non-negative ones the package produces itself. *)
Definition pair : Type := (Z * nat * nat)%type.

(** preference_pairs.py:38-47 [get_dk]: the scalar case (the TypeError for sequences, lines 40-41, is a type
    error of the model's language and is not represented). *)
Definition get_dk (u v : Q) : Z :=
  if Qlt_bool v u then (-1)%Z
  else if Qlt_bool u v then 1%Z
  else (-1)%Z.

(** preference_pairs.py:55-56 [preference] *)
Definition preference (u_idx v_idx : nat) : pair := (get_dk 1 0, u_idx, v_idx).

(** preference_pairs.py:66-72 [gen_pairs_from_idx]: loop with conditional append *)
Fixpoint gen_pairs_from_idx (best_idx : nat) (indicies : list nat) : list pair :=
  match indicies with
  | [] => []
  | idx :: rest =>
      if negb (Nat.eqb idx best_idx)
      then preference best_idx idx :: gen_pairs_from_idx best_idx rest
      else gen_pairs_from_idx best_idx rest
  end.

(** preference_pairs.py:83-85, the inner loop [for j in range(i+1, len(y))]; [yi = y[i]], [tail = y[j:]] *)
Fixpoint ranked_inner (yi : Q) (i j : nat) (tail : list Q) : list pair :=
  match tail with
  | [] => []
  | yj :: tail' => (get_dk yi yj, i, j) :: ranked_inner yi i (S j) tail'
  end.

(** preference_pairs.py:83-85, the outer loop [for i in range(len(y))]; [tail = y[i:]] *)
Fixpoint ranked_outer (i : nat) (tail : list Q) : list pair :=
  match tail with
  | [] => []
  | yi :: tail' => ranked_inner yi i (S i) tail' ++ ranked_outer (S i) tail'
  end.

(** preference_pairs.py:77-87 [ranked_pairs_from_fake]; the argument is [y = fake_f(X)] (line 78).
    [y_sorted_idx] (line 80) is computed but never used by the python. *)
Definition ranked_pairs_from_fake (y : list Q) : list pair := ranked_outer 0 y.

(** preference_pairs.py:94-98 [generate_fake_pairs]; the argument [Y] is [real_f(X, data=data)] (line 95).
    [Y[pair_i]] is evaluated once per kept element and raises IndexError when out of range. *)
Definition generate_fake_pairs (Y : list Q) (pair_i : nat) : result (list pair) :=
  mapM (fun iy : nat * Q => do yp <- getitem Y pair_i; Ok (get_dk yp (snd iy), pair_i, fst iy))
       (filter (fun iy : nat * Q => negb (Nat.eqb (fst iy) pair_i)) (enumerate Y)).

(** preference_pairs.py:104-113 [generate_ranking_pairs]: the loops build [pairs], and then the function ends
    without a [return], so python returns [None].  [sorted_idx] is the reversed argsort (lines 107-108), any
    permutation; the result type is [option], [None] being python's None. *)
Definition ranking_pairs_built (sorted_idx : list nat) : list pair :=
  (fix outer (l : list nat) : list pair :=
     match l with
     | [] => []
     | idx1 :: l' => map (fun idx2 => preference idx1 idx2) l' ++ outer l'
     end) sorted_idx.
Definition generate_ranking_pairs (sorted_idx : list nat) : option (list pair) :=
  let pairs := ranking_pairs_built sorted_idx in
  None.
