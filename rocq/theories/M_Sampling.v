(** Model of /repo/src/lop/utilities/sample_utility.py (integer [s]) *)
From Verif Require Import M_Base.

(** lexicographic order on rows, as used by [np.unique(axis=0)] *)
Fixpoint lex_lt (a b : list nat) : bool :=
  match a, b with
  | x :: a', y :: b' => (x <? y) || ((x =? y) && lex_lt a' b')
  | [], _ :: _ => true
  | _, _ => false
  end.

(** insertion into a sorted duplicate-free list of rows *)
Fixpoint insert_row (r : list nat) (l : list (list nat)) : list (list nat) :=
  match l with
  | [] => [r]
  | q :: l' => if lex_lt r q then r :: l
               else if lex_lt q r then q :: insert_row r l'
               else l
  end.

(** sample_utility.py:35 [np.unique(all_uniq, axis=0)]: sorted distinct rows *)
Definition unique_rows (l : list (list nat)) : list (list nat) := fold_right insert_row [] l.

(** sample_utility.py:10-16 [sample_nonunique_sets]: [draws t] is the result of the t-th call of
    [np.random.choice(s, size_set, replace=False)]; the numpy call raises ValueError when size_set > s. *)
Definition sample_nonunique_sets (draws : nat -> list nat) (t s num_sets size_set : nat)
  : result (list (list nat)) :=
  if (0 <? num_sets) && (s <? size_set) then Raise ValueError
  else Ok (map draws (seq t num_sets)).

(** sample_utility.py:22-39 [sample_unique_sets_fast].  [int(d * 1.2)] (line 28) is [6*d/5] in integer
    division (float rounding of 1.2*d not modelled). [t] counts calls of the generator. *)
Fixpoint sample_unique_loop (fuel : nat) (draws : nat -> list nat) (t s num_sets size_set : nat)
  (all_uniq : list (list nat)) : result (list (list nat)) :=
  match fuel with
  | 0 => Raise OutOfFuel
  | S fuel' =>
      let num_unique := length all_uniq in
      if num_unique <? num_sets then                                        (* line 26 *)
        let to_sample := 6 * (num_sets - num_unique) / 5 in                 (* line 28 *)
        do new_samp <- sample_nonunique_sets draws t s to_sample size_set;   (* line 29 *)
        let new_samp := map sort_nat new_samp in                            (* line 32 *)
        sample_unique_loop fuel' draws (t + to_sample) s num_sets size_set
          (unique_rows (all_uniq ++ new_samp))                              (* lines 34-37 *)
      else Ok (firstn num_sets all_uniq)                                    (* line 39 *)
  end.

(** sample_utility.py:51-59 [sample_unique_sets] for an integer [s] (lines 52-54); the float round trip of
    line 59 is the identity on the small integers involved. *)
Definition sample_unique_sets (fuel : nat) (draws : nat -> list nat) (s num_sets size_set : nat)
  : result (list (list nat)) :=
  sample_unique_loop fuel draws 0 s num_sets size_set [].
