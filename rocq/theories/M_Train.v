(** Model of the training loop of /repo/experiments/experiment_helper.py:480-800 [train_and_eval], on top of the training-data store
    ([M_Store]), the pairs of a choice ([M_Pairs]) and any selection of alternatives ([M_Select]).

    The answers of the user in iteration [i] are functions [choose i] and [rate i] of the rewards that are shown (their random draws are
    the dependence on [i]); the true utility gives a value to every row.  Selected and not shown indices are the outcome of
    [model.select], which depends on the data stored so far.  The evaluation calls of lines 674 and 787 are [M_Eval]; files, plots, the
    fit of the model and the down-selection of lines 707-725 ([M_Down]) are left out. *)
From Verif Require Import M_Base M_Pareto M_Pairs M_Select M_Store.

(** the argument [selection_type]; any other string makes the iteration do nothing (lines 727-784) *)
Inductive sel_type := Choose1 | Ranking | Rating | Switch | OtherType.
(** the argument [synth_user] (lines 397-403) *)
Inductive user_desc := Perfect | HumanChoice | OtherUser.

(** [model.add(...)] inside the loop: an exception ends the run; the silent [return] of PreferenceModel.py:241 does not *)
Definition added (r : store * status) : result store :=
  match r with (s, Done) | (s, Refused) => Ok s | (_, Raised e) => Raise e end.
(** lines 397-403 [get_synth_user] and 563: [learn_beta] exists in HumanChoiceUser (synthetic_user.py:174) and HumanChoiceUser2
    (HumanChoiceUser2.py:72), not in PerfectUser (synthetic_user.py:54-74) *)
Definition setup_user (d : user_desc) : result unit :=
  match d with Perfect => Raise AttributeError | HumanChoice => Ok tt | OtherUser => Raise UnboundLocalError end.

Section loop.
Variable t : sel_type.
Variable perfect : bool.                                   (* synth_user == 'perfect' *)
Variable u : row -> Q.                                     (* user_f.fake_f *)
Variable choose : nat -> list row -> result nat.
Variable rate : nat -> list row -> list Q.
Variable select : store -> list row -> result (list nat * list nat).

(** [rewards[idx]] *)
Definition rows_at (rewards : list row) (idx : list nat) : result (list row) := mapM (getitem rewards) idx.
(** lines 750, 748-750: add the paths that were not shown, without labels *)
Definition add_rest (rewards : list row) (rest : list nat) (s : store) : result store :=
  match rest with [] => Ok s | _ => do N <- rows_at rewards rest; added (add s N (LRel [])) end.
(** lines 694-784, one iteration; the result is the store and the entries of query_type_is_abs and query_is_correct *)
Definition iteration (i : nat) (rewards : list row) (s : store) : result (store * (Z * Z)) :=
  if length rewards <? 2 then Raise IndexError              (* lines 699-705: mins[j] for j = 0, 1, one entry per path *)
  else
  match t with
  | Choose1 =>
      do sel <- select s rewards;
      do X <- rows_at rewards (fst sel);
      do best <- choose i X;
      do s1 <- added (add s X (LRel (gen_pairs_from_idx best (seq 0 (length X)))));
      do s2 <- add_rest rewards (snd sel) s1;
      Ok (s2, (0%Z, (-1)%Z))
  | Ranking =>
      do sel <- select s rewards;
      do X <- rows_at rewards (fst sel);
      if negb perfect then Raise GenericException            (* line 743 *)
      else match generate_ranking_pairs (seq 0 (length X)) with
           | None => Raise TypeError                         (* PreferenceModel.py:189: len(None) *)
           | Some y =>
               do s1 <- added (add s X (LRel y));
               do s2 <- add_rest rewards (snd sel) s1;
               Ok (s2, (0%Z, (-1)%Z))
           end
  | Rating =>
      do sel <- select s rewards;
      do j <- getitem (fst sel) 0;
      do x <- getitem rewards j;
      do s1 <- added (add s [x] (LAbs (rate i [x])));
      Ok (s1, (1%Z, (-1)%Z))
  | Switch =>
      do sel <- select s rewards;
      do X <- rows_at rewards (fst sel);
      if length (fst sel) =? 1 then
        do s1 <- added (add s X (LAbs (rate i X)));
        Ok (s1, (1%Z, (-1)%Z))
      else
        do correct <- argmax Qlt_bool (map u X);
        do best <- choose i X;
        let y := gen_pairs_from_idx best (seq 0 (length X)) in
        do s1 <- added (add s X (LRel y));
        do p <- getitem y 0;
        Ok (s1, (0%Z, if Nat.eqb correct (snd (fst p)) then 1%Z else 0%Z))
  | OtherType => Ok (s, ((-1)%Z, (-1)%Z))
  end.
(** lines 688-796: the loop over the problems in their random order (line 685) *)
Fixpoint train (i : nat) (problems : list (list row)) (s : store) : result (store * list (Z * Z)) :=
  match problems with
  | [] => Ok (s, [])
  | rewards :: rest =>
      do r <- iteration i rewards s;
      do r' <- train (S i) rest (fst r);
      Ok (fst r', snd r :: snd r')
  end.
(** lines 543-563, 685-796: user, then loop *)
Definition experiment (d : user_desc) (problems : list (list row)) (s : store) : result (store * list (Z * Z)) :=
  do _ <- setup_user d; train 0 problems s.
End loop.
