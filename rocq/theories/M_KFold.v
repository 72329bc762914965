(** Model of /repo/src/lop/utilities/training_utility.py:37-136 *)
From Verif Require Import M_Base M_Pairs.

(** python [set.add] on a duplicate-free list *)
Definition set_add (x : nat) (l : list nat) : list nat := if mem x l then l else l ++ [x].

(** training_utility.py:53-56: [conn[pair[1]].add(pair[2])] then [conn[pair[2]].add(pair[1])] *)
Definition conn_add (conn : list (list nat)) (u v : nat) : result (list (list nat)) :=
  do cu <- getitem conn u;
  Ok (set_nth u (set_add v cu) conn).
Fixpoint build_conn (conn : list (list nat)) (pairs : list pair) : result (list (list nat)) :=
  match pairs with
  | [] => Ok conn
  | (_, u, v) :: rest =>
      do c1 <- conn_add conn u v;
      do c2 <- conn_add c1 v u;
      build_conn c2 rest
  end.

(** training_utility.py:79-86, the [for shuf_idx in shuffled_idxs] loop with its [break] *)
Fixpoint fill_split (set_max_size : nat) (shuffled split selected remaining : list nat)
  : list nat * list nat * list nat :=
  match shuffled with
  | [] => (split, selected, remaining)
  | s :: rest =>
      if set_max_size <=? length split then (split, selected, remaining)             (* lines 80-81 *)
      else if negb (mem s selected) then                                             (* line 83 *)
        fill_split set_max_size rest (split ++ [s]) (s :: selected) (remove_first s remaining)
      else fill_split set_max_size rest split selected remaining
  end.

(** training_utility.py:63-86, the main loop.  [rnd t] is the t-th random integer: every value of
    [np.random.randint(0, len(remaining))] is [rnd t mod len(remaining)] for some [rnd].  [shuf t l] is the order
    in which the connected set [l] is visited after [random.shuffle] (line 75). *)
Fixpoint kfold_loop (fuel : nat) (rnd : nat -> nat) (shuf : nat -> list nat -> list nat)
  (set_max_size : nat) (conn : list (list nat)) (t : nat)
  (splits : list (list nat)) (selected remaining : list nat) : result (list (list nat)) :=
  match fuel with
  | 0 => Raise OutOfFuel
  | S fuel' =>
      match remaining with
      | [] => Ok splits                                                                 (* line 63 *)
      | _ :: _ =>
          do idx <- getitem remaining (rnd t mod length remaining);                     (* line 64 *)
          let remaining1 := remove_first idx remaining in                               (* line 65 *)
          let selected1 := idx :: selected in                                           (* line 66 *)
          let sizes := map (@length nat) splits in                                      (* line 70 *)
          let split_idx := argmin_nat sizes in                                          (* line 71 *)
          do split <- getitem splits split_idx;
          do c <- getitem conn idx;
          let shuffled := shuf t c in                                                   (* lines 75-76 *)
          let '(split', selected', remaining') :=
            fill_split set_max_size shuffled (split ++ [idx]) selected1 remaining1 in   (* lines 73, 79-86 *)
          kfold_loop fuel' rnd shuf set_max_size conn (S t)
                     (set_nth split_idx split' splits) selected' remaining'
      end
  end.

(** training_utility.py:37-91 [k_fold_x_y] on [N = X.shape[0]] points and relative pairs [y[0]];
    [Ok None] is python's [return None] (line 44). *)
Definition k_fold_x_y (rnd : nat -> nat) (shuf : nat -> list nat -> list nat)
  (N : nat) (y0 : option (list pair)) (k : nat) : result (option (list (list nat))) :=
  let k' := if N / 2 <? k then N / 2 else k in                                        (* lines 41-42 *)
  if (N / 2 <? k) && (k' <? 2) then Ok None                                           (* lines 43-44 *)
  else if k' =? 0 then Raise ZeroDivisionError                                        (* line 45 *)
  else
    let set_max_size := (N + k' - 1) / k' in                                          (* line 45 *)
    let splits := repeat [] k' in                                                     (* line 47 *)
    let conn0 := repeat [] N in                                                       (* line 48 *)
    do conn <- match y0 with None => Ok conn0 | Some pairs => build_conn conn0 pairs end; (* lines 53-60 *)
    do res <- kfold_loop (S N) rnd shuf set_max_size conn 0 splits [] (seq 0 N);
    Ok (Some (map sort_nat res)).                                                     (* lines 88-91 *)

(** training_utility.py:96-98: the dictionary [idx_mapping]; a later occurrence overwrites an earlier one *)
Fixpoint idx_mapping (i : nat) (indicies : list nat) (x : nat) : option nat :=
  match indicies with
  | [] => None
  | y :: rest => match idx_mapping (S i) rest x with
                 | Some j => Some j
                 | None => if x =? y then Some i else None
                 end
  end.

(** dictionary access [idx_mapping[x]] *)
Definition map_idx (indicies : list nat) (x : nat) : result nat :=
  match idx_mapping 0 indicies x with Some j => Ok j | None => Raise KeyError end.

(** training_utility.py:102-110, relative pairs *)
Definition get_y_pairs (indicies : list nat) (ps : list pair) : result (option (list pair)) :=
  do l <- mapM (fun p : pair => let '(d, u, v) := p in
                 do u' <- map_idx indicies u; do v' <- map_idx indicies v; Ok (d, u', v'))
               (filter (fun p : pair => let '(_, u, v) := p in mem u indicies && mem v indicies) ps);
  Ok (match l with [] => None | _ => Some l end).

(** training_utility.py:113-122 (ordinal) and 124-133 (ratings): labels [y[1][0]] with their points [y[1][1]] *)
Definition get_y_labels {A} (indicies : list nat) (y : list A * list nat) : result (option (list A * list nat)) :=
  do kept <- mapM (fun ia : nat * A => do idx <- getitem (snd y) (fst ia); Ok (snd ia, idx)) (enumerate (fst y));
  do l <- mapM (fun ai : A * nat => do j <- map_idx indicies (snd ai); Ok (fst ai, j))
               (filter (fun ai : A * nat => mem (snd ai) indicies) kept);
  Ok (match l with [] => None | _ => Some (map fst l, map snd l) end).

(** training_utility.py:93-136 [get_y_with_idx] *)
Definition on_some {A B} (o : option A) (f : A -> result (option B)) : result (option B) :=
  match o with None => Ok None | Some a => f a end.
Definition get_y_with_idx {O R} (y : option (list pair) * option (list O * list nat) * option (list R * list nat))
  (indicies : list nat) :=
  let '(y0, y1, y2) := y in
  do a <- on_some y0 (get_y_pairs indicies);
  do b <- on_some y1 (get_y_labels indicies);
  do c <- on_some y2 (get_y_labels indicies);
  Ok (a, b, c).
