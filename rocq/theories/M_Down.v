(** Model of the down-selection of /repo/experiments/experiment_helper.py:447-474 and 707-725: problems with many paths are reduced before
    alternatives are selected.

    Random draws, the medoids of sklearn_extra's KMedoids and the hull of scipy's ConvexHull are arguments that give positions.
    [KMedoids(n_clusters=k).fit(X).cluster_centers_] are the rows of [X] at [k] medoids; it raises ValueError when [k] is zero or more
    than the number of rows. *)
From Verif Require Import M_Base M_Select.

(** the argument [use_kmedoid] (lines 707-721); its default is the boolean True, which equals none of the strings *)
Inductive down_mode := DMedoids (* 'True' or 'true' *) | DUniform (* 'uni' *) | DHull (* 'downhull' *) | DMedRand (* 'medrand' *)
  | DDefault (* True *) | DOther.

Section down.
Context {A : Type}.
Variable medoids : nat -> list A -> list nat.
Variable hull : list A -> list nat.
Variable draw : nat -> nat -> list nat.                   (* np.random.choice(n, k, replace=False) *)

(** [X[idx]] *)
Definition take_rows (X : list A) (idx : list nat) : result (list A) := mapM (getitem X) idx.
Definition kmedoids (k : nat) (X : list A) : result (list A) :=
  if (k =? 0) || (length X <? k) then Raise ValueError else take_rows X (medoids k X).
(** [list(set(range(n)) - set(idx))], in increasing order *)
Definition others (n : nat) (idx : list nat) : list nat := diff (seq 0 n) idx.
(** lines 447-463 [downsample_hull] *)
Definition downsample_hull (X : list A) (num : nat) : result (list A) :=
  let h := hull X in
  do H <- take_rows X h;
  if length h <? num then
    do N <- take_rows X (others (length X) h);
    do C <- kmedoids (num - length h) N;
    Ok (H ++ C)
  else kmedoids num H.
(** lines 465-474 [downsample_kmed_rand] with kmed_pct=0.5 *)
Definition downsample_kmed_rand (X : list A) (num : nat) : result (list A) :=
  let num_kmed := num / 2 in
  let r := draw (length X) (num - num_kmed) in
  do N <- take_rows X (others (length X) r);
  do C <- kmedoids num_kmed N;
  do Rr <- take_rows X r;
  Ok (C ++ Rr).
(** lines 707-725; [num] is config['downselect_num'] *)
Definition down_select (m : down_mode) (num : nat) (X : list A) : result (list A) :=
  match m with
  | DMedoids => if num <? length X then kmedoids 60 X else Ok X
  | DUniform => if num <? length X then take_rows X (draw (length X) num) else Ok X
  | DHull => if num <? length X then downsample_hull X num else Ok X
  | DMedRand => if num <? length X then downsample_kmed_rand X num else Ok X
  | DDefault | DOther => Ok X
  end.
End down.
