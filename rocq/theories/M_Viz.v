(** Model of /repo/experiments/GP_visualization.py: the data behind the pictures of a run.

    Only what is computed is modelled, not how matplotlib draws it.  The pictures of a model are drawn for utilities of two rewards (line
    15), so that points are pairs of numbers.  Arithmetic is exact; [None] is a missing value (NaN). *)
From Verif Require Import M_Base M_RBase M_Pairs M_Store.
Local Open Scope R_scope.

(** [np.linspace(a, b, n)] (lines 18-19) *)
Definition linspace (a b : R) (n : nat) : list R := map (fun i => a + INR i * ((b - a) / INR (n - 1))) (seq 0 n).
(** [np.meshgrid(x, y)] (line 21): the rows of [X] are all [x], row [i] of [Y] repeats [y[i]] *)
Definition mesh_X (x y : list R) : list (list R) := map (fun _ => x) y.
Definition mesh_Y (x y : list R) : list (list R) := map (fun v => map (fun _ => v) x) y.
(** line 22 *)
Definition grid_pts (x y : list R) : list (R * R) := combine (concat (mesh_X x y)) (concat (mesh_Y x y)).
(** [bounds] of line 12: its default value *)
Definition default_bounds : (R * R) * (R * R) := ((0, 0), (2, 2)).
(** lines 17-22 for [num_side] points per side: the first entry of [bounds] is read as the range of the first reward *)
Definition record_pts (bounds : (R * R) * (R * R)) (num_side : nat) : list (R * R) :=
  grid_pts (linspace (fst (fst bounds)) (snd (fst bounds)) num_side) (linspace (fst (snd bounds)) (snd (snd bounds)) num_side).

(** [np.reshape(l, (rows, cols))] (lines 72-73) *)
Fixpoint cut {A} (rows cols : nat) (l : list A) : list (list A) :=
  match rows with O => [] | S r => firstn cols l :: cut r cols (skipn cols l) end.
Definition reshape {A} (rows cols : nat) (l : list A) : result (list (list A)) :=
  if Nat.eqb (length l) (rows * cols) then Ok (cut rows cols l) else Raise ValueError.

(** lines 26-27: division by the largest absolute value; 0 / 0 is missing *)
Definition max_abs (l : list R) : R := rmax1 0 (map Rabs l).
Definition scale_fake (l : list R) : list (option R) :=
  map (fun x => if Req_EM_T (max_abs l) 0 then None else Some (x / max_abs l)) l.

(** lines 86-89: the points shown, [GP_pts[GP_prior_idx[1]:]] *)
Definition shown {A} (GP_pts : option (list A)) (GP_prior_idx : option (Z * Z)) : list A :=
  let b := match GP_prior_idx with None => 0%Z | Some (_, b) => b end in
  match GP_pts with None => [] | Some X => slice X b (Z.of_nat (length X)) end.

(** [p + t * (q - p)] for points (lines 113-119) *)
Definition between (p q : R * R) (t : R) : R * R := (fst p + (fst q - fst p) * t, snd p + (snd q - snd p) * t).
(** what is drawn for a pair: the ends of the line (lines 115-116), and tail ([xytext]) and head ([xy]) of the arrow (lines 117-119) *)
Record arrow := mkArrow { line_from : R * R; line_to : R * R; atail : R * R; ahead : R * R }.
(** lines 102-123 *)
Definition draw_pair (GP_pts : list (R * R)) (p : pair) : result arrow :=
  let '(label, i1, i2) := p in
  let larger_first := Z.eqb label (get_dk 1 0) in                               (* line 103 *)
  let lg_idx := if larger_first then i1 else i2 in
  let sm_idx := if larger_first then i2 else i1 in
  do sm_pt <- getitem GP_pts sm_idx;                                           (* line 109 *)
  do lg_pt <- getitem GP_pts lg_idx;                                           (* line 110 *)
  Ok (mkArrow sm_pt lg_pt (between sm_pt lg_pt (1 / 2)) (between sm_pt lg_pt (1 / 2 + 1 / 1000))).

(** lines 146-148, 159-164: lower end, middle and upper end of the band for one iteration; the mean of no value is missing *)
Definition row_mean (l : list R) : R := rsum l / INR (length l).
Definition row_std (l : list R) : R := sqrt (row_mean (map (fun x => (x - row_mean l) ^ 2) l)).
Definition band (l : list R) : option (R * R * R) :=
  match l with
  | [] => None
  | _ => let e := row_std l / sqrt (INR (length l)) in Some (row_mean l - 1 * e, row_mean l, row_mean l + 1 * e)
  end.
