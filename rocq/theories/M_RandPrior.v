(** Model of the points made by add_prior with method='random' (/repo/src/lop/models/PreferenceModel.py:75-103), in exact arithmetic.
    [bounds] has one pair (lower, upper) for each dimension, [draws] one row of numbers for each point. *)
From Verif Require Import M_Base M_Pareto M_Store.
Local Open Scope Q_scope.

(** PreferenceModel.py:81-85: one point, [draw * scaler + bias] *)
Fixpoint scale_draw (u : row) (bounds : list (Q * Q)) : row :=
  match u, bounds with
  | x :: u', (lo, hi) :: b' => (x * (hi - lo) + lo) :: scale_draw u' b'
  | _, _ => []
  end.
(** PreferenceModel.py:84-90: with more than two points the first two are the corners of the box *)
Definition random_pts (bounds : list (Q * Q)) (draws : list row) : list row :=
  match map (fun u => scale_draw u bounds) draws with
  | _ :: _ :: p :: pts => map fst bounds :: map snd bounds :: p :: pts
  | pts => pts
  end.
(** PreferenceModel.py:75-103 [add_prior] with method='random' *)
Definition random_prior (s : store) (bounds : list (Q * Q)) (draws : list row) : store * status := add_prior s (random_pts bounds draws).
