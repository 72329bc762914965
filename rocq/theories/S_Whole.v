(** Specification vocabulary for whole histories of a preference GP: the data a user has given, and the prediction from the mode of all of it. *)
From Coq Require Import QArith Qreals.
From Coq Require Import Reals List.
From Verif Require Import M_RBase M_Pareto M_Store M_Kernel M_GP M_Mode M_Whole S_PrefProbit S_Kernel S_GP S_Fit S_Mode S_Psd.
Import ListNotations.
Local Open Scope R_scope.

(** the history consists of comparisons between points given together, resets and predictions *)
Definition comparisons (l : list call) : Prop :=
  forall k, In k l -> match k with
                      | CStore (OAdd X (LRel y)) => well_formed (length X) y
                      | CStore OReset | CPredict _ _ => True
                      | _ => False
                      end.
(** the points and the comparisons given since the last reset; comparisons name points by their position among all points *)
Definition later (n : nat) (p : pair) : pair := (fst (fst p), (n + u_of p)%nat, (n + v_of p)%nat).
Fixpoint given_from (X : list row) (r : list pair) (l : list call) : list row * list pair :=
  match l with
  | [] => (X, r)
  | CStore (OAdd X' (LRel y)) :: l' => given_from (X ++ X') (r ++ map (later (length X)) y) l'
  | CStore OReset :: l' => given_from [] [] l'
  | _ :: l' => given_from X r l'
  end.
Definition given (l : list call) : list row * list pair := given_from [] [] l.
Definition given_pts (l : list call) : list point := map (map Q2R) (fst (given l)).
(** covariance of the given points under the prior *)
Definition prior_cov (k : kern) (Y : list point) : nat -> nat -> R := train_cov k Y nil.
(** predicted mean at [x] from the latent values [F] of the points [Y]: k(x, Y) B F, where [B] is the inverse of their covariance *)
Definition gp_mean (k : kern) (Y : list point) (B : nat -> nat -> R) (F : nat -> R) (x : point) : R :=
  sumn (length Y) (fun a => sumn (length Y) (fun b => kcall k x (pt Y a) * B a b * F b)).
(** how far from that the prediction may be: [d] is the tolerance of the fit *)
Definition accuracy (s : R) (k : kern) (Y : list point) (r : list pair) (B : nat -> nat -> R) (d : R) (x : point) : R :=
  (1 + 32 / 3 * (1 + load s (prior_cov k Y) r)) * (sqrt (noisy k x x) * sqrt (abs_sum (length Y) B) * d).
(** the fit of the object ended before its limit of loops, away from clipping *)
Definition fitted_well (c : gp_config) (r : list pair) (o : gp_object) : Prop :=
  match o_fit o with
  | None => False
  | Some f => (f_loops f <= c_maxloops c)%nat /\ unclipped_near (p_sigma (ps_p (c_P c))) r (length (f_F f)) (c_delta_f c) (f_F f)
  end.
(** parameters in their documented range, a kernel that is a covariance, an inversion routine that works *)
Definition good_config (dm : nat) (c : gp_config) : Prop :=
  good_probits (c_sp c) (c_P c) /\ 0 < p_sigma (ps_p (c_P c)) /\ S_Kernel.valid dm (c_k c) /\ periodic_1d dm (c_k c) /\ inverts_all (c_inv c) /\ 0 <= c_delta_f c.
(** histories of rated and of graded points, given in batches *)
Definition rated_batches (bs : list (list row * list Q)) : list call := map (fun b => CStore (OAdd (fst b) (LAbs (snd b)))) bs.
Definition graded_batches (bs : list (list row * list Z)) : list call := map (fun b => CStore (OAdd (fst b) (LOrd (snd b)))) bs.
Definition batch_pts {A} (bs : list (list row * list A)) : list point := map (map Q2R) (concat (map fst bs)).
(** the labels of all batches: the i-th label belongs to the i-th point, ratings are kept away from 0 and 1 *)
Definition rated (v : list Q) : M_Fit.labels := mkLabels None None (Some (combine (map (fun q => Rmin (999 / 1000) (Rmax (1 / 1000) (Q2R q))) v) (seq 0 (length v)))).
Definition graded (y : list Z) : M_Fit.labels := mkLabels None (Some (combine (map Z.to_nat y) (seq 0 (length y)))) None.
(** [r] is predicted from a fit to the labels [y] of the points [Y] *)
Definition predicted_from (c : gp_config) (Y : list point) (y : M_Fit.labels) (Q : list point) (r : list R * list R) : Prop :=
  exists K W F loops draw, kcov (c_k c) Y Y = Ok K /\
    fit_mode (c_sp c) (c_P c) y (length Y) (mat_at K) (c_inv c) (c_delta_f c) (c_maxloops c) (map draw (seq 0 (length Y))) = Ok (loops, F) /\
    pgp_predict (c_inv' c) (c_k c) (Some (Build_pgp_data Y F W K)) Q = Ok r.
