(** Model of /repo/src/lop/active_learning/AcquisitionBase.py, AcquisitionSelection.py and AbsAcquisition.py.
    The number of samples [self.M] is the number of rows of [all_rep] and [all_Q]; nan (constant rows in [np.corrcoef]) is not
    modelled: the theorems that need it exclude constant rows. *)
From Verif Require Export M_RBase.
From Verif Require Import M_Fake M_OrdProbit M_Select M_Sampling M_PrefProbit M_Info.
Local Open Scope R_scope.

(** sums over an axis of length [n] *)
Definition sum_to (n : nat) (g : nat -> R) : R := rsum (map g (seq 0 n)).

(** * expected alignment; [f i j] is the alignment of the samples i and j, [p k a b] the probability [p_q[k, a, b]] *)
(** AcquisitionSelection.py:47-56 [quick_calculation_sum_align_q], entry (a, b) *)
Definition quick_sum (M : nat) (f : nat -> nat -> R) (p : nat -> nat -> nat -> R) (a b : nat) : R :=
  fold_left (fun s i => fold_left (fun s j => s + f i j * p i a b * p j a b) (seq 0 M) s) (seq 0 M) 0.
(** AcquisitionSelection.py:213-222: the expanded arrays [p_q_w0[i,j] = p_q[j]], [p_q_w1[i,j] = p_q[i]], [f_expand[i,j] = f[i,j]],
    multiplied and summed over both sample axes *)
Definition expand_sum (M : nat) (f : nat -> nat -> R) (p : nat -> nat -> nat -> R) (a b : nat) : R :=
  sum_to M (fun i => sum_to M (fun j => p j a b * p i a b * f i j)).
(** AcquisitionSelection.py:205-226: [E_align_q / E_p_q], [n] candidates *)
Definition pair_E (M n : nat) (f : nat -> nat -> R) (p : nat -> nat -> nat -> R) (a b : nat) : R :=
  let total := if (1000 <? Z.of_nat (M * M * n * n))%Z then quick_sum M f p a b else expand_sum M f p a b in
  total / (INR M * INR M) / (sum_to M (fun k => p k a b) / INR M).
(** AcquisitionSelection.py:232: the matrix [align_Q] handed to [pick_pair_from_metric] *)
Definition pair_align (M n : nat) (f : nat -> nat -> R) (p : nat -> nat -> nat -> R) (a b : nat) : R :=
  pair_E M n f p a b + pair_E M n f p b a.

(** AcquisitionSelection.py:126-146: the answer probabilities of one sample for the query [prev ++ [c]]; [P] is its matrix
    [likelihood_all_pairs] *)
Definition greedy_p (P : nat -> nat -> R) (prev : list nat) (c : nat) : list R :=
  let p0 := map (fun i => (if Nat.ltb 1 (length prev) then rprod (map (P (nth i prev 0%nat)) (del_nth i prev)) else 1)
                          * P (nth i prev 0%nat) c) (seq 0 (length prev))
            ++ [rprod (map (P c) prev)] in
  map (fun x => x / rsum p0) p0.
(** AcquisitionSelection.py:150-165: [align_Q] of the candidate [c]; [P k] is the matrix of sample k *)
Definition greedy_align (M : nat) (f : nat -> nat -> R) (P : nat -> nat -> nat -> R) (prev : list nat) (c : nat) : R :=
  sum_to (S (length prev)) (fun q =>
    let p k := nth q (greedy_p (P k) prev c) 0 in
    sum_to M (fun i => sum_to M (fun j => p j * p i * f i j)) / (INR M * INR M) / (sum_to M p / INR M)).
(** AcquisitionSelection.py:93-171 [select_greedy]; [trained]: the model has training data ([x_rep] is not None); [draw] is the raw
    random number.  Line 103 indexes a numpy scalar, which raises IndexError. *)
Definition acq_greedy (trained : bool) (M : nat) (f : nat -> nat -> R) (P : nat -> nat -> nat -> R) (indicies prev : list nat) (draw : nat)
  : result (nat * R) :=
  match prev, indicies with
  | [], [] => Raise ValueError                                                                (* line 103, empty choice *)
  | [], _ :: _ => Raise IndexError                                                            (* line 103 *)
  | _ :: _, _ =>
      if negb trained then
        match indicies with
        | [] => Raise ValueError
        | _ => do i <- getitem indicies (draw mod length indicies); Ok (i, 0)                  (* lines 108-110 *)
        end
      else
        let align_Q := map (greedy_align M f P prev) indicies in
        do best <- argmax Rltb align_Q;                                                       (* line 168 *)
        do v <- getitem align_Q best;
        do i <- getitem indicies best; Ok (i, v)
  end.

(** AbsAcquisition.py:58-66 [fast_sum_Q] and 44-55 [pq_integrand] for one candidate; [p k] is the density [p_q_w[k]] *)
Definition fast_sum (M : nat) (f : nat -> nat -> R) (p : nat -> R) (pbar : R) : R :=
  fold_left (fun s i => fold_left (fun s j => s + f i j * p i * p j / pbar) (seq 0 M) s) (seq 0 M) 0 / (INR M * INR M).
Definition pq_integrand (M : nat) (f : nat -> nat -> R) (p : nat -> R) : R := fast_sum M f p (sum_to M p / INR M).

(** * alignment functions *)
(** the values of [alignment_f] *)
Inductive align_kind := ARho | ALogLik | AEpic | ASpearman | AOne | AOther.
(** AcquisitionBase.py:133-135: softmax of a row *)
Definition softmax (r : list R) : list R := map (fun x => exp x / rsum (map exp r)) r.
(** AcquisitionBase.py:139: 2-norm of a difference *)
Definition dist2 (a b : list R) : R := sqrt (rsum (zipw (fun x y => (x - y) * (x - y)) a b)).
(** AcquisitionBase.py:132-141, entry [i, j] from the rows i and j *)
Definition rho_entry (ri rj : list R) : R := - dist2 (softmax rj) (softmax ri).
(** [np.corrcoef] of two rows (AcquisitionBase.py:184, 189): covariance over the two standard deviations, clipped to [-1, 1] *)
Definition rmean (x : list R) : R := rsum x / INR (length x).
Definition cov_of (x y : list R) : R :=
  rsum (zipw (fun a b => (a - rmean x) * (b - rmean y)) x y) / (INR (length x) - 1).
Definition corr (x y : list R) : R := Rmin 1 (Rmax (-1) (cov_of x y / sqrt (cov_of x x) / sqrt (cov_of y y))).
(** AcquisitionBase.py:184-185 *)
Definition epic_entry (ri rj : list R) : R := - (sqrt (1 - corr ri rj) / sqrt 2).
(** [scipy.stats.rankdata] of a row (AcquisitionBase.py:187): average ranks *)
Definition rank_of (r : list R) (x : R) : R :=
  INR (length (filter (fun y => Rltb y x) r)) + (INR (length (filter (fun y => negb (Rltb y x) && negb (Rltb x y)) r)) + 1) / 2.
Definition rankdata (r : list R) : list R := map (rank_of r) r.
(** AcquisitionBase.py:187-193 *)
Definition spearman_entry (ri rj : list R) : R := corr (rankdata ri) (rankdata rj).
(** AcquisitionBase.py:150-166: the answer probabilities of a sample for one query; [L] is its matrix [likelihood_all_pairs] *)
Definition query_p (L : nat -> nat -> R) (Qr : list nat) : list R :=
  let p0 := map (fun i => rprod (map (fun j => if Nat.eqb i j then 1 else L (nth i Qr 0%nat) (nth j Qr 0%nat)) (seq 0 (length Qr))))
                (seq 0 (length Qr)) in
  map (fun x => x / rsum p0) p0.
(** AcquisitionBase.py:148: the alternative that a sample likes best (0 for an empty query, which numpy rejects) *)
Definition best_alt (r : list R) (Qr : list nat) : nat :=
  match argmax Rltb (map (fun i => nth i r 0) Qr) with Ok b => b | Raise _ => 0%nat end.
(** AcquisitionBase.py:169-170: [g[w', w]], the log-probability that sample [r'] gives to the choices of sample [r]; [L] gives the
    matrix of a sample *)
Definition loglik_g (L : list R -> nat -> nat -> R) (Qs : list (list nat)) (r' r : list R) : R :=
  rsum (map (fun Qr => ln (nth (best_alt r Qr) (query_p (L r') Qr) 0)) Qs).
(** AcquisitionBase.py:172 *)
Definition loglik_entry (L : list R -> nat -> nat -> R) (Qs : list (list nat)) (ri rj : list R) : R :=
  loglik_g L Qs ri rj + loglik_g L Qs rj ri.
(** the matrix [likelihood_all_pairs] of a row of rewards (AcquisitionBase.py:145), probit with deviation [s] *)
Definition probit_of (s : R) (r : list R) : nat -> nat -> R := likelihood_all_pairs s (fun i => nth i r 0).
(** AcquisitionBase.py:129-198 [alignment]; [None]: the function falls through and returns python's None; [nrep] is the number of
    representative points *)
Definition align_entry (k : align_kind) (s : R) (Qs : list (list nat)) (ri rj : list R) : R :=
  match k with
  | ARho => rho_entry ri rj
  | ALogLik => loglik_entry (probit_of s) Qs ri rj
  | AEpic => epic_entry ri rj
  | ASpearman => spearman_entry ri rj
  | AOne | AOther => 1
  end.
Definition alignment (k : align_kind) (s : R) (Qs : list (list nat)) (nrep : nat) (all_rep : list (list R)) : option (list (list R)) :=
  if Nat.ltb nrep 2 then Some (map (fun _ => map (fun _ => 0) all_rep) all_rep)
  else match k with
       | AOther => None
       | _ => Some (map (fun ri => map (fun rj => align_entry k s Qs ri rj) all_rep) all_rep)
       end.
(** AcquisitionBase.py:207-248 [alignment_between] of two lists of samples of equal shapes *)
Definition alignment_between (k : align_kind) (nrep : nat) (rep1 rep2 : list (list R)) : result (option (list (list R))) :=
  if negb (Nat.eqb (length rep1) (length rep2)) then Raise GenericException                   (* line 208, number of samples *)
  else if Nat.ltb nrep 2 then Ok (Some (map (fun _ => map (fun _ => 0) rep1) rep1))
  else match k with
       | ARho | ALogLik => Raise NotImplementedError
       | AEpic => Ok (Some (map (fun r1 => map (fun r2 => epic_entry r1 r2) rep2) rep1))
       | ASpearman => Ok (Some (map (fun r1 => map (fun r2 => spearman_entry r1 r2) rep2) rep1))
       | AOne => Ok (Some (map (fun _ => map (fun _ => 1) rep1) rep1))
       | AOther => Ok None
       end.

(** * representative queries *)
(** [math.comb] (AcquisitionBase.py:95) *)
Fixpoint comb (n k : nat) : nat :=
  match n, k with _, O => 1%nat | O, S _ => O | S n', S k' => (comb n' k' + comb n' k)%nat end.
(** AcquisitionBase.py:71-76: the size of the queries; [None]: the attribute is not set *)
Definition rep_alts (num_alts : option nat) : nat :=
  match num_alts with Some 1%nat => 2%nat | Some k => k | None => 2%nat end.
(** AcquisitionBase.py:78-100: method 'sampled'; [X_train = None] is an untrained model; [pick] is the draw without replacement of
    line 93, [draws] the stream of draws of [sample_unique_sets] *)
Definition rep_sampled {A} (fuel : nat) (pick : nat -> nat -> list nat) (draws : nat -> list nat) (num_pts num_Q k : nat)
  (X_train : option (list A)) (cand : list A) : result (option (list A * list (list nat))) :=
  match X_train with
  | None => Ok None                                                                           (* lines 83-84 *)
  | Some X =>
      let X := if Nat.ltb (length X) 4 then X ++ cand else X in                               (* lines 88-90 *)
      let N := Nat.min (length X) num_pts in                                                  (* line 92 *)
      do X_pts <- mapM (getitem X) (pick (length X) N);                                       (* line 93 *)
      do Qs <- sample_unique_sets fuel draws N (Nat.min num_Q (comb N k)) k;                  (* lines 95-97 *)
      Ok (Some (X_pts, Qs))
  end.
(** [itertools.combinations(range(n), k)] starting at [s] (AcquisitionBase.py:108) *)
Fixpoint combinations (s n k : nat) : list (list nat) :=
  match n, k with
  | _, O => [[]]
  | O, S _ => []
  | S n', S k' => map (cons s) (combinations (S s) n' k') ++ combinations (S s) n' k
  end.
(** AcquisitionBase.py:102-114: method 'stable' for a file of [rows] points; an empty list of combinations is a one-dimensional
    array and [combs.shape[1]] raises IndexError (line 109) *)
Definition rep_stable (rows k : nat) : result (list (list nat)) :=
  let per_env := (rows / 10)%nat in
  match combinations 0 per_env k with
  | [] => Raise IndexError
  | combs => Ok (concat (map (fun i => map (map (fun x => (x + i * per_env)%nat)) combs) (seq 0 10)))
  end.
(** AcquisitionBase.py:46-56: [rep_Q_method] with the entries of [rep_Q_data]: the numbers of points and queries, or the points of the file *)
Inductive rep_method (A : Type) : Type := RepSampled (num_pts num_Q : nat) | RepStable (file : list A) | RepOther.
Arguments RepSampled {A}. Arguments RepStable {A}. Arguments RepOther {A}.
(** AcquisitionBase.py:69-119 [get_representative_Q] *)
Definition get_representative_Q {A} (fuel : nat) (pick : nat -> nat -> list nat) (draws : nat -> list nat) (method : rep_method A) (num_alts : option nat)
  (X_train : option (list A)) (cand : list A) : result (option (list A * list (list nat))) :=
  let k := rep_alts num_alts in
  match method with
  | RepSampled num_pts num_Q => rep_sampled fuel pick draws num_pts num_Q k X_train cand
  | RepStable file => do Qs <- rep_stable (length file) k; Ok (Some (file, Qs))
  | RepOther => Raise ValueError
  end.
