(** Model of [optimize] with optimize_hyperparameter=True and of the predictions afterwards: /repo/src/lop/models/PreferenceGP.py:290-338,
    370-430 and 97-149.  What is followed is which data the fitted attributes belong to and whether the model counts as optimised. *)
From Verif Require Export M_HyperGrad M_HyperRun M_Mode.
From Verif Require Import M_RBase M_Kernel M_Hyper.
Local Open Scope R_scope.

(** settings which do not change: special functions, [eps] of the rating probit, invert_function where it may fail (line 253) and where
    not (lines 138, 540), delta_f and maxloops (lines 87-88), the gamma function *)
Record hconfig := mkHC { hc_sp : special; hc_eps : R; hc_inv : nat -> (nat -> nat -> R) -> option (nat -> nat -> R);
  hc_inv' : nat -> (nat -> nat -> R) -> nat -> nat -> R; hc_delta_f : R; hc_maxloops : nat; hc_gamma : R -> R }.
(** the attributes: hyper-parameters, self.F, self.W, self.K of the last find_mode, self.optimized.  [LMixed]: find_mode raised after it
    had assigned self.K (line 221), the attributes come from different calls and are not followed *)
Record hfit := mkHFit { hf_F : list R; hf_W : matrix; hf_K : matrix }.
Inductive left_over := LNone | LFit (f : hfit) | LMixed.
Record hobject := mkHO { ho_m : hmodel; ho_fit : left_over; ho_optimized : bool }.
(** PreferenceGP.py:218-288 [find_mode] on points [X] and labels [y]; [draw] are the numbers of line 223 *)
Definition fit_points (c : hconfig) (m : hmodel) (X : list point) (y : labels) (draw : nat -> R) : result hfit :=
  match h_kern m with
  | None => Raise AttributeError
  | Some k =>
      let n := length X in
      do K <- kcov k X X;
      do r <- fit_mode (hc_sp c) (probits_of (hc_eps c) m) y n (mat_at K) (hc_inv c) (hc_delta_f c) (hc_maxloops c) (map draw (seq 0 n));
      do d <- derivatives (hc_sp c) (probits_of (hc_eps c) m) y (entries (snd r));
      Ok (mkHFit (snd r) (to_matrix n (fst (fst d))) K)
  end.
(** one pass of the inner loop (lines 304-325): the training part of the data, which k_fold_x_y and get_y_with_idx have chosen, and
    the random numbers *)
Record search_call := mkCall { sc_X : list point; sc_y : labels; sc_draw : nat -> R; sc_d : draws }.
(** lines 318-324: find_mode on the training part, then hyperparameter_search (lines 370-430), which marks the model as optimised
    first (line 372).  The state is returned in any case, with the exception that left the loop.  If a call raises, parameters it may
    have written are not followed *)
Definition search_once (c : hconfig) (X : list point) (y : labels) (o : hobject) (s : search_call) : hobject * option exn :=
  match fit_points c (ho_m o) (sc_X s) (sc_y s) (sc_draw s) with
  | Raise e => (mkHO (ho_m o) LMixed (ho_optimized o), Some e)
  | Ok f =>
      let o1 := mkHO (ho_m o) (LFit f) true in
      match hyperparamter_obj_grad (hc_sp c) (hc_eps c) (hc_inv' c) (ho_m o) (mkFold (sc_X s) (hf_F f) (hf_K f) (sc_y s)) X y (get_hyper (ho_m o)) with
      | Raise e => (o1, Some e)
      | Ok grad =>
          match update_hyper (hc_gamma c) (ho_m o) grad (sc_d s) with
          | Raise e => (o1, Some e)
          | Ok m' => (mkHO m' (LFit f) true, None)
          end
      end
  end.
Fixpoint search_all (c : hconfig) (X : list point) (y : labels) (o : hobject) (l : list search_call) : hobject * option exn :=
  match l with
  | [] => (o, None)
  | s :: l' => match search_once c X y o s with
               | (o', Some e) => (o', Some e)
               | (o', None) => search_all c X y o' l'
               end
  end.
(** PreferenceGP.py:290-338: the parameters are drawn (line 298), the calls of the inner loop are made (how many is decided by the loop of
    M_Search), and the mode is found for all data (lines 337-338) *)
Definition optimize_hyper (c : hconfig) (X : list point) (y : labels) (o : hobject) (d : draws) (l : list search_call) (draw : nat -> R) : hobject * option exn :=
  match randomize_hyper (ho_m o) d with
  | Raise e => (o, Some e)
  | Ok m1 =>
      match search_all c X y (mkHO m1 (ho_fit o) (ho_optimized o)) l with
      | (o1, Some e) => (o1, Some e)
      | (o1, None) =>
          match fit_points c (ho_m o1) X y draw with
          | Raise e => (mkHO (ho_m o1) LMixed (ho_optimized o1), Some e)
          | Ok f => (mkHO (ho_m o1) (LFit f) true, None)
          end
      end
  end.
(** PreferenceGP.py:97-149 [predict] with stored data [X_train] of an optimised model: line 134 multiplies a matrix with one column per
    stored point by a vector with one entry per fitted point.  [None]: the attributes come from different calls *)
Definition predict_with (c : hconfig) (X_train : list point) (o : hobject) (X : list point) : option (result (list R * list R)) :=
  match ho_fit o, h_kern (ho_m o) with
  | LNone, _ => Some (Raise AttributeError)
  | LMixed, _ => None
  | LFit f, None => Some (Raise AttributeError)
  | LFit f, Some k =>
      Some (if Nat.eqb (length (hf_F f)) (length X_train)
            then pgp_predict (hc_inv' c) k (Some (Build_pgp_data X_train (hf_F f) (hf_W f) (hf_K f))) X
            else Raise ValueError)
  end.
(** predict with use_hyper_optimization (lines 106-108): optimise only if not marked as optimised *)
Definition lazy_predict (c : hconfig) (X_train : list point) (y : labels) (o : hobject) (X : list point) (d : draws) (l : list search_call) (draw : nat -> R)
  : hobject * option (result (list R * list R)) :=
  if ho_optimized o then (o, predict_with c X_train o X)
  else match optimize_hyper c X_train y o d l draw with
       | (o', Some e) => (o', Some (Raise e))
       | (o', None) => (o', predict_with c X_train o' X)
       end.
