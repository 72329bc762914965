(** Model of /repo/src/lop/utilities/pareto.py and of BestLearner.py for arrays with infinities and NaN.  The definitions are those of
    [M_Pareto] and [M_Select] with numpy's comparisons of special values; finite entries are rationals. *)
From Coq Require Import List QArith Arith Bool.
From Verif Require Import M_Base M_Select.
Import ListNotations.

(** an entry of a float array *)
Inductive xval := XNum (q : Q) | XPInf | XNInf | XNaN.
(** [x > y]; every comparison with NaN is False (pareto.py:41) *)
Definition xgt (x y : xval) : bool :=
  match x, y with
  | XNaN, _ | _, XNaN => false
  | XNum a, XNum b => Qlt_bool b a
  | XPInf, XPInf => false
  | XPInf, _ => true
  | _, XPInf => false
  | XNInf, _ => false
  | _, XNInf => true
  end.
(** pareto.py:41, one row of [np.any(values > values[next], axis=1)] *)
Fixpoint xany_gt (r p : list xval) : bool :=
  match r, p with
  | x :: r', y :: p' => xgt x y || xany_gt r' p'
  | _, _ => false
  end.
(** pareto.py:40-45, the while loop; [None] = out of fuel *)
Fixpoint xpareto_loop {A} (fuel : nat) (is_efficient : list A) (values : list (list xval)) (next : nat) : option (list A) :=
  match fuel with
  | 0 => None
  | S fuel' =>
      match nth_error values next with
      | None => Some is_efficient                                                (* line 40: loop test fails *)
      | Some p =>
          let mask := set_nth next true (map (fun r => xany_gt r p) values) in   (* lines 41-42 *)
          xpareto_loop fuel' (mask_filter mask is_efficient) (mask_filter mask values)   (* lines 43-44 *)
            (count_true (firstn next mask) + 1)                                  (* line 45 *)
      end
  end.
(** pareto.py:36-51 [get_pareto] with return_mask=False *)
Definition get_pareto_x (fuel : nat) (values : list (list xval)) : option (list nat) := xpareto_loop fuel (seq 0 (length values)) values 0.

(** [np.isnan] *)
Definition is_nan (x : xval) : bool := match x with XNaN => true | _ => false end.
(** what [np.argmax] and [np.argmin] (BestLearner.py:49, 70) take for larger and smaller: the first NaN beats everything *)
Definition max_ltb (best x : xval) : bool := negb (is_nan best) && (is_nan x || xgt x best).
Definition min_ltb (best x : xval) : bool := negb (is_nan best) && (is_nan x || xgt best x).
(** BestLearner.py:43-49 and 64-70 (WorstLearner) [select_greedy], [mu] with special values *)
Definition best_greedy_x (enum : nat -> list nat -> list nat) (mu : list xval) : nat -> list nat -> list nat -> result nat :=
  fun k idx _ => pick_extreme max_ltb (getitem mu) (enum k idx).
Definition worst_greedy_x (enum : nat -> list nat -> list nat) (mu : list xval) : nat -> list nat -> list nat -> result nat :=
  fun k idx _ => pick_extreme min_ltb (getitem mu) (enum k idx).
