(** Model of /repo/src/lop/utilities/pareto.py *)
From Verif Require Import M_Base.

(** A row of [values] (numpy (n,k)); all rows of one matrix have the same length. *)
Definition row : Type := list Q.

(** pareto.py:41, one row of [np.any(values > values[next], axis=1)] *)
Fixpoint any_gt (r p : row) : bool :=
  match r, p with
  | x :: r', y :: p' => Qlt_bool y x || any_gt r' p'
  | _, _ => false
  end.

(** pareto.py:40-45, the while loop.  [fuel] bounds the number of iterations; [None] = out of fuel. *)
Fixpoint pareto_loop (fuel : nat) (is_efficient : list nat) (values : list row) (next : nat)
  : option (list nat) :=
  match fuel with
  | 0 => None
  | S fuel' =>
      match nth_error values next with
      | None => Some is_efficient                                   (* line 40: loop test fails *)
      | Some p =>
          let mask0 := map (fun r => any_gt r p) values in          (* line 41 *)
          let mask := set_nth next true mask0 in                    (* line 42 *)
          pareto_loop fuel'
            (mask_filter mask is_efficient)                         (* line 43 *)
            (mask_filter mask values)                               (* line 44 *)
            (count_true (firstn next mask) + 1)                     (* line 45 *)
      end
  end.

(** pareto.py:36-51 [get_pareto] with return_mask=False *)
Definition get_pareto (fuel : nat) (values : list row) : option (list nat) :=
  pareto_loop fuel (seq 0 (length values)) values 0.

(** pareto.py:46-49 [get_pareto] with return_mask=True *)
Definition get_pareto_mask (fuel : nat) (values : list row) : option (list bool) :=
  match get_pareto fuel values with
  | None => None
  | Some idx => Some (fold_left (fun m i => set_nth i true m) idx (repeat false (length values)))
  end.
