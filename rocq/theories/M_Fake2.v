(** Model of the remaining reward functions: FakeSinExp, FakeStaticSin and FakeIntegrate of /repo/src/lop/utilities/FakeFunction.py.
    Numbers are real. *)
From Verif Require Import M_Base M_RBase.
From Coq Require Import Reals.
Local Open Scope R_scope.

(** FakeFunction.py:286-293 [FakeStaticSin.calc] for one number *)
Definition static_sin (r : R) : R := let x := 10 - r in 2 * cos (PI * (x - 2) / 3) * exp (- (99 / 100 * x)).
(** FakeFunction.py:224-243 [FakeSinExp.randomize] and [calc] for one point, weights [w], raw frequencies [k], phase [phase]; the
    two sums are [np.dot] of vectors of one length *)
Definition sin_exp (w k : list R) (phase : R) (x : list R) : R :=
  let dot v := rsum (map (fun ab : R * R => fst ab * snd ab) (combine x v)) in
  sin (dot (map (fun c => c / rsum k) k) + phase) * exp (- dot w).
(** FakeFunction.py:337-338: [grid_size] and the tick [i] of [np.arange(0, 10.2, grid_size)] *)
Definition grid_size : R := 5 / 100.
Definition tick (i : nat) : R := INR i * grid_size.
(** FakeFunction.py:340-345: entry (i, j) of [vals]; row and column 0 stay zero *)
Fixpoint integrate_vals (f : R -> R -> R) (i : nat) : nat -> R :=
  match i with
  | O => fun _ => 0
  | S i' =>
      fix row (j : nat) : R :=
        match j with
        | O => 0
        | S j' => integrate_vals f i' j + row j' - integrate_vals f i' j' + f (tick i) (tick j) * grid_size
        end
  end.
(** FakeFunction.py:326-348: the constructor for a function [f] of two numbers, in one or two dimensions; the grid has 204 ticks.  An
    array [vals] of one dimension cannot be indexed by two numbers.  Any number of dimensions is in M_FakeDim. *)
Inductive grid_dim := OneD | TwoD.
Definition integrate_init (dim : grid_dim) (f : R -> R -> R) : result (nat -> nat -> R) :=
  match dim with TwoD => Ok (integrate_vals f) | OneD => Raise IndexError end.
(** FakeFunction.py:350-351 [calc] of an object made for [f], for one row of rewards *)
Definition integrate_calc (vals : nat -> nat -> R) (row : list R) : result R := getitem row 0.
