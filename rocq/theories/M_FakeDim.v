(** Model of the table of FakeIntegrate for any number of dimensions, /repo/src/lop/utilities/FakeFunction.py:324-351, as the double
    loop that fills it.  Numbers are real; an array is a function of its index vector. *)
From Verif Require Import M_Base M_RBase M_Fake2.
From Coq Require Import Reals List.
Import ListNotations.
Local Open Scope R_scope.

(** FakeFunction.py:340: [np.zeros((len(ticks),) * self.dim)] *)
Definition zeros_nd : list nat -> R := fun _ => 0.
(** FakeFunction.py:345: the assignment to [vals[i, j]]; in more than two dimensions [vals[i, j]] is a subarray, and the number of
    the right-hand side is added to each of its entries *)
Definition set_slab (vals : list nat -> R) (i j : nat) (x : list nat -> R) : list nat -> R :=
  fun ix => match ix with
            | a :: b :: rest => if andb (Nat.eqb a i) (Nat.eqb b j) then x rest else vals ix
            | _ => vals ix
            end.
(** FakeFunction.py:345: one round of the loop; [f] is [self.fc.calc] of the point made of two ticks, which may fail *)
Definition slab_step (f : R -> R -> result R) (vals : list nat -> R) (ij : nat * nat) : result (list nat -> R) :=
  let (i, j) := ij in
  do y <- f (tick i) (tick j);
  Ok (set_slab vals i j (fun rest => vals ((i - 1)%nat :: j :: rest) + vals (i :: (j - 1)%nat :: rest)
                                     - vals ((i - 1)%nat :: (j - 1)%nat :: rest) + y * grid_size)).
(** FakeFunction.py:343-344: the rounds in order, [n] is [len(ticks)] *)
Definition rounds (n : nat) : list (nat * nat) := concat (map (fun i => map (fun j => (i, j)) (seq 1 (n - 1))) (seq 1 (n - 1))).
(** FakeFunction.py:326-348: the table for [n] ticks in [dim] dimensions.  An array of less than two dimensions cannot be indexed by
    two numbers, which shows in the first round, before [fc] is called *)
Definition integrate_nd (n dim : nat) (f : R -> R -> result R) : result (list nat -> R) :=
  fold_left (fun acc ij => do vals <- acc; if Nat.ltb dim 2 then Raise IndexError else slab_step f vals ij) (rounds n) (Ok zeros_nd).
