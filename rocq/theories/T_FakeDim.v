(** Property C126, any number of dimensions: the table of FakeIntegrate *)
From Verif Require Import M_Base M_RBase M_Fake2 M_FakeDim S_Psd P_FakeDim.
From Coq Require Import Reals Lra Lia List.
Import ListNotations.
Local Open Scope R_scope.

(** the double loop leaves in every entry the sum over the first two coordinates; further coordinates have no influence *)
Theorem C126_dims : forall n dim g, (2 <= dim)%nat -> exists vals, integrate_nd n dim (fun x y => Ok (g x y)) = Ok vals /\
  forall i j rest, (i < n)%nat -> (j < n)%nat ->
    vals (i :: j :: rest) = sumn i (fun a => sumn j (fun b => g (INR (S a) * (5 / 100)) (INR (S b) * (5 / 100)))) * (5 / 100).
Proof. exact sums_nd. Qed.
Print Assumptions C126_dims.
Example C126_dims_ex : exists vals, integrate_nd 3 2 (fun x y => Ok (x + y)) = Ok vals /\ vals [1%nat; 2%nat] = (1 / 10 + 3 / 20) * (5 / 100).
Proof.
  destruct (C126_dims 3 2 Rplus) as [v [E D]]; [lia|]. exists v. split; [exact E|]. rewrite D by lia. cbn [sumn INR]. lra.
Qed.
(** the volume below the constant one over a box does not grow with the third side *)
Theorem C126_volume_refuted : forall n, (2 <= n)%nat -> exists vals, integrate_nd n 3 (fun _ _ => Ok 1) = Ok vals /\
  vals [1%nat; 1%nat; 0%nat] = 5 / 100 /\ vals [1%nat; 1%nat; 1%nat] = 5 / 100.
Proof. exact no_volume. Qed.
Print Assumptions C126_volume_refuted.
Theorem C126_few_refuted : forall n dim f, (2 <= n)%nat -> (dim < 2)%nat -> integrate_nd n dim f = Raise IndexError.
Proof. exact few_dims. Qed.
Print Assumptions C126_few_refuted.
(** a function that does not take two coordinates makes the constructor fail *)
Theorem C126_bad_function : forall n dim f e, (2 <= n)%nat -> (2 <= dim)%nat -> f (5 / 100) (5 / 100) = Raise e -> integrate_nd n dim f = Raise e.
Proof. exact bad_function. Qed.
Print Assumptions C126_bad_function.
Example C126_bad_function_ex : integrate_nd 204 4 (fun _ _ => Raise ValueError) = Raise ValueError /\ integrate_nd 204 1 (fun x y => Ok (x + y)) = Raise IndexError.
Proof. split; [apply C126_bad_function; [lia|lia|reflexivity]|apply C126_few_refuted; lia]. Qed.
