(** Property C183: hyper-parameter vectors of the wrong length, and the picture of the hyper-parameters *)
From Coq Require Import Reals Lra Lia List.
From Verif Require Import M_RBase M_Util M_Kernel M_Hyper M_SetParam P_SetParam.
Import ListNotations.
Local Open Scope R_scope.

(** with enough entries every parameter gets its entry, for every sum and product of kernels; further entries are ignored *)
Theorem C183_enough : forall k theta, (length (kparam k) <= length theta)%nat -> snd (kassign k theta) = None /\ kparam (fst (kassign k theta)) = firstn (length (kparam k)) theta.
Proof.
exact kassign_enough.
Qed.
Print Assumptions C183_enough.
(** refuted: a vector that is too short leaves the parameters as they were; the call fails, and the first parameters are the new ones *)
Theorem C183_short_refuted : forall k theta, (length theta < length (kparam k))%nat -> snd (kassign k theta) = Some IndexError /\ kparam (fst (kassign k theta)) = theta ++ skipn (length theta) (kparam k).
Proof.
exact kassign_few.
Qed.
Print Assumptions C183_short_refuted.
(** the outcome is the one that the other properties of kernels use *)
Theorem C183_same : forall k theta, kset k theta = match snd (kassign k theta) with None => Ok (fst (kassign k theta)) | Some e => Raise e end.
Proof.
exact kassign_kset.
Qed.
Print Assumptions C183_same.
(** refuted: the picture of the hyper-parameters is drawn and leaves them; it is never drawn, and afterwards the kernel starts with other
    parameters *)
Theorem C183_picture_refuted : forall m k, exists m' k' rest, visualize m k None = (m', if Nat.eqb (length (kparam k)) 2 then Some TypeError else Some IndexError) /\
  h_kern m' = Some k' /\ kparam k = nth 0 (kparam k) 0 :: nth 1 (kparam k) 0 :: rest /\ kparam k' = 1 / 2 :: Rpower 10 (1 / 100) :: rest /\
  (length (kparam k) = 2%nat -> p_sigma (h_p m') = Rpower 10 (1 / 100)).
Proof.
exact visualize_fails.
Qed.
Print Assumptions C183_picture_refuted.

(** ---- examples ---- *)
Example C183_enough_example : kassign (KAdd (RBF 1 2 0) (Lin 3 4 5)) [6; 7; 8; 9; 10; 11] = (KAdd (RBF 6 7 0) (Lin 8 9 10), None).
Proof. reflexivity. Qed.
(** four numbers for five parameters: the last parameter is the old one, all others are new *)
Example C183_short_example : kassign (KAdd (RBF 1 2 0) (Lin 3 4 5)) [6; 7; 8; 9] = (KAdd (RBF 6 7 0) (Lin 8 9 5), Some IndexError) /\ (length [6; 7; 8; 9] < length (kparam (KAdd (RBF 1 2 0) (Lin 3 4 5))))%nat.
Proof. split; [reflexivity|cbn; lia]. Qed.
Example C183_picture_example : forall m, exists m', visualize m (RBF 1 (7 / 10) 0) None = (m', Some TypeError) /\ h_kern m' = Some (RBF (1 / 2) (Rpower 10 (1 / 100)) 0) /\ p_sigma (h_p m') = Rpower 10 (1 / 100).
Proof. intro m. eexists. repeat split. Qed.
