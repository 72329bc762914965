(** C172, continued: gradients of kernels for plain numbers. *)
From Coq Require Import Reals Lra Lia List.
From Verif Require Import M_Base M_RBase M_Kernel M_OneD M_OneDGrad S_OneD P_OneD P_OneDGrad.
Import ListNotations.
Local Open Scope R_scope.

(** any history of calls of [cov] and [cov_gradient] with arrays whose points have the same number of coordinates *)
Theorem C172_gradients : forall d k, zeros_fit d k -> forall calls, (forall X Y, In (CallCov X Y) calls \/ In (CallGrad X Y) calls -> holds d X /\ holds d Y) ->
  kops k calls = map (fun c => match c with CallCov X Y => inl (kcov k (arr_rows X) (arr_rows Y)) | CallGrad X Y => inr (kcov_grad k (arr_rows X) (arr_rows Y)) end) calls.
Proof.
exact kops_same.
Qed.
Print Assumptions C172_gradients.
(** refuted: numbers and points with two coordinates are told apart; the number is taken as a point with equal coordinates *)
Theorem C172_gradient_mixture_refuted : forall s l x y1 y2, rbf_grad_arr s l (Arr1 [x]) (Arr2 2 [[y1; y2]]) = Ok (rbf_cov_grad s l [[x; x]] [[y1; y2]]).
Proof.
exact rbf_grad_mixed.
Qed.
Print Assumptions C172_gradient_mixture_refuted.
Example C172_gradients_ex : kops (KMul (ZRBF 1 1 0 None) (Lin 1 0 0)) [CallGrad (Arr1 [1; 2]) (Arr2 1 [[3]]); CallCov (Arr1 [1]) (Arr1 [3])] =
  [inr (kcov_grad (KMul (ZRBF 1 1 0 None) (Lin 1 0 0)) [[1]; [2]] [[3]]); inl (kcov (KMul (ZRBF 1 1 0 None) (Lin 1 0 0)) [[1]] [[3]])].
Proof.
apply (kops_same 1); [cbn; auto|]. intros X Y [[I|[[= <- <-]|[]]]|[[= <- <-]|[I|[]]]]; try discriminate; split; (split; [reflexivity|]); repeat constructor.
Qed.
