(** A zeroed kernel used with points of different numbers of coordinates. *)
From Coq Require Import Reals Lra Lia List.
From Verif Require Import M_Base M_RBase M_Kernel M_Acq M_GP M_OneD S_OneD S_Kernel P_Kernel.
Import ListNotations.
Local Open Scope R_scope.

(** the zeroed kernel keeps the zero point of its first call *)
Lemma first_use : exists M1 M2, kcalls (ZRBF 1 1 0 None) [(Arr2 2 [[0; 0]; [1; 1]], Arr2 2 [[0; 0]; [1; 1]]); (Arr1 [1; 2], Arr1 [1; 2])] = [M1; Ok M2] /\
  exists M3, kcov (ZRBF 1 1 0 None) (column [1; 2]) (column [1; 2]) = Ok M3 /\ mat_at M2 0 1 <> mat_at M3 0 1.
Proof.
  cbn [kcalls kcov_arr lazy_zero getitem nth_error bind repeat].
  unfold zero_cov_arr, rbf_cov_arr, bcast; cbn [width length arr_rows map Nat.eqb bind fst snd stretch repeat].
  unfold rbf_cov; cbn [length Nat.eqb getitem nth_error bind].
  rewrite (proj2 (point_eqb_true [0; 0] [0; 0] eq_refl) eq_refl), (proj2 (point_eqb_true [1] [1] eq_refl) eq_refl). cbn [bind].
  eexists _, _; split; [reflexivity|].
  cbn [kcov column map]. unfold zero_cov, rbf_cov; cbn [length Nat.eqb getitem nth_error bind zero_of repeat].
  rewrite (proj2 (point_eqb_true [1] [1] eq_refl) eq_refl). cbn [bind].
  eexists; split; [reflexivity|].
  unfold mat_at, pairwise, mat2, map2, add_eye, enumerate; cbn [enumerate_from map combine nth fst snd hd Nat.eqb getitem nth_error bind].
  unfold rbf_call, sqdist; cbn [map combine fst snd rsum fold_right].
  replace (- ((1 - 0) * (1 - 0) + ((1 - 0) * (1 - 0) + 0)) / (2 * 1 * 1)) with (-1) by lra.
  replace (- ((0 - 2) * (0 - 2) + ((0 - 2) * (0 - 2) + 0)) / (2 * 1 * 1)) with (-4) by lra.
  replace (- ((1 - 0) * (1 - 0) + 0) / (2 * 1 * 1)) with (-1 / 2) by lra.
  replace (- ((0 - 2) * (0 - 2) + 0) / (2 * 1 * 1)) with (-2) by lra.
  intros H. assert (E : exp (-1) * exp (-4) = exp (-1 / 2) * exp (-2)) by lra.
  rewrite <- !exp_plus in E. apply exp_inv in E. lra.
Qed.
