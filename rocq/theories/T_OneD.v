(** C172: plain numbers as points. *)
From Coq Require Import Reals Lra Lia List.
From Verif Require Import M_Base M_RBase M_Pairs M_Pareto M_Store M_Kernel M_Acq M_GP M_OneD S_OneD P_OneD P_OneD2.
Import ListNotations.
Local Open Scope R_scope.

(** any history of calls of [cov] with arrays whose points have the same number of coordinates, plain numbers or rows *)
Theorem C172_kernels : forall (d : nat) (k : kern) (calls : list (arr R * arr R)),
  zeros_fit d k -> (forall X Y, In (X, Y) calls -> holds d X /\ holds d Y) ->
  kcalls k calls = map (fun XY => kcov k (arr_rows (fst XY)) (arr_rows (snd XY))) calls.
Proof. exact kernels_plain. Qed.
Example C172_kernels_ex : kcalls (KMul (ZRBF 1 1 0 None) (Lin 1 0 0)) [(Arr1 [1; 2], Arr2 1 [[3]]); (Arr2 1 [[1]], Arr1 [3])] =
  [kcov (KMul (ZRBF 1 1 0 None) (Lin 1 0 0)) [[1]; [2]] [[3]]; kcov (KMul (ZRBF 1 1 0 None) (Lin 1 0 0)) [[1]] [[3]]].
Proof.
  apply (C172_kernels 1); [cbn; auto|]. intros X Y [[= <- <-]|[[= <- <-]|[]]]; split; (split; [reflexivity|]); repeat constructor.
Qed.

(** a Gaussian process fed with plain numbers predicts as one fed with rows of one coordinate *)
Theorem C172_gp : forall ops ops' k l, Forall2 same_gp_call ops ops' -> zeros_fit 1 k ->
  exists st st', agp_run ops None = Ok st /\ gp_run None ops' None = Ok st' /\
    snd (agp_predict k st (Arr1 l)) = gp_predict None k st' (column l).
Proof. exact gp_plain. Qed.
Example C172_gp_ex : Forall2 same_gp_call [Some (Arr1 [1; 2], [3; 4], SScalar 1); None; Some (Arr1 [5], [6], SSeq [1])]
  [GAdd [[1]; [2]] [3; 4] (SScalar 1); GReset; GAdd [[5]] [6] (SSeq [1])].
Proof. constructor; [exact (SGAdd [1; 2] [3; 4] (SScalar 1))|]. constructor; [constructor|]. constructor; [exact (SGAdd [5] [6] (SSeq [1]))|constructor]. Qed.

(** without Pareto pairs the store of a preference model keeps the same points and labels, call after call *)
Theorem C172_store : forall ops ops', Forall2 same_call ops ops' ->
  same_store (fst (arun (ainit false) ops)) (fst (run_st (init false) ops')) /\ snd (arun (ainit false) ops) = snd (run_st (init false) ops').
Proof. exact store_plain. Qed.
Example C172_store_ex : Forall2 same_call [AAdd (Arr1 [1%Q; 2%Q; 3%Q]) (LRel [(1%Z, 0%nat, 2%nat)]); ARemove false; AReset]
  [OAdd [[1%Q]; [2%Q]; [3%Q]] (LRel [(1%Z, 0%nat, 2%nat)]); ORemove false; OReset].
Proof. constructor; [exact (SAdd [1%Q; 2%Q; 3%Q] _)|]. repeat constructor. Qed.
Example C172_store_ex2 : sX (fst (run_st (init false) [OAdd [[1%Q]; [2%Q]; [3%Q]] (LRel [(1%Z, 0%nat, 2%nat)]); ORemove false])) = Some [[1%Q]; [3%Q]].
Proof. reflexivity. Qed.

(** numbers and rows, and rows of different widths, cannot be mixed in one store: the second kind is refused and nothing changes *)
Theorem C172_no_mixture : forall a l w M y,
  (aX a = Some (Arr2 w M) -> arr_add a (Arr1 l) y = (a, Raised ValueError)) /\
  (aX a = Some (Arr1 l) -> arr_add a (Arr2 w M) y = (a, Raised ValueError)) /\
  (forall v N, aX a = Some (Arr2 v N) -> v <> w -> arr_add a (Arr2 w M) y = (a, Raised ValueError)).
Proof. exact no_mixture. Qed.
Example C172_no_mixture_ex : exists a, arr_add (ainit false) (Arr2 2 [[1%Q; 2%Q]; [3%Q; 4%Q]]) (LAbs [1#2; 1#2]) = (a, Done) /\ aX a = Some (Arr2 2 [[1%Q; 2%Q]; [3%Q; 4%Q]]) /\ 2%nat <> 3%nat.
Proof. eexists. split; [reflexivity|]. split; [reflexivity|discriminate]. Qed.

(** the simplest model *)
Theorem C172_simplest : forall l, simplest_predict (Arr1 l) = simplest_predict (Arr2 1 (column l)).
Proof. exact simplest_same. Qed.
(** and predicts the sum of the coordinates of every point *)
Theorem C172_simplest_sum : forall X i, (i < alen X)%nat -> nth i (simplest_predict X) 0 = rsum (nth i (arr_rows X) []).
Proof. exact simplest_sums. Qed.
Example C172_simplest_sum_ex : nth 1 (simplest_predict (Arr2 2 [[1; 2]; [3; 4]])) 0 = 3 + (4 + 0) /\ (1 < alen (Arr2 2 [[1; 2]; [3; 4]]))%nat.
Proof. split; [reflexivity|cbn; lia]. Qed.

(** refuted: with Pareto pairs every addition that makes more than one point raises, but the points and labels are kept and the model
    still counts as optimised *)
Theorem C172_pareto_refuted : forall a l y, sPareto (aL a) = true -> match aX a with Some (Arr2 _ _) => False | _ => True end -> l <> [] ->
  (1 < anpts a + length l)%nat -> accepted (aL a) (anpts a) y ->
  exists a', arr_add a (Arr1 l) y = (a', Raised ValueError) /\ anpts a' = (anpts a + length l)%nat /\
             sOpt (aL a') = sOpt (aL a) /\ aL a' = fst (add_labels (aL a) (anpts a) y).
Proof. exact pareto_raises. Qed.
Example C172_pareto_ex : arr_add (ainit true) (Arr1 [1%Q; 2%Q]) (LRel [(1%Z, 0%nat, 1%nat)]) =
  ({| aX := Some (Arr1 [1%Q; 2%Q]); aL := mkStore None (Some [(1%Z, 0%nat, 1%nat)]) None None None false true |}, Raised ValueError) /\
  snd (add (init true) [[1%Q]; [2%Q]] (LRel [(1%Z, 0%nat, 1%nat)])) = Done.
Proof. split; reflexivity. Qed.

(** refuted: one point with several coordinates, given as a vector, is stored as several points, and rows are refused from then on *)
Theorem C172_vector_refuted : forall p (x : list Q) y, accepted (init p) 0 y -> (p = true -> (length x <= 1)%nat) ->
  exists a, arr_add (ainit p) (Arr1 x) y = (a, Done) /\ anpts a = length x /\
            forall M y2, arr_add a (Arr2 (length x) M) y2 = (a, Raised ValueError).
Proof. exact vector_is_points. Qed.
Example C172_vector_ex : accepted (init false) 0 (LAbs [1#2]) /\ (false = true -> (length [1%Q; 2%Q; 3%Q] <= 1)%nat).
Proof. split; [reflexivity|discriminate]. Qed.

(** refuted: the linear model never predicts for plain numbers, in whatever state it is; for rows it does *)
Theorem C172_linear_refuted : forall o T w f dr l, exists e, alin_predict o T w f dr (Arr1 l) = Raise e.
Proof. exact linear_never. Qed.
Theorem C172_linear_rows : forall T w f dr v M, (forall t, T = Some t -> exists u N, t = Arr2 u N) -> length w = v -> length f = v -> length (dr v) = v ->
  forall o, exists F, alin_predict o T w f dr (Arr2 v M) = Ok F /\ length F = length M.
Proof. exact linear_rows. Qed.
Example C172_linear_ex : alin_predict true (Some (Arr2 1 [[1]])) [2] [2] (fun _ => [0]) (Arr2 1 [[3]; [4]]) = Ok [3 * 2 + 0; 4 * 2 + 0].
Proof. reflexivity. Qed.

(** refuted: points with different numbers of coordinates are not rejected by the kernels; a number stands for the point with all
    coordinates equal to it *)
Theorem C172_widths_refuted : forall s l n xs w M, w <> 1%nat ->
  rbf_cov_arr s l n (Arr1 xs) (Arr2 w M) = rbf_cov s l n (map (fun x => repeat x w) xs) M.
Proof. exact stretched. Qed.
Example C172_widths_ex : exists K, rbf_cov_arr 1 1 0 (Arr1 [5]) (Arr2 3 [[1; 2; 3]; [4; 5; 6]]) = Ok K.
Proof. rewrite C172_widths_refuted by discriminate. eexists; reflexivity. Qed.

(** refuted: a call that fails leaves the kernel; the zero point is fixed by the width of the first array, also when the call raises *)
Theorem C172_failed_refuted : forall s l n X Y, (0 < alen X)%nat -> forall k, leading k = ZRBF s l n None -> leading (fst (kcov_arr k X Y)) = ZRBF s l n (Some (repeat 0 (width X))).
Proof. exact leading_fixed. Qed.
Example C172_failed_ex : snd (kcov_arr (KAdd (ZRBF 1 1 0 None) (Lin 1 0 0)) (Arr2 3 [[1; 2; 3]]) (Arr2 2 [[1; 2]])) = Raise ValueError /\
  leading (KAdd (ZRBF 1 1 0 None) (Lin 1 0 0)) = ZRBF 1 1 0 None /\ (0 < alen (Arr2 3 [[1; 2; 3]]))%nat.
Proof. split; [reflexivity|]. split; [reflexivity|cbn; lia]. Qed.
(** refuted: a zeroed kernel remembers the number of coordinates of its first call, later covariances of plain numbers differ *)
Theorem C172_first_use_refuted : exists M1 M2,
  kcalls (ZRBF 1 1 0 None) [(Arr2 2 [[0; 0]; [1; 1]], Arr2 2 [[0; 0]; [1; 1]]); (Arr1 [1; 2], Arr1 [1; 2])] = [M1; Ok M2] /\
  exists M3, kcov (ZRBF 1 1 0 None) (column [1; 2]) (column [1; 2]) = Ok M3 /\ mat_at M2 0 1 <> mat_at M3 0 1.
Proof. exact first_use. Qed.

Print Assumptions C172_kernels.
Print Assumptions C172_gp.
Print Assumptions C172_store.
Print Assumptions C172_no_mixture.
Print Assumptions C172_simplest_sum.
Print Assumptions C172_failed_refuted.
Print Assumptions C172_simplest.
Print Assumptions C172_pareto_refuted.
Print Assumptions C172_vector_refuted.
Print Assumptions C172_linear_refuted.
Print Assumptions C172_linear_rows.
Print Assumptions C172_widths_refuted.
Print Assumptions C172_first_use_refuted.
