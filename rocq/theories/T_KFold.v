(** Properties C09-C12: training_utility.py, cross-validation folds and label restriction.
    [rnd] stands for the random integers, [shuf] for the random shuffles; theorems hold for all of them. *)
From Coq Require Import Permutation Sorted.
From Verif Require Import M_Base M_Pairs M_KFold S_KFold P_KFold.

(** C09 *)
Theorem C09_kfold_partition : forall rnd shuf N y0 k folds,
  (forall t l, Permutation (shuf t l) l) ->
  k_fold_x_y rnd shuf N y0 k = Ok (Some folds) ->
  length folds = Nat.min k (N / 2) /\ splits_data N folds /\ Forall ascending folds.
Proof.
  exact (fun rnd shuf N y0 k folds Hs E => match k_fold_partition rnd shuf N y0 k folds Hs E with
         conj a (conj b (conj c _)) => conj a (conj b c) end).
Qed.
Print Assumptions C09_kfold_partition.
(** folds are returned whenever all pairs name stored points and 2 <= k, N >= 4, or 1 <= k <= N/2 *)
Theorem C09_kfold_returns : forall rnd shuf N y0 k,
  (forall t l, Permutation (shuf t l) l) ->
  (forall ps, y0 = Some ps -> forall d u v, In (d, u, v) ps -> u < N /\ v < N) ->
  0 < k -> (k <= N / 2 \/ 2 <= N / 2) ->
  exists folds, k_fold_x_y rnd shuf N y0 k = Ok (Some folds).
Proof. exact k_fold_returns. Qed.
Print Assumptions C09_kfold_returns.
Example C09_ex : k_fold_x_y (fun t => 3 * t + 2) (fun _ l => rev l) 7
    (Some [((-1)%Z,0,6); ((-1)%Z,6,1); (1%Z,2,3)]) 3 = Ok (Some [[1; 2; 3]; [0; 6]; [4; 5]]).
Proof. vm_compute. reflexivity. Qed.

(** C10 *)
Theorem C10_kfold_bounded : forall rnd shuf N y0 k folds c,
  (forall t l, Permutation (shuf t l) l) ->
  k_fold_x_y rnd shuf N y0 k = Ok (Some folds) -> is_ceil_div N (length folds) c ->
  forall f, In f folds -> length f <= c.
Proof. exact k_fold_sizes. Qed.
Print Assumptions C10_kfold_bounded.
Theorem C10_kfold_balanced : forall rnd shuf N k folds,
  (forall t l, Permutation (shuf t l) l) ->
  k_fold_x_y rnd shuf N None k = Ok (Some folds) -> nearly_equal folds.
Proof. exact k_fold_balanced. Qed.
Print Assumptions C10_kfold_balanced.
Example C10_ex : k_fold_x_y (fun t => 3 * t + 2) (fun _ l => l) 7 None 3
   = Ok (Some [[0; 2; 5]; [3; 6]; [1; 4]]) /\ is_ceil_div 7 3 3.
Proof. split; [vm_compute; reflexivity | split; lia]. Qed.

(** C11: refuted in general.  Nine points, three stars of three points, k = 4: the last fold stays empty. *)
Theorem C11_kfold_nonempty_refuted : exists rnd shuf N y0 k folds,
  (forall t l, Permutation (shuf t l) l) /\
  k_fold_x_y rnd shuf N y0 k = Ok (Some folds) /\ In [] folds.
Proof.
  exact (ex_intro _ (fun _ => 0) (ex_intro _ (fun _ l => l) (ex_intro _ 9 (ex_intro _
    (Some [((-1)%Z,0,1); ((-1)%Z,0,2); ((-1)%Z,3,4); ((-1)%Z,3,5); ((-1)%Z,6,7); ((-1)%Z,6,8)]) (ex_intro _ 4
    (ex_intro _ [[0;1;2];[3;4;5];[6;7;8];[]] (conj (fun t l => Permutation_refl l) (conj eq_refl
      (or_intror (or_intror (or_intror (or_introl eq_refl)))))))))))).
Qed.
Print Assumptions C11_kfold_nonempty_refuted.
(** without relative pairs no fold is empty *)
Theorem C11_kfold_nonempty_without_pairs : forall rnd shuf N k folds,
  (forall t l, Permutation (shuf t l) l) ->
  k_fold_x_y rnd shuf N None k = Ok (Some folds) -> ~ In [] folds.
Proof. exact k_fold_nonempty. Qed.
Print Assumptions C11_kfold_nonempty_without_pairs.
(** with relative pairs no fold is empty when N > (k-1) * ceil(N/k), in particular when k divides N *)
Theorem C11_kfold_nonempty_enough_points : forall rnd shuf N y0 k folds c,
  (forall t l, Permutation (shuf t l) l) ->
  k_fold_x_y rnd shuf N y0 k = Ok (Some folds) ->
  is_ceil_div N (length folds) c -> (length folds - 1) * c < N -> ~ In [] folds.
Proof. exact k_fold_nonempty_dense. Qed.
Print Assumptions C11_kfold_nonempty_enough_points.
Example C11_ex : k_fold_x_y (fun t => 5 * t + 2) (fun _ l => rev l) 8
    (Some [((-1)%Z,0,6); ((-1)%Z,6,1); (1%Z,2,3)]) 2 = Ok (Some [[0; 2; 3; 4]; [1; 5; 6; 7]]) /\
    is_ceil_div 8 2 4 /\ (2 - 1) * 4 < 8.
Proof. split; [vm_compute; reflexivity | split; [split; lia | lia]]. Qed.

(** C12 *)
Theorem C12_get_y : forall (O R : Type) (y0 : option (list (Z * nat * nat)))
  (y1 : option (list O * list nat)) (y2 : option (list R * list nat)) sub,
  one_point_per_label y1 -> one_point_per_label y2 ->
  exists z0 z1 z2, get_y_with_idx (y0, y1, y2) sub = Ok (z0, z1, z2) /\
    pairs_restricted sub y0 z0 /\ labels_restricted sub y1 z1 /\ labels_restricted sub y2 z2.
Proof. exact (fun O R => @get_y_ok O R). Qed.
Print Assumptions C12_get_y.
Example C12_ex : get_y_with_idx
   (Some [((-1)%Z,0,6); ((-1)%Z,6,1); (1%Z,2,3)], @None (list nat * list nat), Some ([7;8;9], [6;0;2])) [6;4;1;2]
   = Ok (Some [((-1)%Z,0,2)], None, Some ([7;9],[0;3])) /\ one_point_per_label (Some ([7;8;9], [6;0;2])).
Proof. vm_compute. auto. Qed.
