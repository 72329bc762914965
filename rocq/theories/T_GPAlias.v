(** C167: training data of a Gaussian process that the caller can still write to. *)
From Coq Require Import Reals Lra.
From Verif Require Import M_Base M_RBase M_Kernel M_Fake M_GP M_GPAlias S_GPAlias P_GPAlias.
Local Open Scope R_scope.

(** arrays and lists that are left alone after they were passed: the process holds what they contained at the time of the call *)
Theorem C167_snapshot mean h m : left_alone h -> gseen (grun mean (m, gnew) h) = fold_left (by_value mean) (gcontents m h) None.
Proof. exact (gsnapshot mean h m). Qed.
Print Assumptions C167_snapshot.
(** from the second call of [add] on no write reaches the points, the outputs or the uncertainties *)
Theorem C167_second mean m x1 y1 s1 ws1 x2 y2 s2 ws2 : let m' := fst (grun mean (m, gnew) (GAAdd x1 y1 s1 :: ws1)) in
  length y1 = length (gm_X m x1) -> Forall is_gwrite ws1 -> length y2 = length (gm_X m' x2) -> Forall is_gwrite ws2 ->
  gseen (grun mean (m, gnew) (GAAdd x1 y1 s1 :: ws1 ++ GAAdd x2 y2 s2 :: ws2)) = gseen (grun mean (m, gnew) (GAAdd x1 y1 s1 :: ws1 ++ [GAAdd x2 y2 s2])).
Proof. exact (gsecond_new mean m x1 y1 s1 ws1 x2 y2 s2 ws2). Qed.
Print Assumptions C167_second.
(** outputs are never shared *)
Theorem C167_outputs mean m o ws : Forall is_gwrite ws -> option_map gy (gseen (grun mean (m, o) ws)) = option_map gy (gview m o).
Proof. exact (glabels mean ws m o). Qed.
Print Assumptions C167_outputs.
(** the first array of points stays shared, while the mean function was subtracted at the old points *)
Theorem C167_first_refuted mean m x y s rows : length y = length (gm_X m x) ->
  option_map gX (gseen (grun mean (m, gnew) [GAAdd x y s; GWriteX x rows])) = Some rows /\
  option_map gy (gseen (grun mean (m, gnew) [GAAdd x y s; GWriteX x rows])) = Some (match mean with None => y | Some f => zipw Rminus y (map f (gm_X m x)) end).
Proof. exact (gfirst_shared mean m x y s rows). Qed.
Print Assumptions C167_first_refuted.
(** the next prediction is that of a process that was given the outputs at the new points *)
Theorem C167_predict_refuted k m x y s rows Q : exists d, gp_add None rows y (sigma_of m s) None = Ok d /\
  gp_predict None k (gseen (grun None (m, gnew) [GAAdd x y s; GWriteX x rows])) Q = gp_predict None k d Q.
Proof. exact (gpredict_shared k m x y s rows Q). Qed.
Print Assumptions C167_predict_refuted.
(** what is written before the second call is kept for good *)
Theorem C167_folded_refuted m x1 y1 s1 rows x2 y2 s2 : x2 <> x1 ->
  option_map gX (gseen (grun None (m, gnew) [GAAdd x1 y1 s1; GWriteX x1 rows; GAAdd x2 y2 s2])) = Some (rows ++ gm_X m x2) /\
  option_map gy (gseen (grun None (m, gnew) [GAAdd x1 y1 s1; GWriteX x1 rows; GAAdd x2 y2 s2])) = Some (y1 ++ y2).
Proof. exact (gfolded_in m x1 y1 s1 rows x2 y2 s2). Qed.
Print Assumptions C167_folded_refuted.
(** a list of uncertainties stays shared as well *)
Theorem C167_sigma_refuted mean m x y l v : length y = length (gm_X m x) -> option_map gsig (gseen (grun mean (m, gnew) [GAAdd x y (GList l); GWriteS l v])) = Some v.
Proof. exact (gsigma_shared mean m x y l v). Qed.
Print Assumptions C167_sigma_refuted.

(** ---- examples ---- *)
Definition ex_gmem : gmem := mkGMem (fun l => if Nat.eqb l 0 then [[1]; [2]] else [[5]]) (fun _ => [1; 2]).
(** a write before the call, two calls, a reset and another call *)
Definition ex_hist : list gop := [GWriteX 0 [[7]; [8]]; GAAdd 0 [3; 4] (GList 0); GWriteX 1 [[9]]; GAAdd 1 [6] (GNumber 1); GAReset; GWriteS 1 [4]; GAAdd 2 [2] (GList 1)].
Example C167_snapshot_ex : left_alone ex_hist /\
  option_map gX (gseen (grun None (ex_gmem, gnew) (firstn 4 ex_hist))) = Some [[7]; [8]; [9]] /\ option_map gsig (gseen (grun None (ex_gmem, gnew) (firstn 4 ex_hist))) = Some [1; 2; 1] /\
  gseen (grun None (ex_gmem, gnew) ex_hist) = Some {| gX := [[5]]; gy := [2]; gsig := [4] |}.
Proof.
  split; [|repeat split; reflexivity]. intros h1 p h2 E. unfold ex_hist in E.
  destruct h1 as [|? [|? [|? [|? [|? [|? [|? [|? ?]]]]]]]]; cbn in E; injection E; intros; subst; (split; [intros ? ? ? ? X|intros ? ? ? ? X]; try discriminate; injection X as <- <-; cbn; intuition discriminate).
Qed.
Example C167_second_ex : let h := [GAAdd 0 [3; 4] (GList 0); GAAdd 1 [6] (GList 1)] in
  gseen (grun None (ex_gmem, gnew) (h ++ [GWriteX 0 []; GWriteX 1 [[0]]; GWriteS 0 []])) = Some {| gX := [[1]; [2]; [5]]; gy := [3; 4; 6]; gsig := [1; 2; 1; 2] |}.
Proof. reflexivity. Qed.
(** points swapped after the call, with a mean function: the outputs belong to the old points *)
Example C167_first_ex : let mean := Some (fun x : point => nth 0 x 0) in
  option_map gX (gseen (grun mean (ex_gmem, gnew) [GAAdd 0 [3; 7] (GNumber 1); GWriteX 0 [[2]; [1]]])) = Some [[2]; [1]] /\
  option_map gy (gseen (grun mean (ex_gmem, gnew) [GAAdd 0 [3; 7] (GNumber 1); GWriteX 0 [[2]; [1]]])) = Some [3 - 1; 7 - 2].
Proof. split; reflexivity. Qed.
(** outputs of another number than points are refused with a mean function, and nothing changes *)
Example C167_raise_ex : let w := grun (Some (fun x : point => nth 0 x 0)) (ex_gmem, gnew) [GAAdd 0 [3; 7] (GNumber 1)] in
  gseen (grun (Some (fun x : point => nth 0 x 0)) w [GAAdd 0 [3; 7; 8] (GNumber 1)]) = gseen w.
Proof. reflexivity. Qed.
Example C167_sigma_ex : option_map gsig (gseen (grun None (ex_gmem, gnew) [GAAdd 0 [3; 4] (GList 0)])) = Some [1; 2] /\
  option_map gsig (gseen (grun None (ex_gmem, gnew) [GAAdd 0 [3; 4] (GList 0); GWriteS 0 [0; 0]])) = Some [0; 0].
Proof. split; reflexivity. Qed.
