(** C154: training data that the caller can still write to. *)
From Verif Require Import M_Base M_Pairs M_Pareto M_Store M_Alias S_Alias P_Alias.

(** arrays that are not written to after they were passed: the model holds what they contained at the time of the call *)
Theorem C154_snapshot h m pareto : arrays_left_alone h -> seen (arun (m, anew pareto) h) = run (init pareto) (contents m h).
Proof. exact (snapshot_new h m pareto). Qed.
Print Assumptions C154_snapshot.
(** from the second call of [add] on no write reaches the points *)
Theorem C154_second w x1 y1 h x2 y2 ws : ~ In AReset h -> Forall is_write ws ->
  sX (seen (arun w (AAdd x1 y1 :: h ++ AAdd x2 y2 :: ws))) = sX (seen (arun w (AAdd x1 y1 :: h ++ [AAdd x2 y2]))).
Proof. exact (second_safe w x1 y1 h x2 y2 ws). Qed.
Print Assumptions C154_second.
(** pairs and ratings are copied; no write is noticed by the flag that asks for a new fit *)
Theorem C154_copied w ws : Forall is_write ws -> sRel (seen (arun w ws)) = sRel (seen w) /\
  option_map fst (sAbs (seen (arun w ws))) = option_map fst (sAbs (seen w)) /\ sOpt (seen (arun w ws)) = sOpt (seen w).
Proof. exact (copied_at_once w ws). Qed.
Print Assumptions C154_copied.
(** the first array of points stays shared *)
Theorem C154_first_refuted m pareto x y rows : sX (seen (arun (m, anew pareto) [AAdd x y; WX x rows])) = Some rows.
Proof. exact (first_shared m pareto x y rows). Qed.
Print Assumptions C154_first_refuted.
(** and what is written to it before the second call is kept for good *)
Theorem C154_folded_refuted m pareto x1 y1 rows x2 y2 : x2 <> x1 -> sX (seen (arun (m, anew pareto) [AAdd x1 y1; WX x1 rows; AAdd x2 y2])) = Some (rows ++ mX m x2).
Proof. exact (folded_in m pareto x1 y1 rows x2 y2). Qed.
Print Assumptions C154_folded_refuted.
(** after a removal of unreferenced points no write reaches the points *)
Theorem C154_removed w X ps b ws : sX (seen w) = Some X -> sRel (seen w) = Some ps -> (forall l u v, In (l, u, v) ps -> u < length X /\ v < length X) -> Forall is_write ws ->
  sX (seen (arun w (ARemove b :: ws))) = sX (seen (arun w [ARemove b])).
Proof. exact (removed_safe w X ps b ws). Qed.
Print Assumptions C154_removed.
(** but a removal that fails because of a pair out of range leaves the array shared *)
Theorem C154_failed_refuted m x l u v b rows : length (mX m x) <= u \/ length (mX m x) <= v ->
  sX (seen (arun (m, anew false) [AAdd x (ACopied (LRel [(l, u, v)])); ARemove b; WX x rows])) = Some rows.
Proof. exact (failed_shared m x l u v b rows). Qed.
Print Assumptions C154_failed_refuted.
(** so do two-column ordinal labels: the check that they are positive is bypassed *)
Theorem C154_ordinal_refuted m pareto x l y : existsb (fun v => (v <=? 0)%Z) (map fst (mO m l)) = false ->
  sOrd (seen (arun (m, anew pareto) [AAdd x (AOrd2 l); WO l y])) = Some (map fst y, map snd y).
Proof. exact (ordinal_shared m pareto x l y). Qed.
Print Assumptions C154_ordinal_refuted.
(** and the indices of ratings *)
Theorem C154_index_refuted m pareto x v l i : existsb (fun a => Qlt_bool a 0) v || existsb (fun a => Qlt_bool 1 a) v = false ->
  option_map snd (sAbs (seen (arun (m, anew pareto) [AAdd x (AAbsT v l); WI l i]))) = Some i.
Proof. exact (index_shared m pareto x v l i). Qed.
Print Assumptions C154_index_refuted.

(** ---- examples ---- *)
Definition ex_mem : mem := mkMem (fun l => if l =? 0 then [[1; 2]; [3; 4]]%Q else [[5; 6]]%Q) (fun _ => [(1%Z, 0%nat); (2%Z, 1%nat)]) (fun _ => [1%nat; 0%nat]).
(** a history with a write before the call, two calls and a reset *)
Example C154_snapshot_example : arrays_left_alone [WX 0 [[7; 8]]%Q; AAdd 0 (ACopied (LRel [])); WX 1 [[9; 9]]%Q; AAdd 1 (ACopied (LOrd [1%Z])); AReset; AAdd 2 (AOrd2 0)] /\
  sX (seen (arun (ex_mem, anew false) [WX 0 [[7; 8]]%Q; AAdd 0 (ACopied (LRel [])); WX 1 [[9; 9]]%Q; AAdd 1 (ACopied (LOrd [1%Z]))])) = Some [[7; 8]; [9; 9]]%Q.
Proof.
  split; [|reflexivity]. intros h1 p h2 E. 
  destruct h1 as [|? [|? [|? [|? [|? [|? [|? ?]]]]]]]; cbn in E; injection E; intros; subst; (split; [intros ? ? X; try discriminate|split; intros ? ? X; discriminate]).
  - constructor.
  - injection X as <- <-. repeat constructor; intros [[y Hy]|Hy]; discriminate.
Qed.
Example C154_second_example : sX (seen (arun (ex_mem, anew false) [AAdd 0 (ACopied (LRel [])); AAdd 1 (ACopied (LRel [])); WX 0 [[0; 0]]%Q; WX 1 []])) = Some [[1; 2]; [3; 4]; [5; 6]]%Q.
Proof. reflexivity. Qed.
(** the points change, the labels stay, and nothing asks for a new fit *)
Example C154_copied_example : let w := arun (ex_mem, anew false) [AAdd 0 (ACopied (LRel [((-1)%Z, 0, 1)]))] in sX (seen w) = Some [[1; 2]; [3; 4]]%Q /\ sX (seen (arun w [WX 0 [[3; 4]; [1; 2]]%Q])) = Some [[3; 4]; [1; 2]]%Q.
Proof. split; reflexivity. Qed.
(** labels that [add] refuses are stored *)
Example C154_ordinal_example : sOrd (seen (arun (ex_mem, anew false) [AAdd 0 (AOrd2 0); WO 0 [(0%Z, 0%nat); ((-3)%Z, 7%nat)]])) = Some ([0%Z; (-3)%Z], [0%nat; 7%nat]) /\
  snd (add (init false) [[1]; [2]]%Q (LOrd2 [(0%Z, 0%nat); ((-3)%Z, 7%nat)])) = Raised GenericException.
Proof. split; reflexivity. Qed.
Example C154_index_example : sAbs (seen (arun (ex_mem, anew false) [AAdd 0 (AAbsT [1 # 2; 1 # 3] 0); WI 0 [5%nat; 5%nat]])) = Some ([1 # 2; 1 # 3], [5%nat; 5%nat])%Q.
Proof. reflexivity. Qed.
(** both points are referenced; the write after the removal does not reach them, the one after a failed removal does *)
Example C154_removed_example : let w := arun (ex_mem, anew false) [AAdd 0 (ACopied (LRel [((-1)%Z, 0, 1)]))] in
  sX (seen (arun w [ARemove false; WX 0 [[0; 0]]%Q])) = Some [[1; 2]; [3; 4]]%Q /\
  sX (seen (arun (ex_mem, anew false) [AAdd 0 (ACopied (LRel [((-1)%Z, 0, 2)])); ARemove false; WX 0 [[0; 0]]%Q])) = Some [[0; 0]]%Q.
Proof. split; reflexivity. Qed.
