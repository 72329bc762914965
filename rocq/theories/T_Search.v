(** Properties C48-C50 and C78-C80: line searches and optimisation loops. *)
From Verif Require Import M_RBase M_Search S_Search P_RBase P_Search.
From Coq Require Import Lra Lia.
Local Open Scope R_scope.

(** C48 *)
Theorem C48_binary_inside : forall phi n lo hi, lo < hi -> lo < binary_line_search phi lo hi n < hi.
Proof. exact bls_inside. Qed.
Print Assumptions C48_binary_inside.
Theorem C48_binary_quadratic : forall phi c a m n, 0 < a -> (forall x, phi x = Some (c - a * (x - m) ^ 2)) -> forall lo hi, lo < hi ->
  Rabs (binary_line_search phi lo hi n - clamp lo hi m) <= (hi - lo) / 2 ^ S n.
Proof. exact bls_quadratic. Qed.
Print Assumptions C48_binary_quadratic.
Theorem C48_iterative_best : forall phi lo hi n, -1 < lo -> lo <= hi -> n <> 0%nat ->
  match iterative_line_search phi lo hi n with
  | Ok lam => In lam (arange lo hi n) /\ phi lam <> None /\ forall x, In x (arange lo hi n) -> ole (phi x) (phi lam)
  | Raise e => e = GenericException /\ forall x, In x (arange lo hi n) -> phi x = None
  end.
Proof. exact iterative_spec. Qed.
Print Assumptions C48_iterative_best.
(** what the grid is *)
Theorem C48_grid : forall lo hi n x, In x (arange lo hi n) <-> exists i, (i < n)%nat /\ x = lo + INR i * ((hi - lo) / INR n).
Proof. exact arange_in. Qed.
Print Assumptions C48_grid.
Example C48_quadratic_ex : Rabs (binary_line_search (fun x => Some (3 - 2 * (x - 1) ^ 2)) 0 (15 / 10) 5 - 1) <= 3 / 100.
Proof.
  assert (K := C48_binary_quadratic (fun x => Some (3 - 2 * (x - 1) ^ 2)) 3 2 1 5 ltac:(lra) ltac:(auto) 0 (15 / 10) ltac:(lra)).
  replace (clamp 0 (15 / 10) 1) with 1 in K by (unfold clamp, Rmax, Rmin; repeat destruct (Rle_dec _ _); lra). replace (2 ^ 6) with 64 in K by ring. lra.
Qed.
Example C48_iterative_ex : exists lam, iterative_line_search (fun x => if Rltb x (1/2) then None else Some (- x)) 0 1 4 = Ok lam /\ lam = 1 / 2.
Proof.
  assert (K := C48_iterative_best (fun x => if Rltb x (1/2) then None else Some (- x)) 0 1 4 ltac:(lra) ltac:(lra) ltac:(lia)).
  destruct (iterative_line_search _ _ _ _) as [lam|e].
  - exists lam. split; auto. destruct K as [K1 [K2 K3]].
    assert (H2 : In (1 / 2) (arange 0 1 4)) by (apply C48_grid; exists 2%nat; split; [lia|cbn [INR]; lra]). specialize (K3 _ H2). cbv beta in K2, K3. rewrite (proj2 (Rltb_false (1 / 2) (1 / 2))) in K3 by lra.
    destruct (Rltb lam (1 / 2)) eqn:E; [congruence|]. apply Rltb_false in E. cbn [ole] in K3. lra.
  - destruct K as [_ K]. assert (H2 : In (1 / 2) (arange 0 1 4)) by (apply C48_grid; exists 2%nat; split; [lia|cbn [INR]; lra]). specialize (K _ H2). cbn beta in K. rewrite (proj2 (Rltb_false _ _)) in K by lra. discriminate.
Qed.
(** the sentinel -1 is a legal grid value: then a search that has finite values raises *)
Theorem C48_sentinel_refuted : exists phi hi n, (forall x, phi x <> None) /\ -1 < hi /\ n <> 0%nat /\ iterative_line_search phi (-1) hi n = Raise GenericException.
Proof. exact iterative_minus_one. Qed.
Print Assumptions C48_sentinel_refuted.

(** C49 *)
Theorem C49_unimodal_partial : forall phi f m n, (forall x, phi x = Some (f x)) -> forall lo hi, lo < hi -> unimodal f lo hi m ->
  Rabs (binary_line_search phi lo hi n - m) <= (hi - lo) / 4 + (hi - lo) / 2 ^ S n.
Proof. exact bls_unimodal. Qed.
Print Assumptions C49_unimodal_partial.
Theorem C49_concave_refuted : exists f m, concave f /\ (forall x, x <> m -> f x < f m) /\ 0 < m < 15 / 10 /\
  forall n, (4 <= n)%nat -> 15 / 10 / 2 ^ n < Rabs (binary_line_search (fun x => Some (f x)) 0 (15 / 10) n - m).
Proof. exists tent, (6 / 10). split; [exact tent_concave|]. split; [exact tent_max|]. split; [lra|]. exact tent_missed. Qed.
Print Assumptions C49_concave_refuted.
Example C49_ex : Rabs (binary_line_search (fun x => Some (- (x - 1) ^ 2)) 0 2 3 - 1) <= 2 / 4 + 2 / 16.
Proof.
  assert (K := C49_unimodal_partial (fun x => Some (- (x - 1) ^ 2)) (fun x => - (x - 1) ^ 2) 1 3 ltac:(auto) 0 2 ltac:(lra)).
  replace ((2 - 0) / 4 + (2 - 0) / 2 ^ 4) with (2 / 4 + 2 / 16) in K by field. apply K. split; [lra|]. split; intros x y H1 H2 H3; nra.
Qed.

(** C50 *)
Theorem C50_find_mode : forall V (upd : nat -> V -> result V) far chol v0 maxloops,
  stops upd far v0 (S maxloops) (find_mode upd far chol v0 maxloops (S maxloops)) /\
  (forall n v, find_mode upd far chol v0 maxloops (S maxloops) = Ok (n, v) -> chol = true ->
    (1 <= n)%nat /\ (n = S maxloops \/ exists w, after upd v0 (n - 1) w /\ far v w = false)) /\
  (chol = false -> find_mode upd far chol v0 maxloops (S maxloops) = Ok (0%nat, v0)).
Proof. exact @find_mode_spec. Qed.
Print Assumptions C50_find_mode.
Theorem C50_linear_optimize : forall V (upd : nat -> V -> result V) far v0 maxloops,
  stops upd far v0 maxloops (linear_optimize upd far v0 maxloops (S maxloops)) /\
  (forall n v, linear_optimize upd far v0 maxloops (S maxloops) = Ok (n, v) -> n = maxloops \/ ((1 <= n)%nat /\ exists w, after upd v0 (n - 1) w /\ far v w = false)).
Proof. exact @linear_optimize_spec. Qed.
Print Assumptions C50_linear_optimize.
Example C50_ex : find_mode (fun _ v => Ok (v / 2)%nat) (fun a b => Nat.ltb 1 (b - a)) true 100%nat 100 101 = Ok (7%nat, 0%nat).
Proof. reflexivity. Qed.
Example C50_limit_ex : find_mode (fun _ v => Ok (S v)) (fun _ _ => true) true 0%nat 100 101 = Ok (101%nat, 101%nat) /\
  linear_optimize (fun _ v => Ok (S v)) (fun _ _ => true) 0%nat 100 101 = Ok (100%nat, 100%nat).
Proof. split; reflexivity. Qed.
Example C50_cholesky_ex : find_mode (fun _ v => Ok (S v)) (fun _ _ => true) false 3%nat 100 101 = Ok (0%nat, 3%nat).
Proof. reflexivity. Qed.

(** C78 *)
Theorem C78_hyper_search : forall St d (grad : St -> list R) move splits N s s' prev calls conv, hyper_optimize d grad move splits N s = (s', prev, calls, conv) ->
  (calls <= 600)%nat /\ ((N < 4)%nat -> calls = 0%nat) /\ s' = fst (steps grad move calls s) /\ prev = firstn 4 (snd (steps grad move calls s)) /\
  (forall c, (0 < c < calls)%nat -> ~ settled d (snd (steps grad move c s))) /\ (conv = true <-> (0 < calls)%nat /\ settled d (snd (steps grad move calls s))).
Proof. exact @hyper_optimize_spec. Qed.
Print Assumptions C78_hyper_search.
Example C78_ex : forall N, (4 <= N)%nat -> forall s' prev calls conv, hyper_optimize 1 (fun s : R => [s]) (fun s _ => 0) (fun _ => true) N 1 = (s', prev, calls, conv) -> conv = true -> (4 <= calls)%nat.
Proof.
  intros N HN s' prev calls conv E C. destruct (C78_hyper_search _ _ _ _ _ _ _ _ _ _ _ E) as [_ [_ [_ [_ [_ [K _]]]]]]. destruct (K C) as [_ [a [b [c [e [rest [Eg _]]]]]]].
  assert (L : forall n, length (snd (steps (fun s : R => [s]) (fun (_ : R) _ => 0) n 1)) = n).
  { induction n as [|n IH]; auto. cbn [steps]. destruct (steps _ _ n 1) as [x y]. cbn in *. now rewrite IH. }
  specialize (L calls). rewrite Eg in L. cbn in L. lia.
Qed.

(** C79 *)
Theorem C79_positive : forall F F', normalise true true F = Ok (Some F') -> length F' = length F /\ (forall x, In x F' -> 0 <= x <= 1) /\ In 0 F' /\ In 1 F' /\
  (forall i j, (i < length F)%nat -> (j < length F)%nat -> (nth i F' 0 <= nth j F' 0 <-> nth i F 0 <= nth j F 0)).
Proof. exact normalise_positive_range. Qed.
Print Assumptions C79_positive.
Theorem C79_symmetric : forall F F', normalise true false F = Ok (Some F') -> length F' = length F /\ norm_inf F' = 1 /\
  (forall i j, (i < length F)%nat -> (j < length F)%nat -> (nth i F' 0 <= nth j F' 0 <-> nth i F 0 <= nth j F 0)).
Proof. exact normalise_symmetric_range. Qed.
Print Assumptions C79_symmetric.
Theorem C79_mode : forall (g : nat -> option (list R) -> list R) far F0 maxloops positive n F,
  find_mode (fun i v => normalise true positive (g i v)) far true F0 maxloops (S maxloops) = Ok (n, Some F) ->
  if positive then (forall x, In x F -> 0 <= x <= 1) /\ In 0 F /\ In 1 F else norm_inf F = 1.
Proof. exact mode_normalised. Qed.
Print Assumptions C79_mode.
(** a constant vector, in particular a single training point, is normalised to NaN *)
Theorem C79_constant_refuted : forall F, normalise true true F = Ok None <-> F <> [] /\ forall x y, In x F -> In y F -> x = y.
Proof. exact normalise_positive_nan. Qed.
Print Assumptions C79_constant_refuted.
Theorem C79_zero_refuted : forall F, normalise true false F = Ok None <-> forall x, In x F -> x = 0.
Proof. exact normalise_symmetric_nan. Qed.
Print Assumptions C79_zero_refuted.
Example C79_ex : exists F', normalise true true [1; 3; 2] = Ok (Some F') /\ In 1 F'.
Proof.
  destruct (normalise true true [1; 3; 2]) as [[F'|]|e] eqn:E.
  - exists F'. split; auto. apply C79_positive in E. tauto.
  - apply C79_constant_refuted in E as [_ E]. assert (1 = 3) by (apply E; simpl; auto). lra.
  - unfold normalise in E. cbn [np_min np_max bind map] in E. discriminate.
Qed.
Example C79_single_ex : normalise true true [5] = Ok None.
Proof. apply C79_constant_refuted. split; [congruence|]. intros x y [<- |[]] [<- |[]]. reflexivity. Qed.

(** C80 *)
Theorem C80_binary : forall F d loss n, exists lam, 0 < lam < 15 / 10 /\ newton_update F d loss Binary n = Ok (step_from F d lam).
Proof. exact newton_binary. Qed.
Print Assumptions C80_binary.
Theorem C80_iter : forall F d loss n, n <> 0%nat ->
  (exists lam, 1 / 100 <= lam < 15 / 10 /\ newton_update F d loss Iter n = Ok (step_from F d lam)) \/
  (newton_update F d loss Iter n = Raise GenericException /\ forall x, In x (arange (1 / 100) (15 / 10) n) -> loss (step_from F d x) = None).
Proof. exact newton_iter. Qed.
Print Assumptions C80_iter.
Theorem C80_stationary : forall F n lam, (length F <= n)%nat -> step_from F (repeat 0 n) lam = F.
Proof. exact step_from_zero. Qed.
Print Assumptions C80_stationary.
Theorem C80_default_refuted : forall F d loss n, newton_update F d loss Static n = Raise AttributeError.
Proof. reflexivity. Qed.
Print Assumptions C80_default_refuted.
(** whatever the number of iterations, some concave objective is lowered although the direction can raise it *)
Theorem C80_ascent_refuted : forall n, exists F descent loss F', newton_update F descent (fun v => Some (loss v)) Binary n = Ok F' /\ loss F' < loss F /\
  concave (fun lam => loss (step_from F descent lam)) /\ exists lam, 0 < lam < 15 / 10 /\ loss F < loss (step_from F descent lam).
Proof. exact newton_lowers. Qed.
Print Assumptions C80_ascent_refuted.
Example C80_ex : exists x, newton_update [0] [-1] (fun v => match v with [x] => Some (- (x - 1) ^ 2) | _ => None end) Binary 5 = Ok [x] /\ Rabs (x - 1) <= 3 / 100.
Proof.
  unfold newton_update. cbn [bind step_from combine map fst snd]. eexists. split; [reflexivity|].
  match goal with |- Rabs (0 - binary_line_search ?p _ _ _ * _ - 1) <= _ => assert (K := C48_binary_quadratic p 0 1 1 5 ltac:(lra) ltac:(intro; cbv beta; f_equal; ring) 0 (15 / 10) ltac:(lra)) end.
  replace (clamp 0 (15 / 10) 1) with 1 in K by (unfold clamp, Rmax, Rmin; repeat destruct (Rle_dec _ _); lra). 
  match goal with |- Rabs (0 - ?b * _ - 1) <= _ => replace (0 - b * -1 - 1) with (b - 1) by ring end. replace (2 ^ 6) with 64 in K by ring. lra.
Qed.
