(** Properties C67-C69, C104-C107: Gaussian process regression *)
From Coq Require Import List Arith Permutation.
From Verif Require Import M_Base M_RBase M_Kernel M_GP S_Kernel S_GP P_Kernel P_GP P_GP2 P_GP3.
From Coq Require Import Reals Lra Lia List.
From Verif Require Import S_Psd.
Import ListNotations.
Local Open Scope R_scope.

(** example data: a linear kernel at two orthogonal inputs *)
Definition ex_k : kern := Lin 1 0 0.
Definition ex_Y : list point := [[1; 0]; [0; 2]].
Definition ex_mat (sig : list R) (i j : nat) : R := match i, j with O, O => 1 + nth 0 sig 0 | O, _ => 0 | _, O => 0 | _, _ => 4 + nth 1 sig 0 end.
Lemma ex_cov sig : forall i j, (i < 2)%nat -> (j < 2)%nat ->
  ex_mat sig i j = train_cov ex_k ex_Y sig i j.
Proof.
  intros [|[|i]] [|[|j]] Hi Hj; try lia; unfold ex_mat, train_cov, ex_k, ex_Y; cbn [Nat.eqb noisy kcall pt nth lin_call combine map fst snd]; unfold lin_call;
    cbn [combine map fst snd rsum fold_right]; unfold rsum; cbn [fold_right]; ring.
Qed.
Lemma ex_pd sig : 0 <= nth 0 sig 0 -> 0 <= nth 1 sig 0 -> pd (length ex_Y) (train_cov ex_k ex_Y sig).
Proof.
  intros H1 H2. apply (pd_ext 2 (ex_mat sig)).
  - exact (ex_cov sig).
  - apply pd_two; [reflexivity|lra|nra].
Qed.

(** C67: the store is exactly what was added since the last reset *)
Theorem C67_store : forall mean pre st0 st1 l, gp_run mean pre st0 = Ok st1 -> Forall same_number l ->
  exists st, gp_run mean (pre ++ GReset :: adds l) st0 = Ok st /\
    (l = [] -> st = None) /\
    (l <> [] -> stored mean (concat (map (fun a => fst (fst a)) l)) (concat (map (fun a => snd (fst a)) l)) (concat (map sig_of l)) st).
Proof. exact gp_history_stored. Qed.
Print Assumptions C67_store.
Theorem C67_prior_partial : forall k X, no_zeroed k -> X <> [] -> (forall x, In x X -> 0 <= noisy k x x) ->
  gp_predict None k None X = Ok (map (fun _ => 0) X, map (fun x => noisy k x x) X).
Proof. exact (gp_untrained None). Qed.
Print Assumptions C67_prior_partial.
Theorem C67_prior_mean_refuted : exists mean k X, X <> [] /\ forall mu var, gp_predict (Some mean) k None X = Ok (mu, var) -> mu <> map mean X.
Proof. exact mean_ignored. Qed.
Print Assumptions C67_prior_mean_refuted.
Example C67_ex :
  gp_run (Some (fun x => hd 0 x)) [GAdd [[7]] [1] (SScalar 1)] None = Ok (Some {| gX := [[7]]; gy := [1 - 7]; gsig := [1] |}) /\
  Forall same_number [([[1]; [2]], [5; 6], SScalar 2); ([[3]], [9], SSeq [4])] /\
  gp_run (Some (fun x => hd 0 x)) ([GAdd [[7]] [1] (SScalar 1)] ++ GReset :: adds [([[1]; [2]], [5; 6], SScalar 2); ([[3]], [9], SSeq [4])]) None
    = Ok (Some {| gX := [[1]; [2]; [3]]; gy := [5 - 1; 6 - 2; 9 - 3]; gsig := [2; 2; 4] |}).
Proof. split; [reflexivity|]. split; [repeat constructor|reflexivity]. Qed.
Example C67_prior_ex : no_zeroed ex_k /\ ex_Y <> [] /\ forall x, In x ex_Y -> 0 <= noisy ex_k x x.
Proof.
  split; [exact I|]. split; [discriminate|]. intros x [<- | [<- | []]]; unfold ex_k; cbn [noisy kcall]; unfold lin_call;
    cbn [combine map fst snd]; unfold rsum; cbn [fold_right]; nra.
Qed.

(** C68: noise-free observations are reproduced *)
Theorem C68_interpolates : forall mean k Y y, Y <> [] -> no_zeroed k \/ (2 <= length Y)%nat -> length y = length Y ->
  (forall M, kcov k Y Y = Ok M -> pd (length Y) (entry M)) ->
  exists mu var, gp_predict mean k (Some {| gX := Y; gy := y; gsig := repeat 0 (length Y) |}) Y = Ok (mu, var) /\
    length mu = length Y /\ length var = length Y /\
    forall i, (i < length Y)%nat -> nth i mu 0 = nth i y 0 + prior_mean mean (pt Y i) /\ nth i var 0 = 0.
Proof. exact interpolation_any_kernel. Qed.
Print Assumptions C68_interpolates.
Theorem C68_any_training_inputs : forall mean k Y y X, noiseless k -> X <> [] -> Y <> [] -> length y = length Y ->
  pd (length Y) (train_cov k Y (repeat 0 (length Y))) ->
  exists mu var, gp_predict mean k (Some {| gX := Y; gy := y; gsig := repeat 0 (length Y) |}) X = Ok (mu, var) /\
    length mu = length X /\ length var = length X /\
    forall i j, (i < length X)%nat -> (j < length Y)%nat -> pt X i = pt Y j ->
      nth i mu 0 = nth j y 0 + prior_mean mean (pt Y j) /\ nth i var 0 = 0.
Proof. exact interpolation_any. Qed.
Print Assumptions C68_any_training_inputs.
Theorem C68_nonnegative : forall mean k st X mu var, gp_predict mean k st X = Ok (mu, var) -> Forall (fun v => 0 <= v) var.
Proof. exact gp_variance_nonneg. Qed.
Print Assumptions C68_nonnegative.
Example C68_ex : no_zeroed ex_k /\ noiseless ex_k /\ (forall M, kcov ex_k ex_Y ex_Y = Ok M -> pd (length ex_Y) (entry M)) /\
  pd (length ex_Y) (train_cov ex_k ex_Y (repeat 0 (length ex_Y))).
Proof.
  split; [exact I|]. split; [exact I|]. assert (P : pd (length ex_Y) (train_cov ex_k ex_Y (repeat 0 (length ex_Y)))) by (apply ex_pd; cbn; lra).
  split; [|exact P]. intros M E. apply (pd_ext _ (train_cov ex_k ex_Y (repeat 0 (length ex_Y)))); [|exact P].
  intros i j Hi Hj. rewrite <- (train_cov_spec ex_k ex_Y (repeat 0 (length ex_Y)) M I ltac:(discriminate) (repeat_length _ _) E i j Hi Hj).
  unfold gp_cov. change (mat_at M i j) with (entry M i j). rewrite nth_repeat_0. destruct (Nat.eqb i j); ring.
Qed.

(** C69: predicting in chunks *)
Theorem C69_chunks_partial : forall inv k st X mu0 sg0 d, X <> [] -> length mu0 = length X -> length sg0 = length X -> dim d X ->
  match st with Some s => separate k X (pX s) /\ dim d (pX s) | None => no_zeroed k end ->
  predict_large (pgp_predict inv k st) X mu0 sg0 = pgp_predict inv k st X.
Proof. exact pgp_large. Qed.
Print Assumptions C69_chunks_partial.
Theorem C69_noise_refuted : forall inv, exists k d X mu0 sg0 mu var mu' var', length mu0 = length X /\ length sg0 = length X /\
  pgp_predict inv k (Some d) X = Ok (mu, var) /\ predict_large (pgp_predict inv k (Some d)) X mu0 sg0 = Ok (mu', var') /\ mu <> mu'.
Proof.
  intro inv. exists w_kern, w_data, w_query, (repeat 0 16), (repeat 0 16).
  destruct (w_differs inv (repeat 0 16) (repeat 0 16) eq_refl) as [mu [var [mu' [var' [H1 [H2 [H3 H4]]]]]]].
  exists mu, var, mu', var'. do 4 (split; [first [reflexivity | assumption]|]). intros ->. lra.
Qed.
Print Assumptions C69_noise_refuted.
Example C69_ex : separate ex_k (repeat [1; 1] 17) ex_Y /\ dim 2 (repeat [1; 1] 17) /\ dim 2 ex_Y /\
  separate (RBF 1 1 1) (repeat [1; 1] 17) ex_Y.
Proof.
  split; [left; exact I|]. split; [intros x I; apply repeat_spec in I; now subst|]. split; [intros x [<- | [<- | []]]; reflexivity|].
  right. split; [exact I|]. intros x I1 I2. apply repeat_spec in I1. subst x. destruct I2 as [E | [E | []]]; injection E; lra.
Qed.

(** C104: the prediction is the text book posterior; the order of the data is irrelevant *)
Theorem C104_posterior : forall mean k Y y sig X d, separate k X Y -> dim d X -> dim d Y -> X <> [] -> Y <> [] ->
  length y = length Y -> length sig = length Y -> pd (length Y) (train_cov k Y sig) ->
  exists mu var, gp_predict mean k (Some {| gX := Y; gy := y; gsig := sig |}) X = Ok (mu, var) /\ length mu = length X /\ length var = length X /\
    forall i, (i < length X)%nat -> exists m v, posterior k Y y (train_cov k Y sig) (pt X i) m v /\
      nth i mu 0 = m + prior_mean mean (pt X i) /\ nth i var 0 = Rmax 0 v.
Proof. exact gp_textbook. Qed.
Print Assumptions C104_posterior.
Theorem C104_posterior_unique : forall k Y y A x m v m' v', pd (length Y) A -> posterior k Y y A x m v -> posterior k Y y A x m' v' -> m = m' /\ v = v'.
Proof. exact posterior_unique. Qed.
Print Assumptions C104_posterior_unique.
Theorem C104_order : forall mean k l l' X d, Permutation l l' -> separate k X (points_of l) -> dim d X -> dim d (points_of l) -> X <> [] -> l <> [] ->
  gp_predict mean k (store l) X = gp_predict mean k (store l') X.
Proof. exact gp_perm. Qed.
Print Assumptions C104_order.
Example C104_ex : separate ex_k [[1; 1]] ex_Y /\ dim 2 [[1; 1]] /\ dim 2 ex_Y /\ pd (length ex_Y) (train_cov ex_k ex_Y [1; 0]) /\
  Permutation [([1; 0], 5, 1); ([0; 2], 6, 0)] [([0; 2], 6, 0); ([1; 0], 5, 1)] /\ points_of [([1; 0], 5, 1); ([0; 2], 6, 0)] = ex_Y /\
  posterior ex_k ex_Y [5; 6] (train_cov ex_k ex_Y [1; 0]) [1; 1] (5 / 2 + 3) (2 - 1 / 2 - 1).
Proof.
  split; [left; exact I|]. split; [intros x [<- | []]; reflexivity|]. split; [intros x [<- | [<- | []]]; reflexivity|]. split; [apply ex_pd; cbn; lra|].
  split; [apply perm_swap|]. split; [reflexivity|].
  assert (C := ex_cov [1; 0]). assert (K0 : kcall ex_k [1; 1] (pt ex_Y 0) = 1 /\ kcall ex_k [1; 1] (pt ex_Y 1) = 2 /\ noisy ex_k [1; 1] [1; 1] = 2).
  { unfold ex_k; cbn [noisy kcall pt ex_Y nth]; unfold lin_call; cbn [combine map fst snd]; unfold rsum; cbn [fold_right]. repeat split; ring. }
  destruct K0 as [K0 [K1 K2]].
  exists (fun j => if Nat.eqb j 0 then 5 / 2 else 3 / 2), (fun j => if Nat.eqb j 0 then 1 / 2 else 1 / 2). change (length ex_Y) with 2%nat.
  split; [|split; [|split]].
  - intros [|[|i]] Hi; [| |lia]; cbn [sumn]; rewrite <- !C by lia; cbn; field.
  - intros [|[|i]] Hi; [| |lia]; cbn [sumn]; rewrite <- !C by lia; rewrite ?K0, ?K1; cbn; field.
  - cbn [sumn]. rewrite K0, K1. cbn. field.
  - cbn [sumn]. rewrite K0, K1, K2. cbn. field.
Qed.

(** C105: data never increases the variance, and the exact variance is never negative *)
Theorem C105_variance : forall mean k Y y sig X d, separate k X Y -> valid d k -> periodic_1d d k -> dim d X -> dim d Y -> X <> [] -> Y <> [] ->
  length y = length Y -> length sig = length Y -> Forall (fun s => 0 <= s) sig -> pd (length Y) (train_cov k Y sig) ->
  exists mu var, gp_predict mean k (Some {| gX := Y; gy := y; gsig := sig |}) X = Ok (mu, var) /\ length var = length X /\
    forall i, (i < length X)%nat -> exists m v, posterior k Y y (train_cov k Y sig) (pt X i) m v /\ nth i var 0 = v /\ 0 <= v <= noisy k (pt X i) (pt X i).
Proof. exact gp_variance. Qed.
Print Assumptions C105_variance.
Example C105_ex : separate ex_k [[1; 1]] ex_Y /\ valid 2 ex_k /\ periodic_1d 2 ex_k /\ Forall (fun s => 0 <= s) [1; 0] /\ pd (length ex_Y) (train_cov ex_k ex_Y [1; 0]).
Proof. split; [left; exact I|]. do 2 (split; [exact I|]). split; [repeat constructor; lra|apply ex_pd; cbn; lra]. Qed.

(** C106: prediction fails exactly for a singular covariance, never with positive noise *)
Theorem C106_total : forall mean k Y y sig X d, no_zeroed k -> valid d k -> periodic_1d d k -> dim d Y -> X <> [] -> Y <> [] ->
  length y = length Y -> length sig = length Y -> Forall (fun s => 0 < s) sig ->
  exists mu var, gp_predict mean k (Some {| gX := Y; gy := y; gsig := sig |}) X = Ok (mu, var) /\ length mu = length X /\ length var = length X.
Proof. exact gp_total. Qed.
Print Assumptions C106_total.
Theorem C106_fails_iff : forall mean k Y y sig X, no_zeroed k -> X <> [] -> Y <> [] -> length y = length Y -> length sig = length Y ->
  (gp_predict mean k (Some {| gX := Y; gy := y; gsig := sig |}) X = Raise LinAlgError <-> ~ pd (length Y) (train_cov k Y sig)).
Proof. exact gp_fails_iff. Qed.
Print Assumptions C106_fails_iff.
Theorem C106_duplicates : forall mean k Y y sig X i j, noiseless k -> X <> [] -> Y <> [] -> length y = length Y -> length sig = length Y ->
  (i < length Y)%nat -> (j < length Y)%nat -> i <> j -> pt Y i = pt Y j -> nth i sig 0 = 0 -> nth j sig 0 = 0 ->
  gp_predict mean k (Some {| gX := Y; gy := y; gsig := sig |}) X = Raise LinAlgError.
Proof. exact gp_duplicate. Qed.
Print Assumptions C106_duplicates.
Example C106_ex : no_zeroed (RBF 1 1 0) /\ valid 1 (RBF 1 1 0) /\ periodic_1d 1 (RBF 1 1 0) /\ dim 1 [[2]; [3]; [2]] /\ Forall (fun s => 0 < s) [1; 1; 1] /\
  noiseless (RBF 1 1 0) /\ pt [[2]; [3]; [2]] 0 = pt [[2]; [3]; [2]] 2.
Proof.
  split; [exact I|]. split; [cbn; lra|]. split; [exact I|]. split; [intros x [<- | [<- | [<- | []]]]; reflexivity|].
  split; [repeat constructor; lra|]. split; reflexivity.
Qed.

(** C107: a fitted preference GP predicts its own fitted values, with variances between 0 and the prior variance *)
Theorem C107_fitted_values : forall inv k d, no_zeroed k -> pX d <> [] -> length (pF d) = length (pX d) -> kcov k (pX d) (pX d) = Ok (pK d) ->
  pd (length (pX d)) (mat_at (pK d)) -> exists var, pgp_predict inv k (Some d) (pX d) = Ok (pF d, var).
Proof. exact pgp_reproduces. Qed.
Print Assumptions C107_fitted_values.
Theorem C107_variance : forall inv k d dm X, inverts inv -> separate k X (pX d) -> valid dm k -> periodic_1d dm k -> dim dm X -> dim dm (pX d) ->
  X <> [] -> pX d <> [] -> kcov k (pX d) (pX d) = Ok (pK d) -> pd (length (pX d)) (mat_at (pK d)) ->
  symmetric (length (pX d)) (mat_at (pW d)) -> psd (length (pX d)) (mat_at (pW d)) ->
  exists mu var, pgp_predict inv k (Some d) X = Ok (mu, var) /\ length mu = length X /\ length var = length X /\
    forall i, (i < length X)%nat -> 0 <= nth i var 0 <= noisy k (pt X i) (pt X i) /\
      exists z, (forall a, (a < length (pX d))%nat ->
                   z a = sumn (length (pX d)) (fun b => mat_at (pW d) a b *
                           (kcall k (pt X i) (pt (pX d) b) - sumn (length (pX d)) (fun e => mat_at (pK d) b e * z e)))) /\
                nth i var 0 = noisy k (pt X i) (pt X i) - sumn (length (pX d)) (fun a => kcall k (pt X i) (pt (pX d) a) * z a).
Proof. exact pgp_variance. Qed.
Print Assumptions C107_variance.
Definition ex_M : matrix := match kcov ex_k ex_Y ex_Y with Ok M => M | Raise _ => [] end.
Definition ex_fit : pgp_data := {| pX := ex_Y; pF := [1; 2]; pW := [[1; -1]; [-1; 1]]; pK := ex_M |}.
Example C107_ex : kcov ex_k (pX ex_fit) (pX ex_fit) = Ok (pK ex_fit) /\ pd (length (pX ex_fit)) (mat_at (pK ex_fit)) /\
  symmetric (length (pX ex_fit)) (mat_at (pW ex_fit)) /\ psd (length (pX ex_fit)) (mat_at (pW ex_fit)) /\ separate ex_k [[1; 1]] (pX ex_fit) /\
  valid 2 ex_k /\ periodic_1d 2 ex_k /\ inverts gram_inv.
Proof.
  assert (E : kcov ex_k ex_Y ex_Y = Ok ex_M) by (unfold ex_M; reflexivity). split; [exact E|]. split.
  - destruct C68_ex as [_ [_ [H _]]]. exact (H _ E).
  - split; [intros [|[|i]] [|[|j]] Hi Hj; try (exfalso; simpl in *; lia); reflexivity|]. split; [|split; [left; exact I|do 2 (split; [exact I|]); exact gram_inverts]].
    intro c. change (length (pX ex_fit)) with 2%nat. unfold qform. cbn [sumn]. unfold mat_at. cbn [ex_fit pW nth]. assert (S1 := Rle_0_sqr (c 0%nat - c 1%nat)). unfold Rsqr in S1. lra.
Qed.
