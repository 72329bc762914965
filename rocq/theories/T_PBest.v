(** Properties C119-C126: chances of being the best, generalised variance, learners on sampled linear models, remaining reward functions *)
From Verif Require Import M_Base M_RBase M_Select M_Normal M_GP M_Acq M_OrdProbit M_HyperGrad M_PBest M_Fake2.
From Coquelicot Require Import Coquelicot.
From Verif Require Import P_RBase P_Normal P_Psd P_Det P_GP3 P_PBest P_PBest2 P_PBest3 P_PBest4 P_PBest5 P_Fake4 S_PBest S_GP S_Psd M_UCB.
From Coq Require Import Reals Lra Lia List.
Local Open Scope R_scope.

(** C119: sampled chances of being the best *)
Theorem C119_chances : forall d pts ws, (forall x, In x pts -> length x = d) -> (forall w, In w ws -> length w = d) -> pts <> nil -> ws <> nil ->
  exists p, p_B_pref_linear pts ws = Ok p /\ chances (length pts) p /\
    forall i, (i < length pts)%nat -> exists k, counts (fun w => first_best (length pts) (fun j => reward d (nth j pts nil) w) i) ws k /\
      nth i p 0 = INR k / INR (length ws).
Proof. exact linear_chances. Qed.
Print Assumptions C119_chances.
Theorem C119_never : forall d pts ws i j p, (forall x, In x pts -> length x = d) -> (forall w, In w ws -> length w = d) -> ws <> nil ->
  (i < length pts)%nat -> (j < length pts)%nat -> (forall w, In w ws -> reward d (nth i pts nil) w < reward d (nth j pts nil) w) ->
  p_B_pref_linear pts ws = Ok p -> nth i p 0 = 0.
Proof. exact linear_never. Qed.
Print Assumptions C119_never.
Theorem C119_always : forall d pts ws i p, (forall x, In x pts -> length x = d) -> (forall w, In w ws -> length w = d) -> ws <> nil ->
  (i < length pts)%nat -> (forall w j, In w ws -> (j < length pts)%nat -> j <> i -> reward d (nth j pts nil) w < reward d (nth i pts nil) w) ->
  p_B_pref_linear pts ws = Ok p -> nth i p 0 = 1 /\ forall j, (j < length pts)%nat -> j <> i -> nth j p 0 = 0.
Proof. exact linear_always. Qed.
Print Assumptions C119_always.
(** a candidate below another one in every dimension is never the best for non-negative weights, not all zero *)
Theorem C119_dominated : forall d pts ws i j p, (forall x, In x pts -> length x = d) -> (forall w, In w ws -> length w = d) -> ws <> nil ->
  (i < length pts)%nat -> (j < length pts)%nat -> (forall c, (c < d)%nat -> nth c (nth i pts nil) 0 < nth c (nth j pts nil) 0) ->
  (forall w, In w ws -> (forall c, (c < d)%nat -> 0 <= nth c w 0) /\ exists c, (c < d)%nat /\ 0 < nth c w 0) ->
  p_B_pref_linear pts ws = Ok p -> nth i p 0 = 0.
Proof. exact linear_dominated. Qed.
Print Assumptions C119_dominated.
Example C119_ex : let pts := (1 :: 0 :: nil) :: (0 :: 1 :: nil) :: (0 :: -1 :: nil) :: nil in let ws := (2 :: 1 :: nil) :: (1 :: 3 :: nil) :: (5 :: 0 :: nil) :: nil in
  exists p, p_B_pref_linear pts ws = Ok p /\ nth 0 p 0 = 2 / 3 /\ nth 1 p 0 = 1 / 3 /\ nth 2 p 0 = 0.
Proof.
  intros pts ws.
  assert (H1 : forall x, In x pts -> length x = 2%nat) by (intros x [<-|[<-|[<-|[]]]]; reflexivity).
  assert (H2 : forall w, In w ws -> length w = 2%nat) by (intros w [<-|[<-|[<-|[]]]]; reflexivity).
  destruct (C119_chances 2 pts ws H1 H2) as [p [E [[L [P T]] F]]]; try discriminate. exists p. split; [exact E|].
  assert (B : forall i j w, In w ws -> (i < 3)%nat -> (j < 3)%nat -> reward 2 (nth i pts nil) w < reward 2 (nth j pts nil) w ->
     ~ first_best (length pts) (fun j => reward 2 (nth j pts nil) w) i) by (intros i j w _ _ Hj Hlt [_ [M _]]; assert (A := M j Hj); cbn beta in A; lra).
  destruct (F 0%nat) as [k [Hk ->]]; [simpl; lia|].
  destruct (F 1%nat) as [k1 [Hk1 ->]]; [simpl; lia|]. destruct (F 2%nat) as [k2 [Hk2 ->]]; [simpl; lia|].
  assert (Fb0 : first_best 3 (fun j => reward 2 (nth j pts nil) (2 :: 1 :: nil)) 0).
  { split; [lia|]. split; [|intros; lia]. intros [|[|[|j]]] Hj; try lia; unfold reward; simpl; lra. }
  assert (Fb2 : first_best 3 (fun j => reward 2 (nth j pts nil) (5 :: 0 :: nil)) 0).
  { split; [lia|]. split; [|intros; lia]. intros [|[|[|j]]] Hj; try lia; unfold reward; simpl; lra. }
  assert (Fb1 : first_best 3 (fun j => reward 2 (nth j pts nil) (1 :: 3 :: nil)) 1).
  { split; [lia|]. split; [intros [|[|[|j]]] Hj|intros [|j] Hj]; try lia; unfold reward; simpl; lra. }
  assert (K0 : k = 2%nat). { inversion Hk as [|? ? ? A Hk'|? ? ? A Hk']; subst; [|contradiction]. inversion Hk' as [|? ? ? A' Hk''|? ? ? A' Hk'']; subst.
    { assert (Z := first_best_unique _ _ _ _ A' Fb1). discriminate. }
    inversion Hk'' as [|? ? ? A'' Hk3|? ? ? A'' Hk3]; subst; [|contradiction]. inversion Hk3. reflexivity. }
  assert (K1 : k1 = 1%nat). { inversion Hk1 as [|? ? ? A Hk'|? ? ? A Hk']; subst. { assert (Z := first_best_unique _ _ _ _ A Fb0). discriminate. }
    inversion Hk' as [|? ? ? A' Hk''|? ? ? A' Hk'']; subst; [|contradiction].
    inversion Hk'' as [|? ? ? A'' Hk3|? ? ? A'' Hk3]; subst. { assert (Z := first_best_unique _ _ _ _ A'' Fb2). discriminate. } inversion Hk3. reflexivity. }
  assert (K2 : k2 = 0%nat). { apply (counts_none _ _ _ Hk2). intros w [<-|[<-|[<-|[]]]] A.
    - assert (Z := first_best_unique _ _ _ _ A Fb0). discriminate. - assert (Z := first_best_unique _ _ _ _ A Fb1). discriminate.
    - assert (Z := first_best_unique _ _ _ _ A Fb2). discriminate. }
  rewrite K0, K1, K2. simpl. repeat split; lra.
Qed.

(** C120: the information gain learner needs a preference GP *)
Theorem C120_linear_refuted : forall ext sigma n mu K, get_p_B_probit ext KindPrefLinear sigma n mu K = Raise TypeError.
Proof. exact (fun _ _ _ _ _ => eq_refl). Qed.
Print Assumptions C120_linear_refuted.
Theorem C120_gp_refuted : forall ext sigma n mu K, get_p_B_probit ext KindGP sigma n mu K = Raise UnboundLocalError.
Proof. exact (fun _ _ _ _ _ => eq_refl). Qed.
Print Assumptions C120_gp_refuted.
Theorem C120_preference_gp : forall ext sigma n mu K (q : nat -> R), (0 < n)%nat -> 0 < sigma ->
  (forall i, (i < n)%nat -> 0 < q i /\ ext_mvn ext (map Ropp (mu_star mu n i)) (K_star K n i) = Ok (q i)) ->
  exists p L, get_p_B_probit ext KindPrefGP sigma n mu K = Ok (p, L) /\ chances n p /\ forall i j, 0 < L i j < 1 /\ L i i = 1 / 2 /\ (nth i mu 0 <= nth j mu 0 -> L i j <= L j i).
Proof. exact probit_gp. Qed.
Print Assumptions C120_preference_gp.
Example C120_ex : exists ext, forall i, (i < 2)%nat -> ext_mvn ext (map Ropp (mu_star (1 :: 2 :: nil) 2 i)) (K_star ((2 :: 0 :: nil) :: (0 :: 2 :: nil) :: nil) 2 i) = Ok (1 / 3).
Proof. exists (mkExt (fun _ _ => Ok (1 / 3)) (fun _ _ => Ok (1 / 3))). reflexivity. Qed.

(** C121: the methods of calc_cdf *)
Theorem C121_independent_refuted : forall ext m v, m <> 0 -> 0 < v -> v <> 1 ->
  calc_cdf ext CdfIndependent (m :: nil) ((v :: nil) :: nil) <> Ok (Some (independent_cdf (m :: nil) (v :: nil))).
Proof. exact independent_wrong. Qed.
Print Assumptions C121_independent_refuted.
Theorem C121_independent_partial : forall ext mu cov, (forall i, (i < length mu)%nat -> mat_at cov i i = 1) ->
  calc_cdf ext CdfIndependent mu cov = Ok (Some (independent_cdf mu (map (fun i => mat_at cov i i) (seq 0 (length mu))))).
Proof. exact independent_right. Qed.
Print Assumptions C121_independent_partial.
Theorem C121_independent_range : forall ext mu cov p, mu <> nil -> calc_cdf ext CdfIndependent mu cov = Ok (Some p) -> 0 < p < 1.
Proof. exact independent_range'. Qed.
Print Assumptions C121_independent_range.
Theorem C121_independent_monotone : forall ext mu mu' cov p p', length mu = length mu' ->
  (forall i, (i < length mu)%nat -> 0 < mat_at cov i i /\ nth i mu 0 <= nth i mu' 0) ->
  calc_cdf ext CdfIndependent mu cov = Ok (Some p) -> calc_cdf ext CdfIndependent mu' cov = Ok (Some p') -> p' <= p.
Proof. exact independent_monotone'. Qed.
Print Assumptions C121_independent_monotone.
Theorem C121_switch_refuted : forall ext mu cov, rejects_singular (ext_full ext) -> (2 <= length cov)%nat ->
  (forall i j, (i < length cov)%nat -> (j < length cov)%nat -> i <> j -> mat_at cov i j = 0) -> exists e, calc_cdf ext CdfSwitch mu cov = Raise e.
Proof. exact switch_diagonal. Qed.
Print Assumptions C121_switch_refuted.
Theorem C121_switch_two_partial : forall ext m0 m1 a b c, b <> 0 ->
  calc_cdf ext CdfSwitch (m0 :: m1 :: nil) ((a :: b :: nil) :: (b :: c :: nil) :: nil) = calc_cdf ext CdfFull (m0 :: m1 :: nil) ((a :: b :: nil) :: (b :: c :: nil) :: nil).
Proof. exact switch_two. Qed.
Print Assumptions C121_switch_two_partial.
Theorem C121_default : forall ext mu cov, calc_cdf ext CdfAuto mu cov = calc_cdf ext CdfMvn mu cov /\ calc_cdf ext CdfOther mu cov = Ok None.
Proof. exact (fun _ _ _ => conj eq_refl eq_refl). Qed.
Print Assumptions C121_default.
Example C121_ex : mat_at ((1 :: 0 :: nil) :: (0 :: 1 :: nil) :: nil) 0 0 = 1 /\ mat_at ((1 :: 0 :: nil) :: (0 :: 1 :: nil) :: nil) 1 1 = 1 /\
  mat_at ((1 :: 0 :: nil) :: (0 :: 1 :: nil) :: nil) 0 1 = 0 /\ mat_at ((1 :: 0 :: nil) :: (0 :: 1 :: nil) :: nil) 1 0 = 0.
Proof. repeat split. Qed.
(** a routine with the assumed contract: it refuses every covariance that is not the number 1 *)
Example C121_contract_ex : exists f, rejects_singular f /\ exists mu cov p, f mu cov = Ok p.
Proof.
  exists (fun _ cov => match cov with nil => Ok (1 / 2) | _ => Raise LinAlgError end). split; [|exists nil, nil, (1 / 2); reflexivity].
  intros mu [|r cov] H; [|eexists; reflexivity]. exfalso. apply H. intros c [i [Hi _]]. simpl in Hi. lia.
Qed.

(** C122: the joint normal distribution of the differences *)
Theorem C122_differences : forall K m i e, (i < S m)%nat -> symmetric (S m) (mat_at K) -> sumn (S m) e = 0 ->
  qform m (mat_at (K_star K (S m) i)) (fun j => e (other i j)) = qform (S m) (mat_at K) e.
Proof. exact K_star_qform. Qed.
Print Assumptions C122_differences.
Theorem C122_covariance : forall K m i, (i < S m)%nat -> symmetric (S m) (mat_at K) -> psd (S m) (mat_at K) ->
  symmetric m (mat_at (K_star K (S m) i)) /\ psd m (mat_at (K_star K (S m) i)) /\ (pd (S m) (mat_at K) -> pd m (mat_at (K_star K (S m) i))).
Proof. exact (fun K m i Hi HS HP => conj (K_star_sym K m i Hi HS) (conj (K_star_psd K m i Hi HS HP) (K_star_pd K m i Hi HS))). Qed.
Print Assumptions C122_covariance.
Theorem C122_means : forall mu m i a, (i < S m)%nat -> (a < m)%nat -> length (mu_star mu (S m) i) = m /\ nth a (mu_star mu (S m) i) 0 = nth (other i a) mu 0 - nth i mu 0.
Proof. exact mu_star_at. Qed.
Print Assumptions C122_means.
Theorem C122_chances : forall ext cm n mu K (q : nat -> R), (0 < n)%nat ->
  (forall i, (i < n)%nat -> 0 < q i /\ calc_cdf ext cm (mu_star mu n i) (K_star K n i) = Ok (Some (q i))) ->
  exists p, p_B_pref_gp ext cm n mu K = Ok p /\ chances n p /\ forall i, (i < n)%nat -> nth i p 0 = q i / sumn n q.
Proof. exact gp_chances. Qed.
Print Assumptions C122_chances.
Theorem C122_two : forall ext mu0 mu1 a b c, exact_1d (ext_mvn ext) -> 0 < a + c - 2 * b ->
  p_B_pref_gp ext CdfAuto 2 (mu0 :: mu1 :: nil) ((a :: b :: nil) :: (b :: c :: nil) :: nil) =
  Ok (ndtr ((mu0 - mu1) / sqrt (a + c - 2 * b)) :: ndtr ((mu1 - mu0) / sqrt (a + c - 2 * b)) :: nil).
Proof. exact gp_two. Qed.
Print Assumptions C122_two.
Theorem C122_two_order : forall ext mu0 mu1 a b c p0 p1, exact_1d (ext_mvn ext) -> 0 < a + c - 2 * b ->
  p_B_pref_gp ext CdfAuto 2 (mu0 :: mu1 :: nil) ((a :: b :: nil) :: (b :: c :: nil) :: nil) = Ok (p0 :: p1 :: nil) ->
  (mu1 < mu0 <-> p1 < p0) /\ p0 + p1 = 1.
Proof. exact gp_two_order. Qed.
Print Assumptions C122_two_order.
Example C122_ex : exact_1d (fun x cov => match x, cov with a :: nil, (v :: nil) :: nil => Ok (ndtr (a / sqrt v)) | _, _ => Raise ValueError end) /\ 0 < 2 + 3 - 2 * 1 /\
  pd 2 (mat_at ((2 :: 1 :: nil) :: (1 :: 3 :: nil) :: nil)) /\ symmetric 2 (mat_at ((2 :: 1 :: nil) :: (1 :: 3 :: nil) :: nil)).
Proof.
  split; [intros x v _; reflexivity|]. split; [lra|]. split.
  - intros c [i [Hi Hc]]. unfold qform, mat_at. simpl. assert (Q : 0 < (c O + c 1%nat) ^ 2 + c O ^ 2 + 2 * c 1%nat ^ 2); [|nra].
    assert (0 <= (c O + c 1%nat) ^ 2) by apply pow2_ge_0. assert (0 <= c O ^ 2) by apply pow2_ge_0. assert (0 <= c 1%nat ^ 2) by apply pow2_ge_0.
    destruct i as [|[|i]]; [assert (0 < c O ^ 2) by now apply pow2_gt_0|assert (0 < c 1%nat ^ 2) by now apply pow2_gt_0|lia]; lra.
  - intros [|[|i]] [|[|j]] Hi Hj; try lia; reflexivity.
Qed.

(** C123: generalised variance *)
Theorem C123_defined : forall N cov sel, (forall i, In i sel -> (i < N)%nat) -> symmetric N cov -> psd N cov -> 0 <= det (length sel) (sub_matrix cov sel).
Proof. exact sub_det_nonneg. Qed.
Print Assumptions C123_defined.
Theorem C123_score : forall N alpha mu cov prev idx, (forall i, In i prev -> (i < N)%nat) -> (idx < N)%nat -> symmetric N cov -> psd N cov ->
  exists b, gv_score alpha mu cov prev idx = mu idx + alpha * b /\ 0 <= b /\ b ^ S (length prev) = det (S (length prev)) (sub_matrix cov (prev ++ idx :: nil)).
Proof. exact gv_score_root. Qed.
Print Assumptions C123_score.
Theorem C123_conditional : forall cov prev idx x, (forall i j, cov i j = cov j i) ->
  solves (length prev) (sub_matrix cov prev) (fun k => cov (nth k prev O) idx) x ->
  det (S (length prev)) (sub_matrix cov (prev ++ idx :: nil)) =
    det (length prev) (sub_matrix cov prev) * (cov idx idx - sumn (length prev) (fun k => x k * cov (nth k prev O) idx)).
Proof. exact gv_conditional. Qed.
Print Assumptions C123_conditional.
Theorem C123_bound : forall N cov prev idx, (forall i, In i prev -> (i < N)%nat) -> (idx < N)%nat -> (forall i j, cov i j = cov j i) -> psd N cov ->
  pd (length prev) (sub_matrix cov prev) ->
  0 <= det (S (length prev)) (sub_matrix cov (prev ++ idx :: nil)) <= det (length prev) (sub_matrix cov prev) * cov idx idx.
Proof. exact gv_bound. Qed.
Print Assumptions C123_bound.
Theorem C123_duplicate : forall alpha mu cov prev idx, In idx prev -> gv_score alpha mu cov prev idx = mu idx.
Proof. exact gv_duplicate. Qed.
Print Assumptions C123_duplicate.
Theorem C123_choice : forall alpha mu cov indicies prev, indicies <> nil -> exists i, gv_greedy alpha mu cov indicies prev = Ok i /\
  In i indicies /\ forall j, In j indicies -> gv_score alpha mu cov prev j <= gv_score alpha mu cov prev i.
Proof. exact gv_choice. Qed.
Print Assumptions C123_choice.
(** the first choice weighs the variance, not the standard deviation, and differs from the choice of the upper confidence bound *)
Theorem C123_first : forall alpha mu cov idx, 0 <= cov idx idx -> gv_score alpha mu cov nil idx = mu idx + alpha * cov idx idx.
Proof. exact gv_first. Qed.
Print Assumptions C123_first.
Theorem C123_deviation_refuted : exists mu var, let cov := fun i j => if Nat.eqb i j then nth i var 0 else 0 in
  symmetric 2 cov /\ psd 2 cov /\ gv_greedy 1 (fun i => nth i mu 0) cov (0 :: 1 :: nil)%nat nil = Ok 0%nat /\
  ucb_greedy (fun _ l => l) 1 mu var 0 (0 :: 1 :: nil)%nat nil = Ok 1%nat.
Proof. exact gv_not_ucb. Qed.
Print Assumptions C123_deviation_refuted.
Example C123_ex : let cov := fun i j : nat => match i, j with O, O => 2 | O, S O => 1 | S O, O => 1 | S O, S O => 2 | _, _ => 0 end in
  det 2 (sub_matrix cov (0 :: 1 :: nil)%nat) = 3 /\ solves 1 (sub_matrix cov (0 :: nil)%nat) (fun k => cov (nth k (0 :: nil) 0) 1)%nat (fun _ => (1 / 2)%R).
Proof. split; [unfold det, sum_to, sub_matrix, skip; simpl; lra|]. intros [|i] Hi; [|lia]. unfold sub_matrix. simpl. lra. Qed.

(** C124: the upper confidence bound of a linear model *)
Theorem C124_choice : forall d pts ws, (forall x, In x pts -> length x = d) -> (forall w, In w ws -> length w = d) -> forall alpha mu idx,
  (length pts <= length mu)%nat -> idx <> nil -> (forall i, In i idx -> (i < length pts)%nat) ->
  let var j := covn (length ws) (INR (length ws)) (fun k => reward d (nth j pts nil) (nth k ws nil)) (fun k => reward d (nth j pts nil) (nth k ws nil)) in
  exists i, ucb_linear alpha mu pts ws idx = Ok i /\ In i idx /\ forall j, In j idx -> nth j mu 0 + alpha * sqrt (var j) <= nth i mu 0 + alpha * sqrt (var i).
Proof. exact ucb_linear_spec. Qed.
Print Assumptions C124_choice.
Theorem C124_covariance : forall d pts ws, (forall x, In x pts -> length x = d) -> (forall w, In w ws -> length w = d) -> (2 <= length ws)%nat ->
  symmetric (length pts) (col_cov (sampled_values pts ws)) /\ psd (length pts) (col_cov (sampled_values pts ws)) /\
  forall i j, (i < length pts)%nat -> (j < length pts)%nat -> col_cov (sampled_values pts ws) i j =
    covn (length ws) (INR (length ws) - 1) (fun k => reward d (nth i pts nil) (nth k ws nil)) (fun k => reward d (nth j pts nil) (nth k ws nil)).
Proof. exact linear_covariance. Qed.
Print Assumptions C124_covariance.
(** both learners on one set of samples: the variance of the generalised-variance learner is larger by the factor n / (n - 1) *)
Theorem C124_divisors : forall d pts ws, (forall x, In x pts -> length x = d) -> (forall w, In w ws -> length w = d) -> (2 <= length ws)%nat -> forall i, (i < length pts)%nat ->
  INR (length ws) * col_var (sampled_values pts ws) i = (INR (length ws) - 1) * col_cov (sampled_values pts ws) i i /\ 0 <= col_var (sampled_values pts ws) i.
Proof. exact linear_divisors. Qed.
Print Assumptions C124_divisors.
Example C124_ex : let pts := (1 :: 0 :: nil) :: (0 :: 1 :: nil) :: nil in let ws := (2 :: 1 :: nil) :: (4 :: 1 :: nil) :: nil in
  col_var (sampled_values pts ws) 0 = 1 /\ col_var (sampled_values pts ws) 1 = 0 /\ col_cov (sampled_values pts ws) 0 0 = 2.
Proof. unfold col_var, col_cov, col_mean, sampled_values, dot_pw. simpl. repeat split; lra. Qed.

(** C125: samples of the model *)
Theorem C125_gp : forall kind gauss ws cand rep idx, kind = KindPrefGP \/ kind = KindGP ->
  (forall r, In r gauss -> length r = (length cand + length (rep_points rep))%nat) ->
  exists all_rep all_Q, get_samples_from_model (Some kind) None gauss ws cand rep idx = Ok (all_rep, all_Q) /\
    length all_rep = length gauss /\ length all_Q = length gauss /\ forall k, (k < length gauss)%nat ->
      length (nth k all_Q nil) = length cand /\ length (nth k all_rep nil) = length (rep_points rep) /\ nth k all_Q nil ++ nth k all_rep nil = nth k gauss nil.
Proof. exact samples_gp. Qed.
Print Assumptions C125_gp.
Theorem C125_linear : forall d gauss ws cand rep idx, (forall x, In x cand -> length x = d) -> (forall x, In x (rep_points rep) -> length x = d) ->
  (forall w, In w ws -> length w = d) ->
  exists all_rep all_Q, get_samples_from_model (Some KindPrefLinear) None gauss ws cand rep idx = Ok (all_rep, all_Q) /\
    length all_rep = length ws /\ length all_Q = length ws /\ forall k, (k < length ws)%nat ->
      length (nth k all_Q nil) = length cand /\ length (nth k all_rep nil) = length (rep_points rep) /\
      (forall i, (i < length cand)%nat -> nth i (nth k all_Q nil) 0 = reward d (nth i cand nil) (nth k ws nil)) /\
      (forall i, (i < length (rep_points rep))%nat -> nth i (nth k all_rep nil) 0 = reward d (nth i (rep_points rep) nil) (nth k ws nil)).
Proof. exact samples_linear. Qed.
Print Assumptions C125_linear.
Theorem C125_stored : forall kind rep Q gauss ws cand x idx, (forall r, In r Q -> forall i, In i idx -> (i < length r)%nat) ->
  get_samples_from_model kind (Some (rep, Q)) gauss ws cand x None = Ok (rep, Q) /\
  exists Q', get_samples_from_model kind (Some (rep, Q)) gauss ws cand x (Some idx) = Ok (rep, Q') /\ length Q' = length Q /\
    forall k a, (k < length Q)%nat -> (a < length idx)%nat -> length (nth k Q' nil) = length idx /\ nth a (nth k Q' nil) 0 = nth (nth a idx O) (nth k Q nil) 0.
Proof. exact (fun kind rep Q gauss ws cand x idx H => conj eq_refl (samples_stored kind rep Q gauss ws cand x idx H)). Qed.
Print Assumptions C125_stored.
Theorem C125_unknown : forall gauss ws cand x idx, get_samples_from_model None None gauss ws cand x idx = Raise ValueError.
Proof. exact (fun _ _ _ _ _ => eq_refl). Qed.
Print Assumptions C125_unknown.
(** with stored samples and no indices the arguments are ignored: the rewards returned are those of the stored points *)
Theorem C125_stale_refuted : exists Q cand, length cand = 1%nat /\
  get_samples_from_model (Some KindPrefLinear) (Some (nil, Q)) nil ((1 :: nil) :: nil) cand None None = Ok (nil, Q) /\ nth 0 (nth 0 Q nil) 0 <> reward 1 (nth 0 cand nil) (1 :: nil).
Proof. exists ((5 :: nil) :: nil), ((2 :: nil) :: nil). split; [reflexivity|]. split; [reflexivity|]. unfold reward. simpl. lra. Qed.
Print Assumptions C125_stale_refuted.
Example C125_ex : get_samples_from_model (Some KindPrefLinear) None nil ((2 :: nil) :: (3 :: nil) :: nil) ((1 :: nil) :: nil) (Some ((4 :: nil) :: nil)) None =
  Ok (((4 * 2 + 0) :: nil) :: ((4 * 3 + 0) :: nil) :: nil, ((1 * 2 + 0) :: nil) :: ((1 * 3 + 0) :: nil) :: nil).
Proof. reflexivity. Qed.

(** C126: the remaining reward functions *)
Theorem C126_sums : forall f i j vals, integrate_init TwoD f = Ok vals ->
  vals i j = sumn i (fun a => sumn j (fun b => f (INR (S a) * (5 / 100)) (INR (S b) * (5 / 100)))) * (5 / 100).
Proof. exact integrate_sums. Qed.
Print Assumptions C126_sums.
(** for the constant one the integral over [0, x] x [0, y] is x y; the grid has one factor of the spacing too few *)
Theorem C126_area_refuted : forall i j vals, (0 < i)%nat -> (0 < j)%nat -> integrate_init TwoD (fun _ _ => 1) = Ok vals ->
  vals i j = 20 * (tick i * tick j) /\ vals i j <> tick i * tick j.
Proof. exact integrate_area. Qed.
Print Assumptions C126_area_refuted.
Theorem C126_calc_refuted : forall f g vf vg row, integrate_init TwoD f = Ok vf -> integrate_init TwoD g = Ok vg -> integrate_calc vf row = integrate_calc vg row.
Proof. exact (fun _ _ _ _ _ _ _ => eq_refl). Qed.
Print Assumptions C126_calc_refuted.
(** what calc returns instead: the first reward, whatever the integrand *)
Theorem C126_calc_first_refuted : forall f x rest vals, integrate_init TwoD f = Ok vals -> integrate_calc vals (x :: rest) = Ok x.
Proof. exact (fun _ _ _ _ _ => eq_refl). Qed.
Print Assumptions C126_calc_first_refuted.
Theorem C126_dimension_refuted : forall f, integrate_init OneD f = Raise IndexError.
Proof. exact (fun _ => eq_refl). Qed.
Print Assumptions C126_dimension_refuted.
Theorem C126_static_refuted : static_sin 10 < static_sin 8.
Proof. exact static_decreases. Qed.
Print Assumptions C126_static_refuted.
Theorem C126_decay : forall w k ph x, Rabs (sin_exp w k ph x) <= exp (- rsum (map (fun ab : R * R => fst ab * snd ab) (combine x w))).
Proof. exact sin_exp_bound. Qed.
Print Assumptions C126_decay.
Example C126_ex : exists vals, integrate_init TwoD (fun x y => x + y) = Ok vals /\ vals 1%nat 1%nat = 1 / 10 * (5 / 100).
Proof. eexists. split; [reflexivity|]. unfold integrate_vals, tick, grid_size. simpl. field. Qed.
