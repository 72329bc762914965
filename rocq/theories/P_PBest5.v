(** Lemmas: learners and samples of linear models. *)
From Verif Require Import M_Base M_RBase M_Select M_Normal M_GP M_Acq M_OrdProbit M_HyperGrad M_PBest.
From Verif Require Import P_Base P_RBase P_Select P_Psd P_UCB P_PBest S_PBest S_GP S_Psd M_UCB.
From Coq Require Import Reals Lra Lia List.
Import ListNotations.
Local Open Scope R_scope.

Lemma rsum_rows {A} (f : A -> R) (l : list A) d : rsum (map f l) = sumn (length l) (fun k => f (nth k l d)).
Proof.
  rewrite rsum_sumn, map_length. apply sumn_ext. intros k Hk. rewrite (nth_indep _ 0 (f d)) by now rewrite map_length. now rewrite map_nth.
Qed.
Section sampled.
Variables (d : nat) (pts ws : list (list R)).
Hypothesis Hp : forall x, In x pts -> length x = d.
Hypothesis Hw : forall w, In w ws -> length w = d.
Definition val_of (i k : nat) : R := reward d (nth i pts []) (nth k ws []).
Notation all_w := (sampled_values pts ws).
Lemma sampled_at i k : (i < length pts)%nat -> (k < length ws)%nat -> nth i (nth k all_w []) 0 = val_of i k.
Proof.
  intros Hi Hk. unfold sampled_values. rewrite (nth_indep _ [] ((fun w => map (fun x => dot_pw x w) pts) [])) by now rewrite map_length.
  rewrite (map_nth (fun w => map (fun x => dot_pw x w) pts)). apply (sampled_row d pts ws Hp Hw); auto. now apply nth_In.
Qed.
Lemma sampled_len : length all_w = length ws.
Proof. apply map_length. Qed.
Lemma col_mean_is i : (i < length pts)%nat -> col_mean all_w i = meann (length ws) (val_of i).
Proof.
  intro Hi. unfold col_mean, meann. rewrite (rsum_rows _ _ []), sampled_len. f_equal. apply sumn_ext. intros k Hk. now apply sampled_at.
Qed.
Lemma col_cov_is i j : (i < length pts)%nat -> (j < length pts)%nat -> col_cov all_w i j = covn (length ws) (INR (length ws) - 1) (val_of i) (val_of j).
Proof.
  intros Hi Hj. unfold col_cov, covn. rewrite (rsum_rows _ _ []), sampled_len. f_equal. apply sumn_ext. intros k Hk.
  now rewrite !col_mean_is, !sampled_at.
Qed.
Lemma col_var_is i : (i < length pts)%nat -> col_var all_w i = covn (length ws) (INR (length ws)) (val_of i) (val_of i).
Proof.
  intro Hi. unfold col_var, covn. rewrite (rsum_rows _ _ []), sampled_len. f_equal. apply sumn_ext. intros k Hk.
  rewrite !col_mean_is, !sampled_at by auto. ring.
Qed.
Lemma ucb_linear_spec alpha mu idx : (length pts <= length mu)%nat -> idx <> [] -> (forall i, In i idx -> (i < length pts)%nat) ->
  exists i, ucb_linear alpha mu pts ws idx = Ok i /\ In i idx /\ forall j, In j idx ->
    nth j mu 0 + alpha * sqrt (covn (length ws) (INR (length ws)) (val_of j) (val_of j)) <=
    nth i mu 0 + alpha * sqrt (covn (length ws) (INR (length ws)) (val_of i) (val_of i)).
Proof.
  intros Hmu Hne Hin. set (var := map (col_var all_w) (seq 0 (length pts))).
  assert (Hs : forall j, In j idx -> ucb_score alpha mu var j = Ok (nth j mu 0 + alpha * sqrt (covn (length ws) (INR (length ws)) (val_of j) (val_of j)))).
  { intros j Hj. assert (Hj' := Hin j Hj). apply ucb_score_ok.
    - apply nth_error_nth'. lia.
    - rewrite <- (col_var_is j Hj'). unfold var. rewrite <- (nth_map_seq (col_var all_w) 0 (length pts) j Hj'). apply nth_error_nth'.
      now rewrite map_length, seq_length. }
  change (ucb_linear alpha mu pts ws idx) with (pick_extreme Rltb (ucb_score alpha mu var) idx).
  destruct (pick_extreme_total Rltb (ucb_score alpha mu var) idx R_order_ok Hne) as [i [E Hi]]. { intros j Hj. eexists. now apply Hs. }
  exists i. split; [exact E|]. split; [exact Hi|]. intros j Hj. destruct (pick_extreme_spec _ _ _ _ R_order_ok E) as [_ [m [Hm K]]].
  assert (A := K j _ Hj (Hs j Hj)). rewrite (Hs i Hi) in Hm. injection Hm as <-. now apply Rltb_false in A.
Qed.
Lemma sampled_shape : length all_w = length ws /\ forall k, (k < length ws)%nat -> length (nth k all_w []) = length pts.
Proof.
  split; [apply sampled_len|]. intros k Hk. unfold sampled_values. rewrite (nth_indep _ [] ((fun w => map (fun x => dot_pw x w) pts) [])) by now rewrite map_length.
  rewrite (map_nth (fun w => map (fun x => dot_pw x w) pts)). apply map_length.
Qed.
End sampled.
Lemma covn_sum n dv (v : nat -> nat -> R) m c : sumn m (fun i => sumn m (fun j => c i * c j * covn n dv (v i) (v j))) =
  sumn n (fun k => (sumn m (fun i => c i * (v i k - meann n (v i)))) ^ 2) / dv.
Proof.
  unfold covn. transitivity (sumn m (fun i => sumn m (fun j => sumn n (fun k => (c i * (v i k - meann n (v i))) * (c j * (v j k - meann n (v j)))))) / dv).
  - unfold Rdiv. rewrite <- sumn_scale_r. apply sumn_ext. intros i _. rewrite <- sumn_scale_r. apply sumn_ext. intros j _. rewrite <- !Rmult_assoc.
    f_equal. rewrite <- sumn_scale. apply sumn_ext. intros k _. ring.
  - f_equal. rewrite (sumn_ext m _ (fun i => sumn n (fun k => sumn m (fun j => (c i * (v i k - meann n (v i))) * (c j * (v j k - meann n (v j))))))) by (intros; apply sumn_swap).
    rewrite sumn_swap. apply sumn_ext. intros k _. rewrite <- sumn_prod. ring.
Qed.
Lemma covn_psd n dv (v : nat -> nat -> R) m : 0 < dv -> psd m (fun i j => covn n dv (v i) (v j)).
Proof.
  intros H c. unfold qform. rewrite (covn_sum n dv v m c). apply Rmult_le_pos; [|left; now apply Rinv_0_lt_compat]. apply sumn_nonneg. intros; apply pow2_ge_0.
Qed.
Lemma covn_sym n dv x y : covn n dv x y = covn n dv y x.
Proof. unfold covn. f_equal. apply sumn_ext. intros; ring. Qed.
Lemma covn_nonneg n dv x : 0 < dv -> 0 <= covn n dv x x.
Proof. intro H. unfold covn. apply Rmult_le_pos; [|left; now apply Rinv_0_lt_compat]. apply sumn_nonneg. intros k _. exact (Rle_0_sqr _). Qed.

(** ---- samples ---- *)
Lemma samples_gp kind gauss ws cand rep idx : kind = KindPrefGP \/ kind = KindGP ->
  (forall r, In r gauss -> length r = (length cand + length (rep_points rep))%nat) ->
  exists all_rep all_Q, get_samples_from_model (Some kind) None gauss ws cand rep idx = Ok (all_rep, all_Q) /\
    length all_rep = length gauss /\ length all_Q = length gauss /\ forall k, (k < length gauss)%nat ->
      length (nth k all_Q []) = length cand /\ length (nth k all_rep []) = length (rep_points rep) /\ nth k all_Q [] ++ nth k all_rep [] = nth k gauss [].
Proof.
  intros K L. exists (map (skipn (length cand)) gauss), (map (firstn (length cand)) gauss). split; [destruct K as [-> | ->]; reflexivity|].
  split; [apply map_length|]. split; [apply map_length|]. intros k Hk. assert (Lk := L _ (nth_In gauss [] Hk)).
  assert (E1 : nth k (map (firstn (length cand)) gauss) [] = firstn (length cand) (nth k gauss [])).
  { rewrite (nth_indep _ [] (firstn (length cand) [])) by now rewrite map_length. apply map_nth. }
  assert (E2 : nth k (map (skipn (length cand)) gauss) [] = skipn (length cand) (nth k gauss [])).
  { rewrite (nth_indep _ [] (skipn (length cand) [])) by now rewrite map_length. apply map_nth. }
  rewrite E1, E2. rewrite firstn_length, skipn_length, Lk. split; [lia|]. split; [lia|]. apply firstn_skipn.
Qed.
Lemma samples_linear d gauss ws cand rep idx : (forall x, In x cand -> length x = d) -> (forall x, In x (rep_points rep) -> length x = d) ->
  (forall w, In w ws -> length w = d) ->
  exists all_rep all_Q, get_samples_from_model (Some KindPrefLinear) None gauss ws cand rep idx = Ok (all_rep, all_Q) /\
    length all_rep = length ws /\ length all_Q = length ws /\ forall k, (k < length ws)%nat ->
      length (nth k all_Q []) = length cand /\ length (nth k all_rep []) = length (rep_points rep) /\
      (forall i, (i < length cand)%nat -> nth i (nth k all_Q []) 0 = reward d (nth i cand []) (nth k ws [])) /\
      (forall i, (i < length (rep_points rep))%nat -> nth i (nth k all_rep []) 0 = reward d (nth i (rep_points rep) []) (nth k ws [])).
Proof.
  intros H1 H2 H3. exists (sampled_values (rep_points rep) ws), (sampled_values cand ws). split; [reflexivity|].
  split; [apply sampled_shape|]. split; [apply sampled_shape|]. intros k Hk. split; [now apply sampled_shape|]. split; [now apply sampled_shape|]. split; intros i Hi.
  - now apply (sampled_at d cand ws H1 H3).
  - now apply (sampled_at d (rep_points rep) ws H2 H3).
Qed.
Lemma samples_stored kind rep Q gauss ws cand x idx : (forall r, In r Q -> forall i, In i idx -> (i < length r)%nat) ->
  exists Q', get_samples_from_model kind (Some (rep, Q)) gauss ws cand x (Some idx) = Ok (rep, Q') /\ length Q' = length Q /\
    forall k a, (k < length Q)%nat -> (a < length idx)%nat -> length (nth k Q' []) = length idx /\ nth a (nth k Q' []) 0 = nth (nth a idx O) (nth k Q []) 0.
Proof.
  intro H. assert (Row : forall r, In r Q -> mapM (getitem r) idx = Ok (map (fun i => nth i r 0) idx)).
  { intros r Hr. specialize (H r Hr). clear - H. induction idx as [|i idx IH]; auto. cbn [mapM map]. unfold getitem at 1.
    rewrite (nth_error_nth' r 0) by (apply H; now left). cbn [bind]. rewrite IH by (intros j Hj; apply H; now right). reflexivity. }
  assert (All : mapM (fun row => mapM (getitem row) idx) Q = Ok (map (fun r => map (fun i => nth i r 0) idx) Q)).
  { clear H. induction Q as [|r Q IH]; auto. cbn [mapM map]. rewrite (Row r) by now left. cbn [bind]. rewrite IH by (intros u Hu; apply Row; now right). reflexivity. }
  cbn [get_samples_from_model]. rewrite All. cbn [bind]. eexists. split; [reflexivity|]. split; [apply map_length|]. intros k a Hk Ha.
  rewrite (nth_indep _ [] ((fun r => map (fun i => nth i r 0) idx) [])) by now rewrite map_length. rewrite (map_nth (fun r => map (fun i => nth i r 0) idx)).
  split; [apply map_length|]. rewrite (nth_indep _ 0 (nth 0 (nth k Q []) 0)) by now rewrite map_length. now rewrite (map_nth (fun i => nth i (nth k Q []) 0)).
Qed.
Lemma linear_covariance d pts ws : (forall x, In x pts -> length x = d) -> (forall w, In w ws -> length w = d) -> (2 <= length ws)%nat ->
  symmetric (length pts) (col_cov (sampled_values pts ws)) /\ psd (length pts) (col_cov (sampled_values pts ws)) /\
  forall i j, (i < length pts)%nat -> (j < length pts)%nat -> col_cov (sampled_values pts ws) i j =
    covn (length ws) (INR (length ws) - 1) (fun k => reward d (nth i pts []) (nth k ws [])) (fun k => reward d (nth j pts []) (nth k ws [])).
Proof.
  intros Hp Hw H2. assert (Hd : 0 < INR (length ws) - 1) by (apply le_INR in H2; simpl in H2; lra). assert (C := col_cov_is d pts ws Hp Hw). split.
  - intros i j Hi Hj. rewrite !C by auto. apply covn_sym.
  - split; [|exact C]. apply (psd_ext (length pts) (fun i j => covn (length ws) (INR (length ws) - 1) (val_of d pts ws i) (val_of d pts ws j))).
    + intros i j Hi Hj. symmetry. now apply C.
    + now apply covn_psd.
Qed.
Lemma linear_divisors d pts ws : (forall x, In x pts -> length x = d) -> (forall w, In w ws -> length w = d) -> (2 <= length ws)%nat -> forall i, (i < length pts)%nat ->
  INR (length ws) * col_var (sampled_values pts ws) i = (INR (length ws) - 1) * col_cov (sampled_values pts ws) i i /\ 0 <= col_var (sampled_values pts ws) i.
Proof.
  intros Hp Hw H2 i Hi. assert (Hd : 0 < INR (length ws) - 1) by (apply le_INR in H2; simpl in H2; lra).
  rewrite (col_var_is d pts ws Hp Hw i Hi), (col_cov_is d pts ws Hp Hw i i Hi Hi). split; [unfold covn; field; lra|]. apply covn_nonneg. lra.
Qed.
