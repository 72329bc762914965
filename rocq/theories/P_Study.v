(** Accuracies on study data: lemmas. *)
From Coq Require Import Reals ZArith QArith Lra Lia List Bool.
From Verif Require Import M_Base M_RBase M_Pareto M_Pairs M_Select M_Store M_Train M_Study S_PBest S_Study P_RBase P_PBest.
Import ListNotations.
Local Open Scope R_scope.

Lemma gen_pairs_choice {P} (s : sample P) : gen_pairs_from_idx (preferred s) (seq 0 (length (rewards s))) = choice s.
Proof. unfold choice. generalize (seq 0 (length (rewards s))). induction l as [|j l IH]; [reflexivity|]. cbn. destruct (Nat.eqb j (preferred s)); cbn; rewrite IH; reflexivity. Qed.
Lemma argmax_ok (l : list R) : l <> [] -> exists i, argmax Rltb l = Ok i.
Proof. destruct l; [congruence|]. intros _. eexists. reflexivity. Qed.
Lemma argmax_top (l : list R) i : argmax Rltb l = Ok i -> top l i.
Proof. intro H. apply argmax_first in H. destruct H as [H1 [H2 H3]]. split; [exact H1|]. split; assumption. Qed.
Lemma top_unique l i j : top l i -> top l j -> i = j.
Proof. intros [I1 [I2 I3]] [J1 [J2 J3]]. destruct (Nat.lt_trichotomy i j) as [H|[H|H]]; [|exact H|]; [specialize (J3 i H); specialize (I2 j J1); lra|specialize (I3 j H); specialize (J2 i I1); lra]. Qed.
Lemma set_at_ok {A} (l : list A) i x : (i < length l)%nat -> exists l', set_at l i x = Ok l' /\ length l' = length l /\ nth_error l' i = Some x /\ forall j, j <> i -> nth_error l' j = nth_error l j.
Proof.
  revert i. induction l as [|a l IH]; cbn; intros i H; [lia|]. destruct i as [|i]; cbn.
  - exists (x :: l). repeat split. intros [|j] Hj; [congruence|reflexivity].
  - destruct (IH i ltac:(lia)) as [l' [-> [L [N O]]]]. exists (a :: l'). cbn. repeat split; [congruence|exact N|]. intros [|j] Hj; [reflexivity|]. cbn. apply O. congruence.
Qed.
Lemma set_at_raise {A} (l : list A) i x : (length l <= i)%nat -> set_at l i x = Raise IndexError.
Proof. revert i. induction l as [|a l IH]; cbn; intros i H; [reflexivity|]. destruct i as [|i]; [lia|]. now rewrite (IH i ltac:(lia)). Qed.
Lemma counts_unique {A} (Q : A -> Prop) l k k' : counts Q l k -> counts Q l k' -> k = k'.
Proof. intro H. revert k'. induction H as [|x l k Hx H IH|x l k Hx H IH]; intros k' H'; inversion H'; subst; auto; tauto. Qed.
Lemma counts_le {A} (Q : A -> Prop) l k : counts Q l k -> (k <= length l)%nat.
Proof. induction 1; cbn; lia. Qed.
Lemma accuracy_range {P} (g : list P -> list R) es a : es <> [] -> accuracy g es a -> 0 <= a <= 1.
Proof.
  intros N [k [C ->]]. apply counts_le in C. assert (L : (0 < length es)%nat) by (destruct es; [congruence|cbn; lia]). assert (0 < INR (length es)) by now apply lt_0_INR. assert (I : INR k <= INR (length es)) by now apply le_INR. assert (K := pos_INR k).
  split; [apply Rmult_le_pos; [exact K|apply Rlt_le, Rinv_0_lt_compat; assumption]|]. apply Rmult_le_reg_r with (INR (length es)); [assumption|]. unfold Rdiv. rewrite Rmult_assoc, Rinv_l by lra. lra.
Qed.

Section honest_model.
Context {M P D : Type} (predict : M -> list P -> result (M * list R)) (madd : M -> list P -> list pair -> result M) (mreset : M -> M) (obs : M -> D) (f : D -> list P -> list R) (plus : D -> list P -> list pair -> D) (empty : D -> D).
Hypothesis H : honest predict madd mreset obs f plus empty.
Lemma eval_count_ok es : (forall s, In s es -> rewards s <> []) -> forall m c, exists m' k, eval_count M P predict m es c = Ok (m', (c + k)%nat) /\ obs m' = obs m /\ counts (fun s => top (f (obs m) (rewards s)) (preferred s)) es k.
Proof.
  induction es as [|s es IH]; intros N m c; [exists m, 0%nat; cbn; rewrite Nat.add_0_r; repeat split; constructor|]. cbn [eval_count].
  destruct (hp _ _ _ _ _ _ _ H m (rewards s)) as [m1 [-> O1]]. cbn [bind snd fst].
  assert (NE : f (obs m) (rewards s) <> []). { intro E. apply (N s (or_introl eq_refl)). apply length_zero_iff_nil. rewrite <- (hl _ _ _ _ _ _ _ H (obs m)), E. reflexivity. }
  destruct (argmax_ok _ NE) as [i E]. rewrite E. cbn [bind]. assert (T := argmax_top _ _ E).
  destruct (IH (fun s' Hs' => N s' (or_intror Hs')) m1 (if Nat.eqb i (preferred s) then S c else c)) as [m' [k [-> [O C]]]]. rewrite O1 in *. exists m'. destruct (Nat.eqb i (preferred s)) eqn:E2.
  - apply Nat.eqb_eq in E2. subst i. exists (S k). split; [do 2 f_equal; lia|]. split; [exact O|]. now constructor.
  - apply Nat.eqb_neq in E2. exists k. split; [reflexivity|]. split; [exact O|]. apply counts_no; [|exact C]. intro T2. apply E2. eapply top_unique; eauto.
Qed.
Lemma eval_ok es m : offers es -> exists m' a, eval_model M P predict m es = Ok (m', a) /\ obs m' = obs m /\ accuracy (f (obs m)) es a.
Proof.
  intros [N O]. unfold eval_model. destruct (eval_count_ok es O m 0) as [m' [k [-> [O1 C]]]]. cbn [bind fst snd Nat.add]. destruct es as [|s es]; [congruence|]. exists m', (INR k / INR (length (s :: es))). split; [reflexivity|]. split; [exact O1|]. now exists k.
Qed.
Lemma loop_ok d : offers (evals d) -> forall order m i accs, length accs = S (length (train d)) -> (forall j, In j order -> (j < length (train d))%nat) -> (i + length order <= length (train d))%nat ->
  exists m' row, train_loop M P predict madd m d i order accs = Ok (m', row) /\ length row = length accs /\ empty (obs m') = empty (obs m) /\
    (forall k, (k <= i)%nat -> nth_error row k = nth_error accs k) /\ (forall k, (i + length order < k)%nat -> nth_error row k = nth_error accs k) /\
    (forall k, (0 < k <= length order)%nat -> exists a, nth_error row (i + k) = Some (Some a) /\ accuracy (f (after plus (train d) (obs m) (firstn k order))) (evals d) a).
Proof.
  intro HE. induction order as [|j order IH]; intros m i accs L HI HL.
  - exists m, accs. repeat split; auto. intros k Hk. cbn in Hk. lia.
  - cbn [length] in HL. cbn [train_loop]. assert (Hj := HI j (or_introl eq_refl)). assert (G : exists t, getitem (train d) j = Ok t /\ nth_error (train d) j = Some t). { unfold getitem. destruct (nth_error (train d) j) eqn:E; [eauto|]. apply nth_error_None in E. lia. }
    destruct G as [t [-> Et]]. cbn [bind]. rewrite gen_pairs_choice. destruct (ha _ _ _ _ _ _ _ H m (rewards t) (choice t)) as [m1 [-> O1]]. cbn [bind].
    destruct (eval_ok (evals d) m1 HE) as [m2 [a [-> [O2 A]]]]. cbn [bind fst snd]. destruct (set_at_ok accs (S i) (Some a) ltac:(lia)) as [accs' [-> [L' [N' K']]]]. cbn [bind].
    destruct (IH m2 (S i) accs' ltac:(congruence) (fun x Hx => HI x (or_intror Hx)) ltac:(lia)) as [m' [row [-> [LR [EO [R1 [R2 R3]]]]]]].
    exists m', row. split; [reflexivity|]. split; [congruence|]. split; [rewrite EO, O2, O1; apply (he _ _ _ _ _ _ _ H)|]. split; [intros k Hk; rewrite R1 by lia; apply K'; lia|]. split; [intros k Hk; cbn [length] in Hk; rewrite R2 by lia; apply K'; lia|].
    intros k Hk. cbn [length] in Hk. destruct k as [|k]; [lia|]. cbn [firstn after]. rewrite Et. destruct k as [|k].
    + exists a. split; [rewrite Nat.add_1_r, R1 by lia; exact N'|]. cbn [firstn after]. now rewrite O1 in A.
    + destruct (R3 (S k) ltac:(lia)) as [b [Eb Ab]]. exists b. split; [rewrite <- Eb; f_equal; lia|]. rewrite O2, O1 in Ab. exact Ab.
Qed.
Lemma run_ok d order m : offers (evals d) -> (forall j, In j (match order with Some o => o | None => seq 0 (length (train d)) end) -> (j < length (train d))%nat) -> (length (match order with Some o => o | None => seq 0 (length (train d)) end) <= length (train d))%nat ->
  exists m' row, train_eval M P predict madd m d order = Ok (m', row) /\ empty (obs m') = empty (obs m) /\ run_accuracies f plus (obs m) d (match order with Some o => o | None => seq 0 (length (train d)) end) row.
Proof.
  intro HE. unfold train_eval. set (o := match order with Some o => o | None => _ end). intros HI HL. destruct (eval_ok (evals d) m HE) as [m1 [a [-> [O1 A]]]]. cbn [bind fst snd].
  destruct (loop_ok d HE o m1 0 (Some a :: repeat None (length (train d))) ltac:(cbn; now rewrite repeat_length) HI ltac:(lia)) as [m' [row [-> [LR [EO [R1 [R2 R3]]]]]]]. exists m', row. split; [reflexivity|]. split; [now rewrite EO, O1|].
  split; [rewrite LR; cbn; now rewrite repeat_length|]. split.
  - intros [|k] Hk; [exists a; split; [now rewrite R1 by lia|exact A]|]. destruct (R3 (S k) ltac:(lia)) as [b [Eb Ab]]. exists b. rewrite O1 in Ab. split; [exact Eb|exact Ab].
  - intros [|k] Hk; [lia|]. rewrite R2 by lia. cbn. destruct (nth_error (repeat None (length (train d))) k) eqn:E; [apply nth_error_In in E; apply repeat_spec in E; now subst|]. apply nth_error_None in E. rewrite repeat_length in E. lia.
Qed.
Lemma seq_in n j : In j (seq 0 n) -> (j < n)%nat.
Proof. intro Hj. apply in_seq in Hj. lia. Qed.
(** runs of the same length *)
Lemma runs_ok n ds : (forall d, In d ds -> offers (evals d) /\ length (train d) = n) -> forall m, empty (obs m) = obs m ->
  exists m' rows, runs_loop M P predict madd mreset m (S n) ds = Ok (m', rows) /\ Forall2 (fun d row => run_accuracies f plus (obs m) d (seq 0 n) row) ds rows.
Proof.
  intro HD. induction ds as [|d ds IH]; intros m E; [exists m, []; split; [reflexivity|constructor]|]. cbn [runs_loop]. destruct (HD d (or_introl eq_refl)) as [HE HN].
  destruct (run_ok d None m HE) as [m1 [row [-> [EO RA]]]]; [intros j Hj; now apply seq_in|now rewrite seq_length|]. cbn [bind fst snd]. unfold assign_row. rewrite (proj1 RA), HN, Nat.eqb_refl. cbn [bind].
  assert (OR : obs (mreset m1) = obs m) by (rewrite (hr _ _ _ _ _ _ _ H), EO; exact E). destruct (IH (fun d' Hd' => HD d' (or_intror Hd')) (mreset m1) ltac:(rewrite OR; exact E)) as [m' [rows [-> F2]]]. cbn [bind fst snd].
  exists m', (row :: rows). split; [reflexivity|]. rewrite OR in F2. constructor; [|exact F2]. rewrite HN in RA. exact RA.
Qed.
Lemma process_ok ds d0 ds' m : ds = d0 :: ds' -> (forall d, In d ds -> offers (evals d) /\ length (train d) = length (train d0)) -> empty (obs m) = obs m ->
  exists m' rows, process_all_data M P predict madd mreset m ds = Ok (m', rows) /\ Forall2 (fun d row => run_accuracies f plus (obs m) d (seq 0 (length (train d0))) row) ds rows.
Proof. intros -> HD E. unfold process_all_data. cbn [getitem nth_error bind]. now apply runs_ok. Qed.
(** runs of different lengths *)
Lemma ragged d0 d1 ds m : offers (evals d0) -> offers (evals d1) -> length (train d1) <> length (train d0) -> train d1 <> [] -> process_all_data M P predict madd mreset m (d0 :: d1 :: ds) = Raise ValueError.
Proof.
  intros H0 H1 NL NT. unfold process_all_data. cbn [getitem nth_error bind runs_loop]. destruct (run_ok d0 None m H0) as [m1 [row [-> [EO RA]]]]; [intros j Hj; now apply seq_in|now rewrite seq_length|]. cbn [bind fst snd]. unfold assign_row at 1. rewrite (proj1 RA), Nat.eqb_refl. cbn [bind].
  destruct (run_ok d1 None (mreset m1) H1) as [m2 [row1 [-> [_ RA1]]]]; [intros j Hj; now apply seq_in|now rewrite seq_length|]. cbn [bind fst snd]. unfold assign_row. rewrite (proj1 RA1). cbn [Nat.eqb]. destruct (Nat.eqb (length (train d1)) (length (train d0))) eqn:E; [apply Nat.eqb_eq in E; congruence|].
  destruct row1 as [|x [|y row1]]; [reflexivity| |reflexivity]. assert (L := proj1 RA1). cbn in L. destruct (train d1); [congruence|cbn in L; lia].
Qed.
Lemma untrained_row d0 d1 m : offers (evals d0) -> offers (evals d1) -> train d1 = [] -> train d0 <> [] -> empty (obs m) = obs m ->
  exists m' r0 a, process_all_data M P predict madd mreset m [d0; d1] = Ok (m', [r0; repeat (Some a) (S (length (train d0)))]) /\ accuracy (f (obs m)) (evals d1) a.
Proof.
  intros H0 H1 T1 T0 E. unfold process_all_data. cbn [getitem nth_error bind runs_loop]. destruct (run_ok d0 None m H0) as [m1 [row [-> [EO RA]]]]; [intros j Hj; now apply seq_in|now rewrite seq_length|]. cbn [bind fst snd]. unfold assign_row at 1. rewrite (proj1 RA), Nat.eqb_refl. cbn [bind].
  destruct (run_ok d1 None (mreset m1) H1) as [m2 [row1 [-> [_ RA1]]]]; [intros j Hj; now apply seq_in|now rewrite seq_length|]. cbn [bind fst snd]. destruct RA1 as [L1 [K1 _]]. destruct (K1 0%nat ltac:(lia)) as [a [Ea Aa]]. rewrite T1 in L1. cbn in L1. destruct row1 as [|x [|y r1]]; try discriminate. cbn in Ea. injection Ea as ->.
  unfold assign_row. cbn [length]. destruct (Nat.eqb 1 (S (length (train d0)))) eqn:E2; [apply Nat.eqb_eq in E2; destruct (train d0); [congruence|cbn in E2; lia]|]. cbn [bind fst snd]. eexists _, row, a. split; [reflexivity|].
  rewrite T1 in Aa. cbn in Aa. assert (OR : obs (mreset m1) = obs m) by (rewrite (hr _ _ _ _ _ _ _ H), EO; exact E). now rewrite OR in Aa.
Qed.
(** an order longer than the training data *)
Lemma loop_long d : offers (evals d) -> forall order m i accs, length accs = S (length (train d)) -> (i <= length (train d))%nat -> (forall j, In j order -> (j < length (train d))%nat) -> (length (train d) < i + length order)%nat -> train_loop M P predict madd m d i order accs = Raise IndexError.
Proof.
  intro HE. induction order as [|j order IH]; intros m i accs L I HI HL; [cbn in HL; lia|]. cbn [length] in HL. cbn [train_loop]. assert (Hj := HI j (or_introl eq_refl)). unfold getitem. destruct (nth_error (train d) j) as [t|] eqn:E; [|apply nth_error_None in E; lia]. cbn [bind].
  destruct (ha _ _ _ _ _ _ _ H m (rewards t) (gen_pairs_from_idx (preferred t) (seq 0 (length (rewards t))))) as [m1 [-> O1]]. cbn [bind]. destruct (eval_ok (evals d) m1 HE) as [m2 [a [-> _]]]. cbn [bind fst snd].
  destruct (Nat.eq_dec i (length (train d))) as [Ei|Ei]; [now rewrite set_at_raise by lia|]. destruct (set_at_ok accs (S i) (Some a) ltac:(lia)) as [accs' [-> [L' _]]]. cbn [bind]. apply IH; [congruence|lia|intros x Hx; apply HI; now right|lia].
Qed.
Lemma run_long d order m : offers (evals d) -> (forall j, In j order -> (j < length (train d))%nat) -> (length (train d) < length order)%nat -> train_eval M P predict madd m d (Some order) = Raise IndexError.
Proof. intros HE HI HL. unfold train_eval. destruct (eval_ok (evals d) m HE) as [m1 [a [-> _]]]. cbn [bind fst snd]. apply loop_long; [exact HE|cbn; now rewrite repeat_length|lia|exact HI|lia]. Qed.
End honest_model.
(** values that do not tell the options apart *)
Lemma flat_accuracy {P} (g : list P -> list R) c es a : (forall X, g X = repeat c (length X)) -> offers es -> accuracy g es a -> exists k, counts (fun s => preferred s = 0%nat) es k /\ a = INR k / INR (length es).
Proof.
  intros G [_ O] [k [C ->]]. exists k. split; [|reflexivity]. assert (T : forall s, In s es -> (top (g (rewards s)) (preferred s) <-> preferred s = 0%nat)).
  { intros s Hs. rewrite G. assert (L : (0 < length (rewards s))%nat) by (specialize (O s Hs); destruct (rewards s); [congruence|cbn; lia]). assert (NR : forall j, (j < length (rewards s))%nat -> nth j (repeat c (length (rewards s))) 0 = c) by (intros j Hj; rewrite (nth_indep _ 0 c) by (now rewrite repeat_length); apply nth_repeat).
    split.
    - intros [T1 [_ T3]]. rewrite repeat_length in T1. destruct (preferred s) as [|p]; [reflexivity|]. specialize (T3 0%nat ltac:(lia)). rewrite !NR in T3 by lia. lra.
    - intros ->. split; [now rewrite repeat_length|]. split; [|lia]. rewrite repeat_length. intros j Hj. rewrite !NR by lia. lra. }
  clear O G. induction C as [|x l k Hx C IH|x l k Hx C IH]; [constructor| |].
  - apply counts_yes; [apply T; [now left|exact Hx]|]. apply IH. intros s Hs. apply T. now right.
  - apply counts_no; [rewrite <- T by (now left); exact Hx|]. apply IH. intros s Hs. apply T. now right.
Qed.
(** ---- the models of the script ---- *)
Lemma flag_pareto s n X : stored (add_pareto (stored s) n X) = stored (add_pareto s n X) /\ sPareto (add_pareto s n X) = sPareto s.
Proof. destruct s as [x r o a p t b]. unfold add_pareto, append_rel, stored, npts, pts_of, set_opt, set_rel. cbn [sX sRel sOrd sAbs sPrior sPareto sOpt]. destruct (b && _)%bool; [|split; reflexivity]. destruct (pareto_new_pairs _ _ _); [split; reflexivity|]. destruct r; split; reflexivity. Qed.
Lemma flag_labels s n y : exists s', add_labels s n (LRel y) = (s', Done) /\ add_labels (stored s) n (LRel y) = (stored s', Done) /\ sPareto s' = sPareto s.
Proof. destruct s as [x r o a p t b]. unfold add_labels. cbv zeta. generalize (if (0 <? n)%nat then map (fun p0 : pair => let '(d, u, v) := p0 in (d, (u + n)%nat, (v + n)%nat)) y else y). intros [|q y']; [eexists; repeat split|]. destruct r; eexists; repeat split. Qed.
Lemma add_flag s X y : stored (fst (add (stored s) X (LRel y))) = stored (fst (add s X (LRel y))) /\ sPareto (fst (add s X (LRel y))) = sPareto s /\ added (add s X (LRel y)) = Ok (fst (add s X (LRel y))).
Proof.
  unfold add. cbv zeta. change (npts (stored s)) with (npts s). change (add_points (stored s) X) with (stored (add_points s X)).
  destruct (flag_labels (add_points s X) (npts s) y) as [s' [-> [-> P]]]. cbn [fst added]. destruct (flag_pareto s' (npts s) X) as [E Q]. repeat split; [exact E|]. cbn [set_opt sPareto]. rewrite Q, P. reflexivity.
Qed.
Lemma store_honest pred g : (forall a b X, pred a b X = Ok (g a b X)) -> (forall a b X, length (g a b X) = length X) ->
  honest (store_predict pred) store_add reset stored (fun d X => g (sX d) (sRel d) X) plus_store empty_store.
Proof.
  intros HP HL. constructor.
  - intros m X. unfold store_predict. rewrite HP. cbn [bind]. eexists. split; [reflexivity|]. destruct m as [[x|] r o a p t b]; reflexivity.
  - intros s X y. destruct (add_flag s X y) as [E [_ A]]. unfold store_add, plus_store. rewrite A. eexists. split; [reflexivity|]. symmetry. exact E.
  - intros [x r o a p t b]. reflexivity.
  - intros s X y. unfold plus_store, empty_store. f_equal. destruct (add_flag s X y) as [_ [E _]]. exact E.
  - intros. apply HL.
Qed.
Lemma sum_honest : honest sum_predict sum_add (fun m => m) (fun m => m) (fun (_ : unit) X => map rsum X) (fun d _ _ => d) (fun d => d).
Proof. constructor; intros; try reflexivity; [exists m; split; reflexivity|exists m; split; reflexivity|apply map_length]. Qed.
(** ---- the report ---- *)
Lemma report_linear acc_l acc_gp acc_s j : report acc_l acc_gp acc_s j = ((mean_of (column j acc_l), spread acc_l j), snd (fst (report acc_l acc_gp acc_s j)), (mean_of (column j acc_s), spread acc_s j)).
Proof. unfold report, spread, std_of, mean_of, column. cbn [fst snd]. rewrite !map_length. reflexivity. Qed.
Lemma report_gp acc_l acc_gp acc_gp' acc_s j : length acc_gp = length acc_gp' -> snd (snd (fst (report acc_l acc_gp acc_s j))) = snd (snd (fst (report acc_l acc_gp' acc_s j))).
Proof. intro H. unfold report. cbn [fst snd]. now rewrite H. Qed.
Lemma gp_spread_wrong : exists acc_l acc_gp, length acc_l = length acc_gp /\ forall acc_s, snd (snd (fst (report acc_l acc_gp acc_s 0))) = 0 /\ 0 < spread acc_gp 0.
Proof.
  exists [[1 / 2]; [1 / 2]], [[0]; [1]]. split; [reflexivity|]. intro acc_s. unfold report, spread, std_of, mean_of, column. cbn [fst snd map nth length rsum]. unfold rsum. cbn [fold_right]. replace (INR 2) with 2 by (cbn; lra). split.
  - replace ((_ + (_ + 0)) / 2) with 0 by field. rewrite sqrt_0. unfold Rdiv. ring.
  - replace (_ / 2) with (/ 4) by field. apply Rdiv_lt_0_compat; apply sqrt_lt_R0; lra.
Qed.
(** ---- as stated in T_Study ---- *)
Lemma study_accuracy : forall M P D predict madd mreset (obs : M -> D) f plus empty, @honest M P D predict madd mreset obs f plus empty ->
  forall es m, offers es -> exists m' a, eval_model M P predict m es = Ok (m', a) /\ obs m' = obs m /\ accuracy (f (obs m)) es a /\ 0 <= a <= 1 /\ (forall b, accuracy (f (obs m)) es b -> b = a).
Proof.
  intros M P D predict madd mreset obs f plus empty H es m O. destruct (eval_ok predict madd mreset obs f plus empty H es m O) as [m' [a [E [O' A]]]]. exists m', a. repeat split; auto; try (apply (accuracy_range _ _ _ (proj1 O) A)).
  intros b [k [C ->]]. destruct A as [k' [C' ->]]. now rewrite (counts_unique _ _ _ _ C C').
Qed.
Lemma study_training : forall M P D predict madd mreset (obs : M -> D) f plus empty, @honest M P D predict madd mreset obs f plus empty ->
  forall d order m, offers (evals d) -> (forall j, In j order -> (j < length (train d))%nat) -> (length order <= length (train d))%nat ->
  exists m' row, train_eval M P predict madd m d (Some order) = Ok (m', row) /\ run_accuracies f plus (obs m) d order row.
Proof. intros M P D predict madd mreset obs f plus empty H d order m O I L. destruct (run_ok predict madd mreset obs f plus empty H d (Some order) m O I L) as [m' [row [E [_ A]]]]. exists m', row. split; assumption. Qed.
Lemma study_short : forall M P D predict madd mreset (obs : M -> D) f plus empty, @honest M P D predict madd mreset obs f plus empty ->
  forall d order m, offers (evals d) -> (forall j, In j order -> (j < length (train d))%nat) -> (length order < length (train d))%nat ->
  exists m' row, train_eval M P predict madd m d (Some order) = Ok (m', row) /\ nth_error row (length (train d)) = Some None.
Proof. intros M P D predict madd mreset obs f plus empty H d order m O I L. destruct (run_ok predict madd mreset obs f plus empty H d (Some order) m O I ltac:(lia)) as [m' [row [E [_ [_ [_ A]]]]]]. exists m', row. split; [exact E|]. apply A. lia. Qed.
Lemma study_report acc_l acc_gp acc_s j : snd (fst (fst (report acc_l acc_gp acc_s j))) = spread acc_l j /\ snd (snd (report acc_l acc_gp acc_s j)) = spread acc_s j.
Proof. rewrite report_linear. split; reflexivity. Qed.
