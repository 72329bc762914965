(** Proofs about learners that mix rating and pair queries. *)
From Verif Require Import M_Base M_Pairs M_Store M_Mixed S_Mixed P_Base.
From Coq Require Import Reals Lra.
From Verif Require Import M_Mixed.

Lemma gtb_true x y : gtb x y = true <-> (y < x)%R.
Proof. unfold gtb. destruct (Rlt_dec y x); split; intro; auto; try discriminate; lra. Qed.
Lemma gtb_false x y : gtb x y = false <-> (x <= y)%R.
Proof. unfold gtb. destruct (Rlt_dec y x); split; intro; auto; try discriminate; lra. Qed.
Lemma leb_true x y : leb x y = true <-> (x <= y)%R.
Proof. unfold leb. destruct (Rle_dec x y); split; intro; auto; try discriminate; lra. Qed.
Lemma leb_false x y : leb x y = false <-> (y < x)%R.
Proof. unfold leb. destruct (Rle_dec x y); split; intro; auto; try discriminate; lra. Qed.
Lemma eqb_true x y : eqb x y = true <-> x = y.
Proof. unfold eqb. destruct (Req_EM_T x y); split; intro; auto; try discriminate; congruence. Qed.
Lemma eqb_false x y : eqb x y = false <-> x <> y.
Proof. unfold eqb. destruct (Req_EM_T x y); split; intro; auto; try discriminate; congruence. Qed.

(** ---- schedules ---- *)
Lemma since_attach_app h : forall c, since_attach (h ++ [c]) = match c with Attach => [] | _ => since_attach h ++ [c] end.
Proof.
  induction h as [|a h IH]; intro c; simpl.
  - destruct c; reflexivity.
  - rewrite existsb_app. simpl. rewrite orb_false_r. rewrite IH.
    destruct (existsb (fun c0 => match c0 with Attach => true | _ => false end) h) eqn:E; simpl.
    + reflexivity.
    + destruct c; simpl; [|destruct a; reflexivity]. reflexivity.
Qed.
Lemma schedule_run_count k h : schedule_run k h = answered_since_attach h.
Proof.
  unfold schedule_run, answered_since_attach. induction h as [|c h IH] using rev_ind; [reflexivity|].
  rewrite fold_left_app, IH. simpl. rewrite since_attach_app. destruct c as [|pr ar]; [reflexivity|].
  rewrite filter_app, app_length. unfold schedule_step, schedule_select. destruct pr, ar; simpl; lia.
Qed.
Lemma schedule_answer k h pr ar :
  fst (schedule_select k (schedule_run k h) pr ar) =
  match pr, ar with
  | Ok p, Ok a => Ok (if match k with SetFixed => 8 <=? answered_since_attach h | Alternating => Nat.even (answered_since_attach h) end
                      then PairQ p else RateQ a)
  | Raise e, _ => Raise e
  | _, Raise e => Raise e
  end.
Proof.
  rewrite schedule_run_count. set (n := answered_since_attach h). unfold schedule_select. destruct pr as [p|e], ar as [a|e']; auto.
  simpl. f_equal. destruct k; unfold schedule_pair; auto.
  assert (E : (n mod 2 =? 0) = Nat.even n); [|now rewrite E].
  destruct (Nat.even n) eqn:E.
  - apply Nat.even_spec in E. destruct E as [m Hm]. apply Nat.eqb_eq. rewrite Hm, Nat.mul_comm. apply Nat.mod_mul. lia.
  - apply Nat.eqb_neq. intro K. apply Nat.mod_divides in K; [|lia]. destruct K as [m Hm].
    assert (Nat.even n = true); [apply Nat.even_spec; exists m; lia|congruence].
Qed.

(** ---- scores ---- *)
Lemma rate_choose_spec pm am u p a :
  ((am < pm)%R -> rate_choose pm am u p a = PairQ p) /\ ((pm < am)%R -> rate_choose pm am u p a = RateQ a) /\
  (pm = am -> rate_choose pm am u p a = if Rlt_dec (1/2) u then PairQ p else RateQ a).
Proof.
  unfold rate_choose. repeat split; intro H.
  - now rewrite (proj2 (gtb_true _ _) H).
  - rewrite (proj2 (gtb_false pm am)) by lra. rewrite (proj2 (eqb_false _ _)) by lra. reflexivity.
  - rewrite (proj2 (gtb_false pm am)) by lra. rewrite (proj2 (eqb_true _ _)) by lra. unfold gtb. now destruct (Rlt_dec (1/2) u).
Qed.
Lemma mixed_comparison_spec alpha pm am u p a :
  ((alpha * am < (1 - alpha) * pm)%R -> mixed_comparison alpha pm am u p a = PairQ p) /\
  (((1 - alpha) * pm <= alpha * am)%R -> pm <> (alpha * am)%R -> mixed_comparison alpha pm am u p a = RateQ a).
Proof.
  unfold mixed_comparison. split; intros H.
  - now rewrite (proj2 (gtb_true _ _) H).
  - intro Hn. rewrite (proj2 (gtb_false _ _)) by lra. now rewrite (proj2 (eqb_false _ _)).
Qed.

(** ---- probabilities ---- *)
Lemma exp_neg_le1 x : (x <= 0)%R -> (0 < exp x <= 1)%R.
Proof.
  intro H. split; [apply exp_pos|]. rewrite <- exp_0. destruct H as [H| ->]; [|lra]. left. now apply exp_increasing.
Qed.
Lemma exp_le x y : (x <= y)%R -> (exp x <= exp y)%R.
Proof. intros [H| ->]; [left; now apply exp_increasing|lra]. Qed.
Lemma INR_ge_2 n : (2 <= INR (S (S n)))%R.
Proof. rewrite !S_INR. assert (H := pos_INR n). lra. Qed.
Lemma prob_ok s n : good_param s -> is_prob (mixed_probability s n).
Proof.
  intro H. unfold is_prob, mixed_probability.
  destruct s as [p| | |p|p]; simpl in H; auto; destruct n as [|[|[|n]]]; try lra; try exact H.
  - assert (K := INR_ge_2 (S n)). destruct (exp_neg_le1 ((2 - INR (S (S (S n)))) * (2/10))) as [H1 H2]; [lra|lra].
  - assert (K := INR_ge_2 (S n)). destruct (exp_neg_le1 ((2 - INR (S (S (S n)))) * (2/10))) as [H1 H2]; [lra|lra].
  - assert (K := INR_ge_2 (S n)). destruct (exp_neg_le1 ((2 - INR (S (S (S n)))) * p)) as [H1 H2]; [nra|lra].
Qed.
Lemma peak_formula s n : (2 <= n)%nat ->
  match s with
  | SPeak => mixed_probability s n = (8/10 * exp ((2 - INR n) * (2/10)) + 1/10)%R
  | SPeak2 => mixed_probability s n = (9/10 * exp ((2 - INR n) * (2/10)))%R
  | SPeak3 p => mixed_probability s n = (9/10 * exp ((2 - INR n) * p))%R
  | _ => True end.
Proof.
  intro Hn. destruct s; auto; destruct n as [|[|[|n]]]; try lia; simpl mixed_probability; auto;
  match goal with |- context [exp ?x] => replace x with 0%R by (simpl; lra) end; rewrite exp_0; lra.
Qed.
Lemma peak_decreasing s n m : match s with SPeak | SPeak2 => True | SPeak3 p => (0 <= p)%R | _ => False end ->
  (2 <= n <= m)%nat -> (mixed_probability s m <= mixed_probability s n)%R.
Proof.
  intros Hs [Hn Hm]. assert (Hi := le_INR _ _ Hm). assert (F1 := peak_formula s n Hn). assert (F2 := peak_formula s m (Nat.le_trans _ _ _ Hn Hm)).
  destruct s as [p| | |p|p]; try tauto; rewrite F1, F2.
  - assert (K := exp_le ((2 - INR m) * (2/10)) ((2 - INR n) * (2/10))). lra.
  - assert (K := exp_le ((2 - INR m) * (2/10)) ((2 - INR n) * (2/10))). lra.
  - assert (K := exp_le ((2 - INR m) * p) ((2 - INR n) * p)). assert ((2 - INR m) * p <= (2 - INR n) * p)%R by nra. specialize (K H). lra.
Qed.
(** the ratings dry up: the probability tends to its floor *)
Lemma peak_bound s n : match s with SPeak | SPeak2 => True | SPeak3 p => (0 <= p)%R | _ => False end ->
  (2 <= n)%nat -> (mixed_probability s n <= 9/10)%R.
Proof.
  intros Hs Hn. assert (K := peak_decreasing s 2 n Hs (conj (Nat.le_refl _) Hn)).
  destruct s; try tauto; simpl in K |- *; lra.
Qed.
Lemma strategy_select_spec s n u pr ar q n' : strategy_select s (Some n) u pr ar = (Ok q, n') ->
  n' = Some (S n) /\ ((u <= mixed_probability s n)%R -> exists a, ar = Ok a /\ q = RateQ a) /\
  ((mixed_probability s n < u)%R -> exists p, pr = Ok p /\ q = PairQ p).
Proof.
  unfold strategy_select, coin_query. intro H. destruct (leb u (mixed_probability s n)) eqn:E.
  - apply leb_true in E. destruct ar as [a|e]; simpl in H; [|discriminate]. inversion H; subst. split; auto. split; [eauto|lra].
  - apply leb_false in E. destruct pr as [p|e]; simpl in H; [|discriminate]. inversion H; subst. split; auto. split; [lra|eauto].
Qed.
Lemma strategy_select_answers s n u pr ar : (exists p, pr = Ok p) -> (exists a, ar = Ok a) ->
  exists q, strategy_select s (Some n) u pr ar = (Ok q, Some (S n)).
Proof.
  intros [p ->] [a ->]. unfold strategy_select, coin_query. destruct (leb u (mixed_probability s n)); simpl; eauto.
Qed.

(** ---- MixedDecision ---- *)
Lemma is_eval_iff n : is_eval n = true <-> evaluation n.
Proof. unfold is_eval, evaluation. rewrite !orb_true_iff, !Nat.eqb_eq. tauto. Qed.
Definition dinv (s : nat * nat) : Prop := snd s <= 3 /\ (snd s = 3 -> evaluation (fst s)).
Lemma decision_cases v2 p n st x r s' : dinv (n, st) -> decision_select v2 p (n, st) x = (r, s') ->
  dinv s' /\
  (fst s' = match r with Ok _ => S n | Raise _ => n end) /\
  (~ evaluation n -> snd s' = st) /\
  (forall q, r = Ok q -> snd s' <= 2).
Proof.
  intros [I1 I2] H. simpl in I1, I2. unfold decision_select in H. destruct (is_eval n) eqn:Ee.
  - assert (Ev := proj1 (is_eval_iff n) Ee).
    destruct (i_samples x) as [u0|e]; [|inversion H; subst; unfold dinv; simpl; repeat split; auto; try tauto; discriminate].
    destruct (i_pair x) as [pi|e]; [|inversion H; subst; unfold dinv; simpl; repeat split; auto; try tauto; discriminate].
    destruct (i_comp x) as [ci|e]; [|inversion H; subst; unfold dinv; simpl; repeat split; auto; try tauto; discriminate].
    destruct (ratio_gt_2 (i_pm x) (i_am x)).
    + destruct (gtb (i_pm x) (i_am x)).
      * inversion H; subst; unfold dinv; simpl; repeat split; auto; try tauto; try lia.
      * destruct (i_abs x) as [a|e]; inversion H; subst; unfold dinv; simpl; repeat split; auto; try tauto; try lia; discriminate.
    + destruct (coin_query (decision_prob v2 p n) (i_u x) (i_pair2 x) (i_abs x)) as [q|e]; inversion H; subst; unfold dinv; simpl;
        repeat split; auto; try tauto; try lia; discriminate.
  - assert (Ne : ~ evaluation n) by (rewrite <- is_eval_iff; congruence).
    destruct st as [|[|[|[|st]]]]; [| | |exfalso; tauto|lia];
    match type of H with context [coin_query ?a ?b ?c ?d] => destruct (coin_query a b c d) as [q|e] end;
      inversion H; subst; unfold dinv; simpl; repeat split; auto; try tauto; try lia; discriminate.
Qed.
Lemma decision_run_inv v2 p h : dinv (decision_run v2 p h).
Proof.
  unfold decision_run. induction h as [|c h IH] using rev_ind; [split; simpl; lia|].
  rewrite fold_left_app. simpl. destruct c as [|x]; [split; simpl; lia|]. simpl.
  destruct (fold_left (decision_step v2 p) h (0, 0)) as [n st]. destruct (decision_select v2 p (n, st) x) as [r s'] eqn:E.
  exact (proj1 (decision_cases v2 p n st x r s' IH E)).
Qed.
Lemma decision_frozen v2 p h h' : no_attach h' -> 16 <= fst (decision_run v2 p h) ->
  snd (decision_run v2 p (h ++ h')) = snd (decision_run v2 p h) /\ 16 <= fst (decision_run v2 p (h ++ h')).
Proof.
  induction h' as [|c h' IH] using rev_ind; intros Hn Hge; [rewrite app_nil_r; auto|].
  destruct IH as [E1 E2]; [intros c' Hc'; apply Hn; rewrite in_app_iff; auto|auto|].
  assert (I := decision_run_inv v2 p (h ++ h')).
  assert (Er : decision_run v2 p (h ++ h' ++ [c]) = decision_step v2 p (decision_run v2 p (h ++ h')) c).
  { unfold decision_run. now rewrite app_assoc, fold_left_app. }
  rewrite Er. destruct (decision_run v2 p (h ++ h')) as [n st]. simpl fst in E2. simpl snd in E1.
  destruct c as [|x]; [exfalso; apply (Hn DAttach); [rewrite in_app_iff; right; now left|reflexivity]|].
  cbn [decision_step]. destruct (decision_select v2 p (n, st) x) as [r s'] eqn:E.
  destruct (decision_cases v2 p n st x r s' I E) as [_ [H2 [H3 _]]]. cbn [snd]. split.
  - rewrite H3; auto. unfold evaluation. lia.
  - rewrite H2. destruct r; lia.
Qed.
Lemma ratio_gt_2_pos pm am : (0 < pm)%R -> (0 < am)%R -> (ratio_gt_2 pm am = true <-> (2 * am < pm \/ 2 * pm < am)%R).
Proof.
  intros Hp Ha. unfold ratio_gt_2. rewrite (proj2 (eqb_false am 0)) by lra. rewrite (proj2 (eqb_false pm 0)) by lra.
  rewrite gtb_true. assert (E1 : (2 < pm / am <-> 2 * am < pm)%R).
  { split; intro H; [apply (Rmult_lt_reg_r (/ am)); [now apply Rinv_0_lt_compat|]; rewrite Rmult_assoc, Rinv_r by lra; unfold Rdiv in H; lra|].
    apply (Rmult_lt_reg_r am); auto. unfold Rdiv. rewrite Rmult_assoc, Rinv_l by lra. lra. }
  assert (E2 : (2 < am / pm <-> 2 * pm < am)%R).
  { split; intro H; [apply (Rmult_lt_reg_r (/ pm)); [now apply Rinv_0_lt_compat|]; rewrite Rmult_assoc, Rinv_r by lra; unfold Rdiv in H; lra|].
    apply (Rmult_lt_reg_r pm); auto. unfold Rdiv. rewrite Rmult_assoc, Rinv_l by lra. lra. }
  rewrite <- E1, <- E2. unfold Rmax. destruct (Rle_dec (pm / am) (am / pm)); split; intro; lra.
Qed.
Lemma decision_eval v2 p n st x q s' : is_eval n = true -> (0 < i_pm x)%R -> (0 < i_am x)%R ->
  decision_select v2 p (n, st) x = (Ok q, s') ->
  ((2 * i_am x < i_pm x)%R -> s' = (S n, 2) /\ exists l, i_pair x = Ok l /\ q = PairQ l) /\
  ((2 * i_pm x < i_am x)%R -> s' = (S n, 1) /\ exists l, i_abs x = Ok l /\ q = RateQ l) /\
  ((i_am x <= 2 * i_pm x)%R -> (i_pm x <= 2 * i_am x)%R -> s' = (S n, 0)).
Proof.
  intros Ee Hp Ha H. unfold decision_select in H. rewrite Ee in H.
  destruct (i_samples x) as [u0|e]; [|discriminate]. destruct (i_pair x) as [pi|e]; [|discriminate]. destruct (i_comp x) as [ci|e]; [|discriminate].
  assert (K := ratio_gt_2_pos _ _ Hp Ha). destruct (ratio_gt_2 (i_pm x) (i_am x)).
  - destruct (proj1 K eq_refl) as [K1|K1].
    + rewrite (proj2 (gtb_true _ _)) in H by lra. inversion H; subst. split; [eauto|split; intros; lra].
    + rewrite (proj2 (gtb_false _ _)) in H by lra. destruct (i_abs x) as [a|e]; [|discriminate]. inversion H; subst.
      split; [intros; lra|split; [eauto|intros; lra]].
  - assert (~ (2 * i_am x < i_pm x \/ 2 * i_pm x < i_am x)%R) by (intro C; apply K in C; discriminate).
    destruct (coin_query (decision_prob v2 p n) (i_u x) (i_pair2 x) (i_abs x)); [|discriminate]. inversion H; subst.
    split; [intros; lra|split; [intros; lra|auto]].
Qed.

(** ---- AlignmentDecision ---- *)
Lemma with_labels_data m r a : data_of (mS (with_labels m r a)) = (sX (mS m), r, sOrd (mS m), a).
Proof. reflexivity. Qed.
Lemma optimize_store o m m' s : optimize o m = (m', s) -> data_of (mS m') = data_of (mS m) /\ mGP m' = mGP m.
Proof.
  unfold optimize. destruct (sX (mS m)) eqn:E; [|intro H; inversion H; auto]. destruct o; intro H; inversion H; subst; auto.
Qed.
Lemma predict_store o m m' r : predict o m = (m', r) -> data_of (mS m') = data_of (mS m) /\ mGP m' = mGP m.
Proof.
  unfold predict. destruct (sX (mS m)) eqn:E; [|intro H; inversion H; auto]. destruct (sOpt (mS m)); [intro H; inversion H; auto|].
  destruct (optimize o m) as [m1 s] eqn:Eo. apply optimize_store in Eo. destruct s; intro H; inversion H; subst; auto.
Qed.
Lemma determine_data o1 o2 o3 ap ar m m' b : determine_query_type o1 o2 o3 ap ar m = (m', Ok b) ->
  data_of (mS m') = data_of (mS m) /\ (b = true <-> (ar < ap)%R).
Proof.
  unfold determine_query_type. destruct (predict o1 m) as [m0 [r0|e]] eqn:E0; [|discriminate].
  destruct (predict_store _ _ _ _ E0) as [D0 _].
  destruct (optimize o2 (with_labels m0 (sRel (mS m0)) None)) as [m1 s1] eqn:E1. destruct (optimize_store _ _ _ _ E1) as [D1 _].
  destruct s1; try discriminate.
  destruct (optimize o3 (with_labels m1 None (sAbs (mS m0)))) as [m2 s2] eqn:E2. destruct (optimize_store _ _ _ _ E2) as [D2 _].
  destruct s2; try discriminate. intro H. inversion H; subst. split; [|apply gtb_true].
  rewrite with_labels_data in *. unfold data_of in *. simpl in *. inversion D0. inversion D1. inversion D2. congruence.
Qed.
Lemma alignment_select_spec d n pr ar o1 o2 o3 ap al m q n' m' :
  alignment_select d n pr ar o1 o2 o3 ap al m = (Ok q, n', m') ->
  d <= n /\ n' = S n /\ data_of (mS m') = data_of (mS m) /\
  ((al < ap)%R -> exists p, pr = Ok p /\ q = PairQ p) /\ ((ap <= al)%R -> exists a, ar = Ok a /\ q = RateQ a).
Proof.
  unfold alignment_select. destruct (Nat.ltb_spec n d) as [Hlt|Hge].
  - destruct (n mod 2 =? 0); [destruct pr|destruct ar]; discriminate.
  - destruct (determine_query_type o1 o2 o3 ap al m) as [m1 [b|e]] eqn:E; [|discriminate].
    destruct (determine_data _ _ _ _ _ _ _ _ E) as [D Hb]. destruct b.
    + destruct pr as [p|e]; simpl; [|discriminate]. intro H. inversion H; subst. repeat split; auto; intros; [eauto|].
      exfalso. assert (al < ap)%R by (now apply Hb). lra.
    + destruct ar as [a|e]; simpl; [|discriminate]. intro H. inversion H; subst. repeat split; auto; intros; [|eauto].
      exfalso. assert (false = true) by (now apply Hb). discriminate.
Qed.

Lemma rate_choose_eq pm am u p a :
  rate_choose pm am u p a = if Rlt_dec am pm then PairQ p else if Rlt_dec pm am then RateQ a else if Rlt_dec (1/2) u then PairQ p else RateQ a.
Proof.
  destruct (rate_choose_spec pm am u p a) as [H1 [H2 H3]].
  destruct (Rlt_dec am pm); [auto|]. destruct (Rlt_dec pm am); [auto|]. apply H3. lra.
Qed.
Lemma rate_choose_select_spec pr ar pm am u :
  rate_choose_select pr ar pm am u =
  match pr, ar with
  | Ok p, Ok a => Ok (if Rlt_dec am pm then PairQ p else if Rlt_dec pm am then RateQ a else if Rlt_dec (1/2) u then PairQ p else RateQ a)
  | Raise e, _ => Raise e
  | _, Raise e => Raise e
  end.
Proof. unfold rate_choose_select. destruct pr, ar; simpl; auto. now rewrite rate_choose_eq. Qed.
Lemma mixed_comparison_worse : mixed_comparison (1/2) 1 2 (3/4) [0; 1] [2] = PairQ [0; 1].
Proof.
  unfold mixed_comparison. rewrite (proj2 (gtb_false _ _)) by lra. rewrite (proj2 (eqb_true _ _)) by lra.
  rewrite (proj2 (gtb_true _ _)) by lra. reflexivity.
Qed.
Lemma strategy_select_eq s n u pr ar :
  strategy_select s (Some n) u pr ar =
  (if Rle_dec u (mixed_probability s n)
   then match ar with Ok a => (Ok (RateQ a), Some (S n)) | Raise e => (Raise e, Some n) end
   else match pr with Ok p => (Ok (PairQ p), Some (S n)) | Raise e => (Raise e, Some n) end).
Proof.
  unfold strategy_select, coin_query, leb. destruct (Rle_dec u (mixed_probability s n)); [destruct ar|destruct pr]; reflexivity.
Qed.
Lemma prob_refuted : (mixed_probability SPeak 0 < mixed_probability SPeak 2)%R /\ ~ is_prob (mixed_probability (SPeak3 (-1)) 4).
Proof.
  split; [simpl; lra|]. unfold is_prob. simpl mixed_probability.
  replace ((2 - (1 + 1 + 1 + 1)) * -1)%R with 2%R by lra.
  assert (H : (1 + 2 < exp 2)%R). { apply exp_ineq1. discrR. } lra.
Qed.
Lemma decision_after v2 p h x r n' st' : let (n, st) := decision_run v2 p h in
  decision_select v2 p (n, st) x = (r, (n', st')) ->
  n' = match r with Ok _ => S n | Raise _ => n end /\
  (~ evaluation n -> st' = st) /\
  (forall q, r = Ok q -> st' = 0 \/ st' = 1 \/ st' = 2) /\ st' <= 3.
Proof.
  assert (I := decision_run_inv v2 p h). destruct (decision_run v2 p h) as [n st]. intro H.
  destruct (decision_cases _ _ _ _ _ _ _ I H) as [[J1 J2] [H2 [H3 H4]]]. simpl in *.
  repeat split; auto. intros q E. specialize (H4 q E). lia.
Qed.
Lemma decision_final v2 p h h' : no_attach h' -> 16 <= fst (decision_run v2 p h) ->
  snd (decision_run v2 p (h ++ h')) = snd (decision_run v2 p h).
Proof. intros H1 H2. exact (proj1 (decision_frozen v2 p h h' H1 H2)). Qed.
Lemma decision_evaluation v2 p n st x q n' st' : evaluation n -> (0 < i_pm x)%R -> (0 < i_am x)%R ->
  decision_select v2 p (n, st) x = (Ok q, (n', st')) ->
  ((2 * i_am x < i_pm x)%R -> st' = 2 /\ exists l, i_pair x = Ok l /\ q = PairQ l) /\
  ((2 * i_pm x < i_am x)%R -> st' = 1 /\ exists l, i_abs x = Ok l /\ q = RateQ l) /\
  ((i_am x <= 2 * i_pm x)%R -> (i_pm x <= 2 * i_am x)%R -> st' = 0).
Proof.
  intros He Hp Ha H. destruct (decision_eval v2 p n st x q (n', st') (proj2 (is_eval_iff n) He) Hp Ha H) as [H1 [H2 H3]].
  split; [intro K; destruct (H1 K) as [E X]; inversion E; auto|]. split; [intro K; destruct (H2 K) as [E X]; inversion E; auto|].
  intros K1 K2. specialize (H3 K1 K2). now inversion H3.
Qed.
Lemma decision_ex_step n st : (st = 0 \/ st = 2) -> decision_step true (1/2) (n, st) ask65 = (S n, if is_eval n then 2 else st).
Proof.
  intro H. unfold ask65. cbn [decision_step]. unfold decision_select. destruct (is_eval n).
  - cbn [i_samples i_pair i_comp i_pm i_am]. rewrite (proj2 (ratio_gt_2_pos 5 1 ltac:(lra) ltac:(lra))) by lra.
    rewrite (proj2 (gtb_true _ _)) by lra. reflexivity.
  - destruct H as [-> | ->]; cbn [i_u i_pair i_abs]; unfold coin_query.
    + rewrite (proj2 (leb_false _ _)); [reflexivity|]. unfold decision_prob. simpl. destruct n as [|[|n]]; lra.
    + rewrite (proj2 (leb_false _ _)); [reflexivity|]. lra.
Qed.
Lemma decision_run_ex k : decision_run true (1/2) (repeat ask65 k) = (k, if 5 <? k then 2 else 0).
Proof.
  induction k as [|k IH]; [reflexivity|].
  replace (repeat ask65 (S k)) with (repeat ask65 k ++ [ask65]) by (rewrite <- repeat_cons; reflexivity).
  unfold decision_run in *. rewrite fold_left_app, IH. cbn [fold_left].
  rewrite decision_ex_step by (destruct (5 <? k); auto). f_equal. unfold is_eval.
  destruct (Nat.ltb_spec 5 k), (Nat.ltb_spec 5 (S k)); try lia.
  - destruct ((k =? 5) || (k =? 10) || (k =? 15)); reflexivity.
  - assert (k = 5) as -> by lia. reflexivity.
  - destruct (Nat.eqb_spec k 5), (Nat.eqb_spec k 10), (Nat.eqb_spec k 15); try lia; reflexivity.
Qed.
Lemma alignment_first d n p a o1 o2 o3 ap al m : n < d ->
  alignment_select d n (Ok p) (Ok a) o1 o2 o3 ap al m = (Raise UnboundLocalError, S n, m).
Proof.
  intro H. unfold alignment_select. rewrite (proj2 (Nat.ltb_lt n d) H). destruct (n mod 2 =? 0); reflexivity.
Qed.
Lemma alignment_stale p a ap al : exists m' q d,
  alignment_select 0 0 (Ok p) (Ok a) Fits Fits Fits ap al m66 = (Ok q, 1, m') /\
  data_of (mS m') = data_of (mS m66) /\ sOpt (mS m') = true /\
  predict Fits m66 = (m66, Ok (FromFit (data_of (mS m66)))) /\
  predict Fits m' = (m', Ok (FromFit d)) /\ d <> data_of (mS m').
Proof.
  unfold alignment_select. cbn [Nat.ltb Nat.leb]. unfold determine_query_type.
  destruct (predict Fits m66) as [m0 r0] eqn:E0. vm_compute in E0. inversion E0; subst. clear E0.
  cbn -[Rlt_dec gtb]. destruct (gtb ap al); eexists; eexists; eexists; (split; [reflexivity|]); vm_compute; repeat split; discriminate.
Qed.
Lemma alignment_lost p a ap al : exists m' e,
  alignment_select 0 0 (Ok p) (Ok a) Fits (FailsInFit None) Fits ap al m66 = (Raise e, 0, m') /\
  sAbs (mS m66) = Some ([1#2]%Q, [2]) /\ sAbs (mS m') = None.
Proof.
  unfold alignment_select. cbn [Nat.ltb Nat.leb]. unfold determine_query_type.
  destruct (predict Fits m66) as [m0 r0] eqn:E0. vm_compute in E0. inversion E0; subst. clear E0.
  eexists; eexists; (split; [reflexivity|]); vm_compute; repeat split; discriminate.
Qed.
Lemma optimize_fits m : sX (mS m) <> None -> exists m', optimize Fits m = (m', Done).
Proof. intro H. unfold optimize. destruct (sX (mS m)); [|congruence]. eauto. Qed.
Lemma alignment_answers d n p a ap al m : d <= n -> sX (mS m) <> None -> (exists b, snd (predict Fits m) = Ok b) ->
  exists q m', alignment_select d n (Ok p) (Ok a) Fits Fits Fits ap al m = (Ok q, S n, m').
Proof.
  intros Hd HX [r Hr]. unfold alignment_select. destruct (Nat.ltb_spec n d); [lia|]. unfold determine_query_type.
  destruct (predict Fits m) as [m0 r0] eqn:E0. simpl in Hr. subst r0. destruct (predict_store _ _ _ _ E0) as [D0 _].
  assert (X0 : sX (mS m0) <> None) by (inversion D0; congruence).
  destruct (optimize_fits (with_labels m0 (sRel (mS m0)) None) X0) as [m1 E1]. rewrite E1. destruct (optimize_store _ _ _ _ E1) as [D1 _].
  assert (X1 : sX (mS m1) <> None) by (rewrite with_labels_data in D1; inversion D1; congruence).
  destruct (optimize_fits (with_labels m1 None (sAbs (mS m0))) X1) as [m2 E2]. rewrite E2.
  destruct (gtb ap al); simpl; eauto.
Qed.
Lemma shares_iff x y : shares_coordinate x y = true <-> share_coordinate x y.
Proof.
  unfold shares_coordinate, share_coordinate. revert y. induction x as [|a x IH]; intro y; simpl.
  - split; [discriminate|]. intros [i [a [b [H _]]]]. destruct i; discriminate.
  - destruct y as [|b y]; simpl.
    + split; [discriminate|]. intros [i [a' [b [_ [H _]]]]]. destruct i; discriminate.
    + rewrite orb_true_iff, IH, Qeq_bool_iff. split.
      * intros [H|[i [a' [b' [H1 [H2 H3]]]]]]; [exists 0, a, b; auto|exists (S i), a', b'; auto].
      * intros [[|i] [a' [b' [H1 [H2 H3]]]]]; simpl in *; [left; inversion H1; inversion H2; now subst|right; exists i, a', b'; auto].
Qed.
Lemma equal_checking_spec limit eta2 pm am u x y i j a :
  (share_coordinate x y -> (eta2 < limit)%R -> equal_checking limit eta2 pm am u (shares_coordinate x y) [i; j] a = Ok (RateQ a)) /\
  (~ share_coordinate x y \/ (limit <= eta2)%R ->
     equal_checking limit eta2 pm am u (shares_coordinate x y) [i; j] a =
     Ok (if Rlt_dec am pm then PairQ [i; j] else if Rlt_dec pm am then RateQ a else if Rlt_dec (1/2) u then PairQ [i; j] else RateQ a)).
Proof.
  unfold equal_checking. simpl negb. cbv iota. split.
  - intros H1 H2. rewrite (proj2 (shares_iff x y) H1), (proj2 (gtb_true _ _) H2). reflexivity.
  - intros [H|H].
    + assert (E : shares_coordinate x y = false) by (destruct (shares_coordinate x y) eqn:E; auto; exfalso; apply H; now apply shares_iff).
      rewrite E. simpl. now rewrite rate_choose_eq.
    + rewrite (proj2 (gtb_false limit eta2) H), andb_false_r. now rewrite rate_choose_eq.
Qed.
Lemma equal_checking_pairs_only limit eta2 pm am u b p a : length p <> 2 ->
  equal_checking limit eta2 pm am u b p a = Raise NotImplementedError.
Proof. intro H. unfold equal_checking. now rewrite (proj2 (Nat.eqb_neq _ _) H). Qed.
(** one call outside of the evaluations *)
Lemma decision_draw v2 p n st x : ~ evaluation n -> st <= 2 ->
  fst (decision_select v2 p (n, st) x) =
  (if Rle_dec (i_u x) (rating_chance v2 p n st) then match i_abs x with Ok a => Ok (RateQ a) | Raise e => Raise e end
   else match i_pair x with Ok a => Ok (PairQ a) | Raise e => Raise e end).
Proof.
  intros N H. assert (E : is_eval n = false) by (destruct (is_eval n) eqn:E; [apply is_eval_iff in E; contradiction|reflexivity]).
  assert (P : decision_prob v2 p n = undecided_chance v2 p n) by (unfold decision_prob, undecided_chance; destruct v2; cbn [mixed_probability]; destruct n as [|[|[|n]]]; try reflexivity; lra).
  unfold decision_select. rewrite E. destruct st as [|[|[|st]]]; [rewrite P|..|lia]; cbn [rating_chance]; unfold coin_query, leb; destruct Rle_dec; destruct (i_abs x), (i_pair x); reflexivity.
Qed.
(** an evaluation without a clear winner draws as if undecided *)
Lemma decision_even v2 p n st x q : evaluation n -> (0 < i_pm x)%R -> (0 < i_am x)%R -> (i_am x <= 2 * i_pm x)%R -> (i_pm x <= 2 * i_am x)%R ->
  fst (decision_select v2 p (n, st) x) = Ok q ->
  (if Rle_dec (i_u x) (rating_chance v2 p n 0) then exists a, i_abs x = Ok a /\ q = RateQ a else exists l, i_pair2 x = Ok l /\ q = PairQ l).
Proof.
  intros N H1 H2 H3 H4. assert (E : is_eval n = true) by now apply is_eval_iff.
  assert (P : decision_prob v2 p n = rating_chance v2 p n 0) by (unfold decision_prob, rating_chance, undecided_chance; destruct v2; cbn [mixed_probability]; destruct n as [|[|[|n]]]; try reflexivity; lra).
  unfold decision_select. rewrite E. destruct (i_samples x); [|discriminate]. destruct (i_pair x); [|discriminate]. destruct (i_comp x); [|discriminate].
  assert (R : ratio_gt_2 (i_pm x) (i_am x) = false).
  { unfold ratio_gt_2, eqb. destruct (Req_EM_T (i_am x) 0); [lra|]. destruct (Req_EM_T (i_pm x) 0); [lra|]. apply gtb_false. apply Rmax_lub; [apply Rmult_le_reg_r with (i_am x)|apply Rmult_le_reg_r with (i_pm x)]; try assumption; unfold Rdiv; rewrite Rmult_assoc, Rinv_l by lra; lra. }
  rewrite R, P. unfold coin_query, leb. destruct Rle_dec; [destruct (i_abs x)|destruct (i_pair2 x)]; cbn; intro Q; try discriminate Q; injection Q as <-; eauto.
Qed.
