(** Lemmas about the synthetic users. *)
From Coq Require Import Qround Qreals Sorted.
From Verif Require Import M_Base M_RBase M_Fake M_Util M_Pairs M_Select M_Sampling M_Pareto M_Normal M_User
  S_Fake S_User S_Util S_Sampling S_Pareto P_Base P_RBase P_Fake P_Fake2 P_Util P_Pairs P_Sampling P_Pareto P_Normal.
From Coq Require Import Reals Lra Lia.
Local Open Scope R_scope.

(** ---- argmax ---- *)
Lemma argmax_from_first l : forall best besti i pre,
  (besti < i)%nat -> length pre = i -> nth_error pre besti = Some best ->
  (forall j x, nth_error pre j = Some x -> x <= best) -> (forall j x, (j < besti)%nat -> nth_error pre j = Some x -> x < best) ->
  first_max (pre ++ l) (argmax_from Rltb best besti i l).
Proof.
  induction l as [|x l IH]; intros best besti i pre Hb Hl Hn Hmax Hfirst; cbn [argmax_from].
  - rewrite app_nil_r. exists best. auto.
  - replace (pre ++ x :: l) with ((pre ++ [x]) ++ l) by (now rewrite <- app_assoc).
    assert (Hlen : length (pre ++ [x]) = S i) by (rewrite app_length; cbn; lia).
    destruct (Rltb best x) eqn:E.
    + apply Rltb_true in E. apply IH; auto.
      * rewrite nth_error_app2, Hl, Nat.sub_diag by lia. reflexivity.
      * intros j y Hj. destruct (lt_dec j i) as [Hji|Hji].
        -- rewrite nth_error_app1 in Hj by lia. apply Hmax in Hj. lra.
        -- rewrite nth_error_app2 in Hj by lia. destruct (j - length pre)%nat as [|k]; [injection Hj as ->; lra|destruct k; discriminate].
      * intros j y Hji Hj. rewrite nth_error_app1 in Hj by lia. apply Hmax in Hj. lra.
    + apply Rltb_false in E. apply IH; auto.
      * rewrite nth_error_app1 by lia. exact Hn.
      * intros j y Hj. destruct (lt_dec j i) as [Hji|Hji].
        -- rewrite nth_error_app1 in Hj by lia. now apply Hmax in Hj.
        -- rewrite nth_error_app2 in Hj by lia. destruct (j - length pre)%nat as [|k]; [injection Hj as ->; lra|destruct k; discriminate].
      * intros j y Hji Hj. rewrite nth_error_app1 in Hj by lia. now apply Hfirst in Hj.
Qed.
Lemma argmax_first v : v <> [] -> exists i, argmax Rltb v = Ok i /\ first_max v i.
Proof.
  intros H. destruct v as [|x v]; [contradiction|]. exists (argmax_from Rltb x 0 1 v). split; [reflexivity|].
  apply (argmax_from_first v x 0 1 [x]); auto.
  - intros [|[|j]] y Hy; try discriminate. injection Hy as ->. lra.
  - intros j y Hj. lia.
Qed.

Lemma perfect_choice f q v : f q = Ok (Vec v) -> v <> [] -> exists i, perfect_choose f q = Ok i /\ first_max v i.
Proof. intros E Hv. unfold perfect_choose. rewrite E. cbn [bind flatten]. now apply argmax_first. Qed.

Lemma nth_map_some {A B} (g : A -> B) l i x : nth_error l i = Some x -> nth_error (map g l) i = Some (g x).
Proof. intros H. now rewrite nth_error_map, H. Qed.
Lemma nth_map_inv {A B} (g : A -> B) l i y : nth_error (map g l) i = Some y -> exists x, nth_error l i = Some x /\ y = g x.
Proof. rewrite nth_error_map. destruct (nth_error l i); [|discriminate]. intros [= <-]. eauto. Qed.

Lemma perfect_choice_max d f u q : batch_agrees d f u -> q <> [] -> Forall (fun x => length x = d) q ->
  exists i x, perfect_choose f (Mat q) = Ok i /\ nth_error q i = Some x /\
    (forall j y, nth_error q j = Some y -> u y <= u x) /\ (forall j y, (j < i)%nat -> nth_error q j = Some y -> u y < u x).
Proof.
  intros [_ Hb] Hq Hd. specialize (Hb q Hd).
  destruct (perfect_choice f (Mat q) (map u q) Hb) as [i [Hi [m [Hm [H1 H2]]]]]; [destruct q; [contradiction|discriminate]|].
  destruct (nth_map_inv _ _ _ _ Hm) as [x [Hx ->]]. exists i, x. split; [exact Hi|]. split; [exact Hx|]. split.
  - intros j y Hy. apply (H1 j). now apply nth_map_some.
  - intros j y Hj Hy. apply (H2 j); [exact Hj|now apply nth_map_some].
Qed.

Lemma perfect_choice_pareto d f u q : batch_agrees d f u -> strictly_increasing d u -> q <> [] -> Forall (fun x => length x = d) q ->
  exists i x, perfect_choose f (Mat q) = Ok i /\ nth_error q i = Some x /\ forall j y, nth_error q j = Some y -> ~ improves x y.
Proof.
  intros Hb Hs Hq Hd. destruct (perfect_choice_max d f u q Hb Hq Hd) as [i [x [Hi [Hx [H1 _]]]]].
  exists i, x. split; [exact Hi|]. split; [exact Hx|]. intros j y Hy Himp.
  assert (Hlx : length x = d) by (rewrite Forall_forall in Hd; apply Hd; eapply nth_error_In; eassumption).
  assert (Hly : length y = d) by (rewrite Forall_forall in Hd; apply Hd; eapply nth_error_In; eassumption).
  pose proof (Hs x y Hlx Hly Himp). pose proof (H1 j y Hy). lra.
Qed.

Definition real_rows (V : list (list Q)) : list (list R) := map (map Q2R) V.

Lemma dominated_improves r p : dominated_by r p -> improves (map Q2R r) (map Q2R p).
Proof.
  intros [Hw [k [x [y [Hx [Hy Hxy]]]]]]. split.
  - clear k x y Hx Hy Hxy. induction Hw; cbn; constructor; [now apply Qle_Rle|assumption].
  - exists k, (Q2R x), (Q2R y). split; [now apply nth_map_some|]. split; [now apply nth_map_some|now apply Qlt_Rlt].
Qed.

Lemma Qeq_rows r p : Forall2 Qeq r p -> map Q2R r = map Q2R p.
Proof. induction 1; cbn; [reflexivity|]. f_equal; [now apply Qeq_eqR|assumption]. Qed.

Lemma perfect_choice_front d f u V fuel : batch_agrees d f u -> strictly_increasing d u -> V <> [] -> rect d V -> (length V < fuel)%nat ->
  exists l i, get_pareto fuel V = Some l /\ perfect_choose f (Mat (real_rows V)) = Ok i /\ In i l.
Proof.
  intros Hb Hs HV Hr Hf. destruct (get_pareto_correct d V fuel Hr Hf) as [l [El [_ Hl]]].
  assert (Hd : Forall (fun x => length x = d) (real_rows V)).
  { unfold real_rows. unfold rect in Hr. clear - Hr. induction Hr; cbn; constructor; [now rewrite map_length|assumption]. }
  assert (Hne : real_rows V <> []) by (destruct V; [contradiction|discriminate]).
  destruct (perfect_choice_max d f u (real_rows V) Hb Hne Hd) as [i [x [Hi [Hx [H1 H2]]]]].
  exists l, i. split; [exact El|]. split; [exact Hi|]. apply Hl.
  destruct (nth_map_inv _ _ _ _ Hx) as [r [Hr' ->]]. exists r. split; [exact Hr'|].
  assert (Hlen : forall j p, nth_error V j = Some p -> length p = d).
  { intros j p Hp. unfold rect in Hr. rewrite Forall_forall in Hr. apply Hr. eapply nth_error_In; eassumption. }
  split.
  - intros j p Hp Hdom. apply dominated_improves in Hdom.
    assert (u (map Q2R r) < u (map Q2R p)).
    { apply Hs; [rewrite map_length; eauto|rewrite map_length; eauto|exact Hdom]. }
    pose proof (H1 j _ (nth_map_some _ _ _ _ Hp)). lra.
  - intros j p Hj Hp Heq. apply Qeq_rows in Heq.
    pose proof (H2 j _ Hj (nth_map_some (map Q2R) _ _ _ Hp)) as H. rewrite Heq in H. lra.
Qed.

Lemma perfect_pairs d f u q : batch_agrees d f u -> q <> [] -> Forall (fun x => length x = d) q ->
  exists i ps, perfect_choose f (Mat q) = Ok i /\ choose_pairs (perfect_choose f) q = Ok ps /\
    map (fun p => snd p) ps = filter (fun j => negb (Nat.eqb j i)) (seq 0 (length q)) /\
    forall p, In p ps -> exists j x y, p = ((-1)%Z, i, j) /\ j <> i /\ nth_error q i = Some x /\ nth_error q j = Some y /\ u y <= u x.
Proof.
  intros Hb Hq Hd. destruct (perfect_choice_max d f u q Hb Hq Hd) as [i [x [Hi [Hx [H1 _]]]]].
  exists i, (gen_pairs_from_idx i (seq 0 (length q))). split; [exact Hi|]. unfold choose_pairs. rewrite Hi. split; [reflexivity|].
  rewrite gen_pairs_from_idx_spec. split.
  - rewrite map_map. cbn. apply map_id.
  - intros p Hp. apply in_map_iff in Hp. destruct Hp as [j [<- Hj]]. apply filter_In in Hj. destruct Hj as [Hj Hji].
    apply in_seq in Hj. destruct (nth_error q j) as [y|] eqn:Ey; [|apply nth_error_None in Ey; lia].
    exists j, x, y. split; [reflexivity|]. split; [intros ->; now rewrite Nat.eqb_refl in Hji|]. split; [exact Hx|]. split; [exact Ey|now apply (H1 j)].
Qed.

(** ---- sigmoid ---- *)
Lemma sigmoid_range k b x : 0 < sigmoid k b x < 1.
Proof.
  unfold sigmoid. pose proof (exp_pos (- (k * x + b))). split.
  - apply Rmult_lt_0_compat; [lra|]. apply Rinv_0_lt_compat; lra.
  - unfold Rdiv. rewrite Rmult_1_l, <- Rinv_1. apply Rinv_lt_contravar; lra.
Qed.
Lemma sigmoid_increasing k b x y : 0 < k -> x < y -> sigmoid k b x < sigmoid k b y.
Proof.
  intros Hk Hxy. unfold sigmoid, Rdiv. rewrite !Rmult_1_l.
  assert (exp (- (k * y + b)) < exp (- (k * x + b))).
  { apply exp_increasing. assert (k * x < k * y) by now apply Rmult_lt_compat_l. lra. }
  pose proof (exp_pos (- (k * y + b))). apply Rinv_lt_contravar; [apply Rmult_lt_0_compat; lra|lra].
Qed.
Lemma sigmoid_lt k b x y : 0 < k -> (sigmoid k b x < sigmoid k b y <-> x < y).
Proof.
  intros Hk. split; [|now apply sigmoid_increasing]. intros H. destruct (Rlt_le_dec x y) as [|[Hy | ->]]; [assumption| |lra].
  pose proof (sigmoid_increasing k b y x Hk Hy). lra.
Qed.
Lemma sigmoid_le k b x y : 0 < k -> x <= y -> sigmoid k b x <= sigmoid k b y.
Proof. intros Hk [H | ->]; [left; now apply sigmoid_increasing|right; reflexivity]. Qed.
Lemma sigmoid_logit p : 0 < p < 1 -> sigmoid 1 0 (ln p - ln (1 - p)) = p.
Proof.
  intros Hp. unfold sigmoid. replace (- (1 * (ln p - ln (1 - p)) + 0)) with (ln (1 - p) + - ln p) by ring.
  rewrite exp_plus, exp_Ropp, !exp_ln by lra. field. lra.
Qed.
Lemma logit_increasing p q : 0 < p -> p < q -> q < 1 -> ln p - ln (1 - p) < ln q - ln (1 - q).
Proof. intros. assert (ln p < ln q) by (apply ln_increasing; lra). assert (ln (1 - q) < ln (1 - p)) by (apply ln_increasing; lra). lra. Qed.

Lemma perfect_rating d f u : batch_agrees d f u -> forall x y, length x = d -> length y = d ->
  exists a b, perfect_rate f (Vec x) = Ok (Scal a) /\ perfect_rate f (Vec y) = Ok (Scal b) /\ 0 < a < 1 /\ (a < b <-> u x < u y).
Proof.
  intros [H _] x y Hx Hy. exists (sigmoid 4 0 (u x)), (sigmoid 4 0 (u y)). unfold perfect_rate. rewrite !H by assumption.
  split; [reflexivity|]. split; [reflexivity|]. split; [apply sigmoid_range|]. apply sigmoid_lt. lra.
Qed.

(** ---- calibration ---- *)
Lemma get_k_b_spec bot top f lo hi : 0 < bot -> bot < top -> top < 1 -> In lo f -> In hi f -> lo < hi ->
  (forall y, In y f -> lo <= y <= hi) ->
  exists k b, get_k_b bot top f = Ok (Some (k, b)) /\ 0 < k /\
    sigmoid 1 0 (lo * k + b) = bot /\ sigmoid 1 0 (hi * k + b) = top.
Proof.
  intros H0 H1 H2 Hlo Hhi Hlt Hall. unfold get_k_b.
  assert (Hne : f <> []) by (intros ->; inversion Hlo).
  destruct (np_max_ok f Hne) as [M [EM [HM HM']]]. destruct (np_min_ok f Hne) as [m [Em [Hm Hm']]].
  assert (M = hi) by (pose proof (HM' hi Hhi); pose proof (proj2 (Hall M HM)); lra).
  assert (m = lo) by (pose proof (Hm' lo Hlo); pose proof (proj1 (Hall m Hm)); lra). subst.
  rewrite EM, Em. cbn [bind]. destruct (Req_EM_T hi lo) as [E|_]; [lra|].
  pose proof (logit_increasing bot top H0 H1 H2) as Hl.
  set (A := ln bot - ln (1 - bot)) in *. set (B := ln top - ln (1 - top)) in *.
  eexists _, _. split; [reflexivity|]. split.
  { apply Rmult_lt_0_compat; [lra|]. apply Rinv_0_lt_compat; lra. }
  split.
  - replace (lo * ((B - A) / (hi - lo)) + (A - (B - A) / (hi - lo) * lo)) with A by ring. apply sigmoid_logit; lra.
  - replace (hi * ((B - A) / (hi - lo)) + (A - (B - A) / (hi - lo) * lo)) with B by (field; lra). apply sigmoid_logit; lra.
Qed.
Lemma get_k_b_constant bot top c f : f <> [] -> (forall y, In y f -> y = c) -> get_k_b bot top f = Ok None.
Proof.
  intros Hne Hc. unfold get_k_b. destruct (np_max_ok f Hne) as [M [EM [HM _]]]. destruct (np_min_ok f Hne) as [m [Em [Hm _]]].
  rewrite EM, Em. cbn [bind]. destruct (Req_EM_T M m) as [|N]; [reflexivity|]. exfalso. apply N. rewrite (Hc M HM), (Hc m Hm). reflexivity.
Qed.

(** the noise-free rating of an option of utility [y] by a calibrated user *)
Lemma human_rate_val u z x y : hu_f u (Vec x) = Ok (Scal y) ->
  human_rate u z (Vec x) = Ok (Scal (sigmoid 1 0 (y * hu_k u + hu_b u + hu_sigma u * z))).
Proof. intros E. unfold human_rate, scaled. now rewrite E. Qed.
Lemma learn2_calibrates u lo hi : 0 < hu_bot u -> hu_bot u < hu_top u -> hu_top u < 1 -> lo < hi ->
  exists u', learn_k_b2 u [lo; hi] = Ok u' /\ 0 < hu_k u' /\ forall x y, hu_f u (Vec x) = Ok (Scal y) ->
    exists r, human_rate u' 0 (Vec x) = Ok (Scal r) /\ (y = lo -> r = hu_bot u) /\ (y = hi -> r = hu_top u) /\
    (lo <= y <= hi -> hu_bot u <= r <= hu_top u).
Proof.
  intros H0 H1 H2 Hlt.
  destruct (get_k_b_spec (hu_bot u) (hu_top u) [lo; hi] lo hi) as [k [b [E [Hk [Hl Hh]]]]]; auto.
  - now left.
  - right; now left.
  - intros y [<- | [<- | []]]; lra.
  - unfold learn_k_b2. rewrite E. cbn [bind]. eexists. split; [reflexivity|]. split; [exact Hk|].
    intros x y Hy. eexists. split; [apply human_rate_val; exact Hy|]. cbn [hu_k hu_b hu_sigma].
    rewrite Rmult_0_r, Rplus_0_r. split; [intros ->; exact Hl|]. split; [intros ->; exact Hh|].
    intros [Ha Hb].
    assert (lo * k + b <= y * k + b <= hi * k + b).
    { split; apply Rplus_le_compat_r, Rmult_le_compat_r; lra. }
    split; [rewrite <- Hl|rewrite <- Hh]; apply sigmoid_le; lra.
Qed.
Lemma learn1_fixed u rewards u' : learn_k_b u rewards = Ok u' ->
  hu_k u' = 4 /\ hu_b u' = 0 /\ hu_f u' = hu_f u /\ hu_beta u' = hu_beta u /\ hu_sigma u' = hu_sigma u.
Proof.
  unfold learn_k_b. destruct (hu_f u rewards) as [y|]; [|discriminate]. cbn [bind].
  destruct (get_k_b _ _ _) as [kb|]; [|discriminate]. cbn [bind]. intros [= <-]. cbn. destruct kb as [[k b]|]; auto.
Qed.

Lemma learn1_wrong : exists u u', 0 < hu_bot u /\ hu_bot u < hu_top u /\ hu_top u < 1 /\
  hu_f u (Vec [0; 1]) = Ok (Vec [0; 1]) /\ hu_f u (Scal 0) = Ok (Scal 0) /\ learn_k_b u (Vec [0; 1]) = Ok u' /\
  exists r, human_rate u' 0 (Scal 0) = Ok (Scal r) /\ r <> hu_bot u.
Proof.
  eexists (huser_init (linear_calc [1]) 1 1 (1/10) (9/10)), _. cbn [hu_bot hu_top hu_f huser_init].
  split; [lra|]. split; [lra|]. split; [lra|]. split; [cbn; do 2 f_equal; f_equal; [lra|f_equal; lra]|].
  split; [cbn; do 2 f_equal; lra|]. split.
  - unfold learn_k_b, huser_init. cbn. destruct (Req_EM_T _ _) as [E|_]; [exfalso; revert E; unfold rmax1, rmin1; cbn;
      rewrite Rmax_right, Rmin_left by lra; lra|]. reflexivity.
  - exists (1/2). split; [|lra]. unfold human_rate, scaled, huser_init. cbn. unfold sigmoid. do 2 f_equal.
    replace (- (1 * (0 * 1 * 4 + 0 + 1 * 0) + 0)) with 0 by ring. rewrite exp_0. lra.
Qed.

(** ---- the choice of a human user ---- *)
Lemma luce_affine beta k b v out : luce beta (map (fun y => y * k + b) v) out <-> luce (beta * k) v out.
Proof.
  unfold luce. rewrite map_length. split; intros [Hl [Hd H]]; (split; [exact Hl|split; [exact Hd|]]); intros i j x y pa pb Hx Hy Ha Hb.
  - rewrite (H i j (x * k + b) (y * k + b) pa pb); auto using nth_map_some.
    + f_equal. f_equal. ring.
    + now apply (nth_map_some (fun y => y * k + b)).
    + now apply (nth_map_some (fun y => y * k + b)).
  - apply nth_map_inv in Hx. apply nth_map_inv in Hy. destruct Hx as [x' [Hx ->]], Hy as [y' [Hy ->]].
    rewrite (H i j x' y' pa pb); auto. f_equal. f_equal. ring.
Qed.
Lemma human_choice u q v : hu_f u q = Ok (Vec v) -> v <> [] -> exists pdf lo, luce (hu_beta u * hu_k u) v pdf /\
    lo 0%nat = 0 /\ lo (length v) = 1 /\ (forall i a, nth_error pdf i = Some a -> lo (S i) - lo i = a) /\
    forall d, 0 <= d < 1 -> exists i, human_choose u d q = Ok i /\ (i < length v)%nat /\
    forall j, (j < length v)%nat -> (j = i <-> lo j <= d < lo (S j)).
Proof.
  intros E Hv. set (v' := map (fun y => y * hu_k u + hu_b u) v).
  assert (Hv' : v' <> []) by (destruct v; [contradiction|discriminate]).
  destruct (sample_spec v' (hu_beta u) Hv') as [pdf [lo [Ep [L0 [L1 [D H]]]]]].
  destruct (p_human_choice_luce v' (hu_beta u) Hv') as [pdf' [Ep' HL]].
  assert (pdf' = pdf) by congruence. subst pdf'. unfold v' in *. rewrite map_length in *.
  exists pdf, lo. split; [now apply luce_affine in HL|]. split; [exact L0|]. split; [exact L1|]. split; [exact D|].
  intros d Hd. unfold human_choose, scaled. rewrite E. cbn [bind amap]. apply H. exact Hd.
Qed.
Lemma human_rate_range u z x y : hu_f u (Vec x) = Ok (Scal y) -> exists r, human_rate u z (Vec x) = Ok (Scal r) /\ 0 < r < 1.
Proof. intros E. eexists. split; [apply human_rate_val; eassumption|]. apply sigmoid_range. Qed.
Lemma human_rate_ordered u z x y a b : 0 < hu_k u -> hu_f u (Vec x) = Ok (Scal a) -> hu_f u (Vec y) = Ok (Scal b) ->
  exists r s, human_rate u z (Vec x) = Ok (Scal r) /\ human_rate u z (Vec y) = Ok (Scal s) /\ (r < s <-> a < b).
Proof.
  intros Hk Ea Eb. eexists _, _. split; [apply human_rate_val; eassumption|]. split; [apply human_rate_val; eassumption|].
  rewrite sigmoid_lt by lra. split; intros H.
  - destruct (Rlt_le_dec a b) as [|Hba]; [assumption|]. assert (b * hu_k u <= a * hu_k u) by (apply Rmult_le_compat_r; lra). lra.
  - assert (a * hu_k u < b * hu_k u) by (now apply Rmult_lt_compat_r). lra.
Qed.

(** ---- the retry loop ---- *)
Lemma tune_loop_in res n : forall i, exists j, (i <= j <= i + n)%nat /\ tune_loop res n i = res j.
Proof.
  induction n as [|n IH]; intros i; cbn [tune_loop]; [exists i; split; [lia|reflexivity]|].
  destruct (Rltb _ _); [exists i; split; [lia|reflexivity]|]. destruct (IH (S i)) as [j [Hj E]]. exists j. split; [lia|exact E].
Qed.
Lemma tune_loop_first res n : forall i, (exists j, (i <= j <= i + n)%nat /\ snd (res j) < 2/100) ->
  snd (tune_loop res n i) < 2/100.
Proof.
  induction n as [|n IH]; intros i [j [Hj Hr]]; cbn [tune_loop].
  - replace i with j by lia. exact Hr.
  - destruct (Rltb (snd (res i)) (2/100)) eqn:E; [now apply Rltb_true in E|]. apply Rltb_false in E.
    apply IH. exists j. split; [|exact Hr]. destruct (Nat.eq_dec i j) as [->|]; [lra|lia].
Qed.
Lemma tune_spec res : match tune res with
  | Ok x => exists j, (j < 10)%nat /\ x = fst (res j) /\ snd (res j) <= 2/100
  | Raise e => e = GenericException /\ forall j, (j < 10)%nat -> 2/100 <= snd (res j)
  end.
Proof.
  unfold tune. destruct (tune_loop_in res 9 0) as [j [Hj E]]. destruct (Rltb (2/100) _) eqn:L.
  - split; [reflexivity|]. intros i Hi. apply Rltb_true in L. destruct (Rle_lt_dec (2/100) (snd (res i))) as [|C]; [assumption|].
    assert (snd (tune_loop res 9 0) < 2/100) by (apply tune_loop_first; exists i; split; [lia|exact C]). lra.
  - apply Rltb_false in L. exists j. split; [lia|]. rewrite E in *. auto.
Qed.
Lemma tunings_spec u rb rs : match learn_tunings u rb rs with
  | (u', None) => (exists i, (i < 10)%nat /\ hu_beta u' = fst (rb i) /\ snd (rb i) <= 2/100) /\
    (exists i, (i < 10)%nat /\ hu_sigma u' = fst (rs i) /\ snd (rs i) <= 2/100)
  | (u', Some e) => e = GenericException /\ hu_sigma u' = hu_sigma u /\
    ((forall i, (i < 10)%nat -> 2/100 <= snd (rb i)) \/ (forall i, (i < 10)%nat -> 2/100 <= snd (rs i)))
  end.
Proof.
  unfold learn_tunings. pose proof (tune_spec rb) as H. destruct (tune rb) as [x|e].
  - pose proof (tune_spec rs) as H'. destruct (tune rs) as [s|e']; cbn; [split; assumption|]. destruct H' as [-> H']. auto.
  - destruct H as [-> H]. auto.
Qed.
Lemma tunings_beta_changed : exists u rb rs, let r := learn_tunings u rb rs in snd r = Some GenericException /\ hu_beta (fst r) <> hu_beta u.
Proof.
  exists (huser_init (fun a => Ok a) 1 1 (1/10) (9/10)), (fun _ => (7, 0)), (fun _ => (1, 1)).
  unfold learn_tunings, tune. cbn.
  rewrite (proj2 (Rltb_true 0 (2/100))) by lra. cbn. rewrite (proj2 (Rltb_false (2/100) 0)) by lra.
  repeat rewrite (proj2 (Rltb_false 1 (2/100))) by lra. cbn. rewrite (proj2 (Rltb_true (2/100) 1)) by lra. cbn. split; [reflexivity|lra].
Qed.

(** ---- the number of sampled queries ---- *)
Lemma Qlt_bool_true x y : Qlt_bool x y = true <-> (x < y)%Q.
Proof.
  unfold Qlt_bool. rewrite negb_true_iff. split; intros H.
  - destruct (Qlt_le_dec x y) as [|C]; [assumption|]. apply Qle_bool_iff in C. congruence.
  - destruct (Qle_bool y x) eqn:E; [|reflexivity]. apply Qle_bool_iff in E. exfalso. apply (Qlt_not_le _ _ H E).
Qed.
Lemma Qlt_bool_false x y : Qlt_bool x y = false <-> (y <= x)%Q.
Proof. unfold Qlt_bool. rewrite negb_false_iff. apply Qle_bool_iff. Qed.
Lemma floor_half c : Qfloor (inject_Z c * (1 # 2)) = (c / 2)%Z.
Proof. unfold Qfloor, inject_Z, Qmult. cbn [Qnum Qden]. now rewrite Z.mul_1_r. Qed.
Lemma half_lt a c : (inject_Z a < inject_Z c * (1 # 2))%Q <-> (2 * a < c)%Z.
Proof. unfold Qlt, inject_Z, Qmult. cbn [Qnum Qden Pos.mul]. lia. Qed.
Lemma half_gt a c : (inject_Z c * (1 # 2) < inject_Z a)%Q <-> (c < 2 * a)%Z.
Proof. unfold Qlt, inject_Z, Qmult. cbn [Qnum Qden Pos.mul]. lia. Qed.
Lemma num_Q_eq c : num_Q c = (if 120000 <? c then 60000 else if c <? 60 then Z.min 30 c else c / 2)%Z.
Proof.
  unfold num_Q. destruct (Qlt_bool (inject_Z 60000) (inject_Z c * (1 # 2))) eqn:E1.
  - apply Qlt_bool_true, half_lt in E1. rewrite (proj2 (Z.ltb_lt _ _)) by lia.
    replace (Qlt_bool (inject_Z 60000) (inject_Z 30)) with false by reflexivity. apply Qfloor_Z.
  - assert (E1' : (c <= 120000)%Z).
    { destruct (Z_le_gt_dec c 120000) as [|G]; [assumption|]. exfalso.
      assert (Qlt_bool (inject_Z 60000) (inject_Z c * (1 # 2)) = true) by (apply Qlt_bool_true, half_lt; lia). congruence. }
    rewrite (proj2 (Z.ltb_ge _ _)) by lia.
    destruct (Qlt_bool (inject_Z c * (1 # 2)) (inject_Z 30)) eqn:E2.
    + apply Qlt_bool_true, half_gt in E2. rewrite (proj2 (Z.ltb_lt _ _)) by lia. apply Qfloor_Z.
    + assert (E2' : (60 <= c)%Z).
      { destruct (Z_le_gt_dec 60 c) as [|G]; [assumption|]. exfalso.
        assert (Qlt_bool (inject_Z c * (1 # 2)) (inject_Z 30) = true) by (apply Qlt_bool_true, half_gt; lia). congruence. }
      rewrite (proj2 (Z.ltb_ge _ _)) by lia. apply floor_half.
Qed.
Lemma num_Q_bounds c : (0 <= c)%Z -> (Z.min 30 c <= num_Q c <= c)%Z /\ (num_Q c <= 60000)%Z.
Proof.
  intros Hc. rewrite num_Q_eq. destruct (Z.ltb_spec 120000 c); [lia|]. destruct (Z.ltb_spec c 60); [lia|].
  assert (30 <= c / 2)%Z by (apply Z.div_le_lower_bound; lia).
  assert (c / 2 <= c)%Z by (apply Z.div_le_upper_bound; lia).
  assert (c / 2 <= 60000)%Z by (apply Z.div_le_upper_bound; lia). lia.
Qed.
Lemma binom_zero s : forall k, (s < k)%nat -> binom s k = 0%nat.
Proof.
  induction s as [|s IH]; intros [|k] H; try lia; [reflexivity|]. cbn. rewrite (IH k), (IH (S k)) by lia. reflexivity.
Qed.
Lemma sample_Qs_ok draws n k : (k <= n -> (forall t, is_draw n k (draws t)) /\ fair n k draws)%nat ->
  exists fuel rows, sample_Qs fuel draws binom n k = Ok rows /\ NoDup rows /\ Forall (is_subset n k) rows /\
    (Nat.min 30 (binom n k) <= length rows <= binom n k)%nat.
Proof.
  intros H. pose proof (num_Q_bounds (Z.of_nat (binom n k)) (Zle_0_nat _)) as [Hb _].
  assert (Hn : (Nat.min 30 (binom n k) <= Z.to_nat (num_Q (Z.of_nat (binom n k))) <= binom n k)%nat) by lia.
  unfold sample_Qs. destruct (le_lt_dec k n) as [Hk|Hk].
  - destruct (H Hk) as [Hd Hf]. destruct (sample_terminates draws n k (Z.to_nat (num_Q (Z.of_nat (binom n k)))) Hk Hd Hf) as [fuel [rows E]]; [lia|].
    exists fuel, rows. split; [exact E|]. destruct (sample_unique_sets_safe draws n k (fun _ => Hd) fuel _ rows E) as [Hl [Hnd [Hs _]]].
    split; [exact Hnd|]. split; [exact Hs|]. rewrite Hl. exact Hn.
  - rewrite (binom_zero n k Hk) in *. exists 1%nat, []. 
    replace (Z.to_nat (num_Q (Z.of_nat 0))) with 0%nat by (rewrite num_Q_eq; reflexivity).
    split; [reflexivity|]. split; [constructor|]. split; [constructor|]. cbn. lia.
Qed.
