(** Properties C72, C73, C84-C90: the synthetic users *)
From Verif Require Import M_Base M_RBase M_Fake M_Util M_Pairs M_Sampling M_Pareto M_Normal M_User
  S_Fake S_User S_Util S_Sampling S_Pareto P_RBase P_Fake P_Fake2 P_User P_User2 P_User3.
From Coq Require Import Reals Qreals Lra Lia.
Local Open Scope R_scope.

(** C72: [u] is the value of one option, computed consistently for single options and batches *)
Theorem C72_choice : forall d f u q, batch_agrees d f u -> q <> [] -> Forall (fun x => length x = d) q ->
  exists i x, perfect_choose f (Mat q) = Ok i /\ nth_error q i = Some x /\
    (forall j y, nth_error q j = Some y -> u y <= u x) /\ (forall j y, (j < i)%nat -> nth_error q j = Some y -> u y < u x).
Proof. exact perfect_choice_max. Qed.
Print Assumptions C72_choice.
(** values in rows (one query of several options per row): the position counted row by row *)
Theorem C72_matrix : forall f q m w, f q = Ok (Mat m) -> m <> [] -> (0 < w)%nat -> Forall (fun row => length row = w) m ->
  exists r c row x, perfect_choose f q = Ok (r * w + c)%nat /\ (c < w)%nat /\ nth_error m r = Some row /\ nth_error row c = Some x /\
    (forall r' c' row' y, nth_error m r' = Some row' -> nth_error row' c' = Some y -> y <= x /\ ((r' < r)%nat \/ (r' = r /\ c' < c)%nat -> y < x)).
Proof. exact perfect_choice_matrix. Qed.
Print Assumptions C72_matrix.
Example C72_matrix_ex : perfect_choose (fun q => Ok q) (Mat [[1; 5; 2]; [0; 3; 4]]) = Ok 1%nat /\ perfect_choose (fun q => Ok q) (Mat [[1; 2; 2]; [0; 3; 4]]) = Ok 5%nat.
Proof.
  split; unfold perfect_choose; cbn; repeat first [rewrite (proj2 (Rltb_true _ _)) by lra | rewrite (proj2 (Rltb_false _ _)) by lra]; reflexivity.
Qed.
Theorem C72_pareto : forall d f u q, batch_agrees d f u -> strictly_increasing d u -> q <> [] -> Forall (fun x => length x = d) q ->
  exists i x, perfect_choose f (Mat q) = Ok i /\ nth_error q i = Some x /\ forall j y, nth_error q j = Some y -> ~ improves x y.
Proof. exact perfect_choice_pareto. Qed.
Print Assumptions C72_pareto.
Theorem C72_get_pareto : forall d f u V fuel, batch_agrees d f u -> strictly_increasing d u -> V <> [] -> rect d V -> (length V < fuel)%nat ->
  exists l i, get_pareto fuel V = Some l /\ perfect_choose f (Mat (map (map Q2R) V)) = Ok i /\ In i l.
Proof. exact perfect_choice_front. Qed.
Print Assumptions C72_get_pareto.
Theorem C72_strict_utilities : (forall w, Forall (fun x => 0 < x) w -> strictly_increasing (length w) (fun x => rsum (zipw Rmult x w))) /\
  (forall L, Forall (fun x => 0 < x) (lg_w L) -> 0 < lg_Q L -> 0 < lg_v L ->
     strictly_increasing (length (lg_w L)) (fun x => logistic_val L (rsum (zipw Rmult x (lg_w L)) - lg_M L))).
Proof. exact (conj udot_strict logistic_strict). Qed.
Print Assumptions C72_strict_utilities.
Theorem C72_pairs : forall d f u q, batch_agrees d f u -> q <> [] -> Forall (fun x => length x = d) q ->
  exists i ps, perfect_choose f (Mat q) = Ok i /\ choose_pairs (perfect_choose f) q = Ok ps /\
    map (fun p => snd p) ps = filter (fun j => negb (Nat.eqb j i)) (seq 0 (length q)) /\
    forall p, In p ps -> exists j x y, p = ((-1)%Z, i, j) /\ j <> i /\ nth_error q i = Some x /\ nth_error q j = Some y /\ u y <= u x.
Proof. exact perfect_pairs. Qed.
Print Assumptions C72_pairs.
Theorem C72_rating : forall d f u, batch_agrees d f u -> forall x y, length x = d -> length y = d ->
  exists a b, perfect_rate f (Vec x) = Ok (Scal a) /\ perfect_rate f (Vec y) = Ok (Scal b) /\ 0 < a < 1 /\ (a < b <-> u x < u y).
Proof. exact perfect_rating. Qed.
Print Assumptions C72_rating.
(** weights 1/4, 3/4: the hypotheses hold and the second option wins *)
Example C72_ex : batch_agrees 2 (linear_calc [1/4; 3/4]) (fun x => rsum (zipw Rmult x [1/4; 3/4])) /\
  strictly_increasing 2 (fun x => rsum (zipw Rmult x [1/4; 3/4])) /\
  perfect_choose (linear_calc [1/4; 3/4]) (Mat [[2; 1]; [2; 5]; [4; 1]]) = Ok 1%nat.
Proof.
  split; [apply (linear_batch [1/4; 3/4]); discriminate|]. split; [apply (udot_strict [1/4; 3/4]); repeat constructor; lra|].
  unfold perfect_choose. cbn. rewrite (proj2 (Rltb_true _ _)) by lra. rewrite (proj2 (Rltb_false _ _)) by lra. reflexivity.
Qed.
(** a weakly increasing utility is not enough: the weighted maximum lets the user pick a dominated option *)
Example C72_weak_utility : perfect_choose (wmax_calc [1; 1/2]) (Mat [[1; 0]; [1; 1]]) = Ok 0%nat /\ improves [1; 0] [1; 1].
Proof.
  split.
  - unfold perfect_choose, wmax_calc, extreme_calc. cbn. unfold rmax1. cbn. rewrite !Rmax_left by lra.
    rewrite (proj2 (Rltb_false _ _)) by lra. reflexivity.
  - split; [repeat constructor; lra|]. exists 1%nat, 0, 1. repeat split. lra.
Qed.

(** C73 *)
Theorem C73_calibration : forall bot top f lo hi, 0 < bot -> bot < top -> top < 1 -> In lo f -> In hi f -> lo < hi ->
  (forall y, In y f -> lo <= y <= hi) ->
  exists k b, get_k_b bot top f = Ok (Some (k, b)) /\ 0 < k /\
    sigmoid 1 0 (lo * k + b) = bot /\ sigmoid 1 0 (hi * k + b) = top.
Proof. exact get_k_b_spec. Qed.
Print Assumptions C73_calibration.
Theorem C73_increasing : forall k b x y, 0 < k -> (sigmoid k b x < sigmoid k b y <-> x < y).
Proof. exact sigmoid_lt. Qed.
Print Assumptions C73_increasing.
(** the user after [learn_beta]: a noise-free rating runs from the bottom to the top of the rating range *)
Theorem C73_user : forall u lo hi, 0 < hu_bot u -> hu_bot u < hu_top u -> hu_top u < 1 -> lo < hi ->
  exists u', learn_k_b2 u [lo; hi] = Ok u' /\ 0 < hu_k u' /\ forall x y, hu_f u (Vec x) = Ok (Scal y) ->
    exists r, human_rate u' 0 (Vec x) = Ok (Scal r) /\ (y = lo -> r = hu_bot u) /\ (y = hi -> r = hu_top u) /\
      (lo <= y <= hi -> hu_bot u <= r <= hu_top u).
Proof. exact learn2_calibrates. Qed.
Print Assumptions C73_user.
Example C73_ex : exists k b, get_k_b (1/10) (9/10) [3; 1; 2] = Ok (Some (k, b)) /\ 0 < k /\
    sigmoid 1 0 (1 * k + b) = 1/10 /\ sigmoid 1 0 (3 * k + b) = 9/10.
Proof. apply C73_calibration; try lra; [right; now left|now left|intros y [<- | [<- | [<- | []]]]; lra]. Qed.
(** utilities that are all equal: division by zero *)
Theorem C73_constant_refuted : forall bot top c f, f <> [] -> (forall y, In y f -> y = c) -> get_k_b bot top f = Ok None.
Proof. exact get_k_b_constant. Qed.
Print Assumptions C73_constant_refuted.
Example C73_constant_ex : get_k_b (1/10) (9/10) [2; 2] = Ok None.
Proof. apply (C73_constant_refuted _ _ 2); [discriminate|]. intros y [<- | [<- | []]]; reflexivity. Qed.

(** C84: [HumanChoiceUser.learn_beta] forgets the calibration it computed *)
Theorem C84_always_fixed : forall u rewards u', learn_k_b u rewards = Ok u' ->
  hu_k u' = 4 /\ hu_b u' = 0 /\ hu_f u' = hu_f u /\ hu_beta u' = hu_beta u /\ hu_sigma u' = hu_sigma u.
Proof. exact learn1_fixed. Qed.
Print Assumptions C84_always_fixed.
(** utilities 0 and 1, rating range 0.1 to 0.9: the lowest utility is rated 1/2 *)
Theorem C84_learn_beta_refuted : exists u u', 0 < hu_bot u /\ hu_bot u < hu_top u /\ hu_top u < 1 /\
  hu_f u (Vec [0; 1]) = Ok (Vec [0; 1]) /\ hu_f u (Scal 0) = Ok (Scal 0) /\ learn_k_b u (Vec [0; 1]) = Ok u' /\
  exists r, human_rate u' 0 (Scal 0) = Ok (Scal r) /\ r <> hu_bot u.
Proof. exact learn1_wrong. Qed.
Print Assumptions C84_learn_beta_refuted.
Example C84_ex : exists u', learn_k_b (huser_init (linear_calc [1]) 1 1 (1/10) (9/10)) (Vec [0; 1]) = Ok u' /\ hu_k u' = 4 /\ hu_b u' = 0 /\ hu_beta u' = 1.
Proof.
  eexists. split.
  - unfold learn_k_b, huser_init. cbn. destruct (Req_EM_T _ _) as [E|_]; [exfalso; revert E; unfold rmax1, rmin1; cbn; rewrite Rmax_right, Rmin_left by lra; lra|]. reflexivity.
  - cbn. repeat split.
Qed.

(** C85: [math.comb] is the binomial coefficient *)
Theorem C85_sample_Qs : forall draws n k, (k <= n -> (forall t, is_draw n k (draws t)) /\ fair n k draws)%nat ->
  exists fuel rows, sample_Qs fuel draws binom n k = Ok rows /\ NoDup rows /\ Forall (is_subset n k) rows /\
   (Nat.min 30 (binom n k) <= length rows <= binom n k)%nat.
Proof. exact sample_Qs_ok. Qed.
Print Assumptions C85_sample_Qs.
Theorem C85_number : forall c, (0 <= c)%Z -> (Z.min 30 c <= num_Q c <= c)%Z /\ (num_Q c <= 60000)%Z.
Proof. exact num_Q_bounds. Qed.
Print Assumptions C85_number.
Example C85_ex : num_Q 45 = 30%Z /\ num_Q 10 = 10%Z /\ num_Q 105 = 52%Z /\ num_Q 1000000 = 60000%Z /\ num_Q 0 = 0%Z.
Proof. vm_compute. repeat split. Qed.

(** C86 *)
Theorem C86_tuning : forall u rb rs, match learn_tunings u rb rs with
  | (u', None) => (exists i, (i < 10)%nat /\ hu_beta u' = fst (rb i) /\ snd (rb i) <= 2/100) /\
                  (exists i, (i < 10)%nat /\ hu_sigma u' = fst (rs i) /\ snd (rs i) <= 2/100)
  | (u', Some e) => e = GenericException /\ hu_sigma u' = hu_sigma u /\
       ((forall i, (i < 10)%nat -> 2/100 <= snd (rb i)) \/ (forall i, (i < 10)%nat -> 2/100 <= snd (rs i)))
  end.
Proof. exact tunings_spec. Qed.
Print Assumptions C86_tuning.
(** a failed call may still have replaced beta *)
Theorem C86_failure_refuted : exists u rb rs, let r := learn_tunings u rb rs in snd r = Some GenericException /\ hu_beta (fst r) <> hu_beta u.
Proof. exact tunings_beta_changed. Qed.
Print Assumptions C86_failure_refuted.
Example C86_ex : exists u', learn_tunings (huser_init (fun a => Ok a) 1 1 (1/10) (9/10)) (fun i => (INR i, 1 / INR (S (i * 20)))) (fun _ => (3, 0)) = (u', None) /\
  hu_beta u' = INR 3 /\ hu_sigma u' = 3.
Proof.
  eexists. unfold learn_tunings, tune. cbn [tune_loop fst snd Nat.mul Nat.add].
  rewrite (proj2 (Rltb_false (1 / INR 1) _)) by (cbn; lra). rewrite (proj2 (Rltb_false (1 / INR 21) _)) by (cbn; lra).
  rewrite (proj2 (Rltb_false (1 / INR 41) _)) by (cbn; lra). rewrite (proj2 (Rltb_true (1 / INR 61) _)) by (cbn; lra).
  cbn [fst snd]. rewrite (proj2 (Rltb_false _ (1 / INR 61))) by (cbn; lra).
  rewrite (proj2 (Rltb_true 0 _)) by lra. cbn [fst snd]. rewrite (proj2 (Rltb_false _ 0)) by lra. split; [reflexivity|]. split; reflexivity.
Qed.

(** C87 *)
Theorem C87_rows : forall (A : Type) (data : nat -> nat -> A) l0 m, (0 < m)%nat -> exists F, fill_F (repeat l0 m) data = Ok F /\ length F = (m * l0)%nat /\
  forall i j, (i < m)%nat -> (j < l0)%nat -> nth_error F (i * l0 + j) = Some (Some (data i j)).
Proof. exact @fill_equal. Qed.
Print Assumptions C87_rows.
(** environments with different numbers of problems: an index error, an uninitialised row, a silently lost problem *)
Theorem C87_rows_refuted : fill_F [1; 2]%nat (fun i j => (i, j)) = Raise IndexError /\
  fill_F [2; 1]%nat (fun i j => (i, j)) = Ok [Some (0, 0); Some (0, 1); Some (1, 0); None]%nat /\
  fill_F [2; 3; 2]%nat (fun i j => (i, j)) = Ok [Some (0, 0); Some (0, 1); Some (1, 0); Some (1, 1); Some (2, 0); Some (2, 1)]%nat.
Proof. exact (conj eq_refl (conj eq_refl eq_refl)). Qed.
Print Assumptions C87_rows_refuted.
Example C87_ex : fill_F (repeat 2 2)%nat (fun i j => (i, j)) = Ok [Some (0, 0); Some (0, 1); Some (1, 0); Some (1, 1)]%nat.
Proof. reflexivity. Qed.

(** C88: the options are drawn with Luce probabilities of rationality [beta * k]; the offset [b] has no influence *)
Theorem C88_choice : forall u q v, hu_f u q = Ok (Vec v) -> v <> [] -> exists pdf lo, luce (hu_beta u * hu_k u) v pdf /\
  lo 0%nat = 0 /\ lo (length v) = 1 /\ (forall i a, nth_error pdf i = Some a -> lo (S i) - lo i = a) /\
  forall d, 0 <= d < 1 -> exists i, human_choose u d q = Ok i /\ (i < length v)%nat /\
    forall j, (j < length v)%nat -> (j = i <-> lo j <= d < lo (S j)).
Proof. exact human_choice. Qed.
Print Assumptions C88_choice.
Theorem C88_rating : forall u z x y, hu_f u (Vec x) = Ok (Scal y) -> exists r, human_rate u z (Vec x) = Ok (Scal r) /\ 0 < r < 1.
Proof. exact human_rate_range. Qed.
Print Assumptions C88_rating.
Theorem C88_rating_ordered : forall u z x y a b, 0 < hu_k u -> hu_f u (Vec x) = Ok (Scal a) -> hu_f u (Vec y) = Ok (Scal b) ->
  exists r s, human_rate u z (Vec x) = Ok (Scal r) /\ human_rate u z (Vec y) = Ok (Scal s) /\ (r < s <-> a < b).
Proof. exact human_rate_ordered. Qed.
Print Assumptions C88_rating_ordered.
Example C88_ex : let u := huser_init (linear_calc [1/2; 1/2]) 2 1 (1/10) (9/10) in
  hu_f u (Mat [[2; 4]; [1; 1]]) = Ok (Vec [3; 1]) /\ hu_f u (Vec [2; 4]) = Ok (Scal 3) /\ hu_f u (Vec [1; 1]) = Ok (Scal 1) /\ 0 < hu_k u.
Proof. cbn. split; [do 2 f_equal; f_equal; [lra|f_equal; lra]|]. split; [do 2 f_equal; lra|]. split; [do 2 f_equal; lra|lra]. Qed.

(** C89 *)
Theorem C89_objective_partial : forall b c diffs, b <= c -> diffs <> [] -> Forall (informative b) diffs ->
  exists m n, obj_mean b diffs = Some m /\ obj_mean c diffs = Some n /\ m <= n /\ 1/2 < m < 1 /\ 1/2 < n < 1.
Proof. exact obj_mean_mono. Qed.
Print Assumptions C89_objective_partial.
(** the threshold drops nearly tied pairs depending on [b], so a more rational user can score lower *)
Theorem C89_objective_refuted : exists b c diffs m n, 0 < b < c /\ (forall d, In d diffs -> d <> 0) /\
  obj_mean b diffs = Some m /\ obj_mean c diffs = Some n /\ n < m.
Proof. exact obj_mean_drop. Qed.
Print Assumptions C89_objective_refuted.
Example C89_ex : Forall (informative 1) [ln 2; - ln 3].
Proof.
  assert (0 < ln 2) by (rewrite <- ln_1; apply ln_increasing; lra). assert (0 < ln 3) by (rewrite <- ln_1; apply ln_increasing; lra).
  repeat constructor; unfold informative, pair_probability; rewrite ?Rabs_Ropp, Rabs_pos_eq, Rmult_1_r, exp_ln by lra; lra.
Qed.

(** before anything was learned a user whose noise draw is 0 rates like the perfect user *)
Theorem C84_new_user : forall f beta sigma bot top q, human_rate (huser_init f beta sigma bot top) 0 q = perfect_rate f q.
Proof. exact new_user_rates. Qed.
Print Assumptions C84_new_user.
Example C84_new_user_ex : human_rate (huser_init (fun a => Ok a) 1 1 (1/10) (9/10)) 0 (Scal 0) = Ok (Scal (1 / 2)).
Proof. rewrite C84_new_user. unfold perfect_rate, sigmoid. cbn [bind amap]. do 2 f_equal. replace (- (4 * 0 + 0)) with 0 by lra. rewrite exp_0. lra. Qed.

(** C90 *)
Theorem C90_rating_objective : forall s t diffs, 0 < s -> s < t ->
  ((forall d, In d diffs -> d = 0) -> rate_mean s diffs = None) /\
  ((exists d, In d diffs /\ d <> 0) -> exists m n, rate_mean s diffs = Some m /\ rate_mean t diffs = Some n /\ n < m /\ 1/2 < n < 1 /\ 1/2 < m < 1).
Proof. exact rate_mean_spec. Qed.
Print Assumptions C90_rating_objective.
Example C90_ex : exists m n, rate_mean 1 [2; 0; -1] = Some m /\ rate_mean 3 [2; 0; -1] = Some n /\ n < m.
Proof.
  destruct (C90_rating_objective 1 3 [2; 0; -1]) as [_ H]; [lra|lra|]. destruct H as [m [n [H1 [H2 [H3 _]]]]]; [exists 2; split; [now left|lra]|].
  exists m, n. auto.
Qed.
