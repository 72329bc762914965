(** Lemmas: single and batch evaluation of the synthetic utilities, averages, strict increase. *)
From Verif Require Import M_Base M_RBase M_Fake S_Fake P_RBase P_Fake.
From Coq Require Import Lra Lia.
Local Open Scope R_scope.

(** ---- randomised weights ---- *)
Lemma in_le_rsum u x : nonneg u -> In x u -> x <= rsum u.
Proof.
  intros H. induction H as [|a u Ha Hu IH]; cbn; [tauto|]. intros [-> | Hx].
  - assert (0 <= rsum u) by (apply rsum_nonneg; unfold nonneg in Hu; rewrite Forall_forall in Hu; exact Hu). lra.
  - specialize (IH Hx). lra.
Qed.
Lemma map_div_nonneg u c : nonneg u -> 0 < c -> nonneg (map (fun x => x / c) u).
Proof.
  intros H Hc. induction H; cbn; constructor; [|assumption]. apply Rmult_le_pos; [assumption|]. left; now apply Rinv_0_lt_compat.
Qed.
Lemma sum_weights_nonneg u : nonneg u -> 0 < rsum u -> nonneg (sum_weights u).
Proof. intros; now apply map_div_nonneg. Qed.
Lemma sum_weights_one u : 0 < rsum u -> rsum (sum_weights u) = 1.
Proof. intros H. unfold sum_weights. rewrite rsum_div. field. lra. Qed.
Lemma norm_inf_ge u x : In x u -> Rabs x <= norm_inf u.
Proof.
  induction u as [|a u IH]; cbn; [tauto|]. intros [-> | Hx]; [apply Rmax_l|].
  eapply Rle_trans; [now apply IH|apply Rmax_r].
Qed.
Lemma norm_inf_pos u x : In x u -> 0 < x -> 0 < norm_inf u.
Proof. intros H Hx. pose proof (norm_inf_ge u x H). rewrite Rabs_pos_eq in H0; lra. Qed.
Lemma inf_weights_nonneg u x : nonneg u -> In x u -> 0 < x -> nonneg (inf_weights u).
Proof. intros H Hx Hp. apply map_div_nonneg; [exact H|now apply (norm_inf_pos u x)]. Qed.
Lemma norm_1_sum u : nonneg u -> norm_1 u = rsum u.
Proof. intros H. unfold norm_1. induction H; cbn; [reflexivity|]. rewrite IHForall, Rabs_pos_eq by assumption. reflexivity. Qed.
Lemma l1_weights_nonneg u : nonneg u -> 0 < rsum u -> nonneg (l1_weights u).
Proof. intros H Hp. apply map_div_nonneg; [exact H|now rewrite norm_1_sum]. Qed.
Lemma logistic_random_w u q m v : nonneg u -> nonneg (lg_w (logistic_random u q m v)).
Proof. intros H. cbn. induction H; cbn; constructor; auto. lra. Qed.
Lemma logistic_random_Q u q m v : 0 < lg_Q (logistic_random u q m v).
Proof. cbn. pose proof (Rle_0_sqr (q * 2)) as H. unfold Rsqr in H. lra. Qed.

(** ---- weighted average ---- *)
Lemma zipw_bounds lo hi w : nonneg w -> forall x, length x = length w -> (forall a, In a x -> lo <= a <= hi) ->
  lo * rsum w <= rsum (zipw Rmult x w) <= hi * rsum w.
Proof.
  induction w as [|b w IH]; intros Hw x Hl Hx; [destruct x; [cbn; lra|discriminate]|].
  destruct x as [|a x]; [discriminate|]. inversion Hw; subst. cbn.
  destruct (IH H2 x) as [H3 H4]; [now injection Hl|intros; apply Hx; now right|].
  destruct (Hx a (or_introl eq_refl)) as [Ha Hb].
  assert (lo * b <= a * b) by now apply Rmult_le_compat_r.
  assert (a * b <= hi * b) by now apply Rmult_le_compat_r. lra.
Qed.

Lemma linear_calc_many w a : (length w <> 1)%nat -> linear_calc w a = adot a w.
Proof. intros H. destruct w as [|b [|c w]]; [reflexivity|exfalso; now apply H|reflexivity]. Qed.

Lemma rsum_zipw_div c : forall x u, rsum (zipw Rmult x (map (fun y => y / c) u)) = rsum (zipw Rmult x u) / c.
Proof.
  induction x as [|a x IH]; intros u; [cbn; unfold Rdiv; ring|]. destruct u as [|b u]; [cbn; unfold Rdiv; ring|].
  cbn. rewrite IH. unfold Rdiv. ring.
Qed.

Lemma vdot_ok x w : length x = length w -> vdot x w = Ok (rsum (zipw Rmult x w)).
Proof. intros H. unfold vdot. now rewrite (proj2 (Nat.eqb_eq _ _) H). Qed.

Lemma linear_average u x lo hi : (2 <= length u)%nat -> nonneg u -> 0 < rsum u -> length x = length u ->
  (forall a, In a x -> lo <= a <= hi) ->
  exists v, linear_calc (sum_weights u) (Vec x) = Ok (Scal v) /\ v * rsum u = rsum (zipw Rmult x u) /\ lo <= v <= hi.
Proof.
  intros Hd Hu Hs Hl Hx. exists (rsum (zipw Rmult x (sum_weights u))).
  assert (Hlen : length (sum_weights u) = length u) by apply map_length.
  rewrite linear_calc_many by lia. cbn [adot]. rewrite vdot_ok by lia. split; [reflexivity|]. split.
  - unfold sum_weights. rewrite rsum_zipw_div. field. lra.
  - pose proof (zipw_bounds lo hi (sum_weights u) (sum_weights_nonneg u Hu Hs) x) as H.
    rewrite sum_weights_one in H by exact Hs. rewrite !Rmult_1_r in H. apply H; [lia|exact Hx].
Qed.

(** ---- batches ---- *)
Lemma mapM_ok {A B} (f : A -> result B) (g : A -> B) (P : A -> Prop) l :
  (forall x, P x -> f x = Ok (g x)) -> Forall P l -> mapM f l = Ok (map g l).
Proof. intros Hf H. induction H as [|x l Hx Hl IH]; cbn [mapM map]; [reflexivity|]. now rewrite (Hf x Hx), IH. Qed.

Definition udot (w x : list R) : R := rsum (zipw Rmult x w).

Lemma adot_mat w m : Forall (fun x => length x = length w) m -> adot (Mat m) w = Ok (Vec (map (udot w) m)).
Proof.
  intros H. cbn [adot]. rewrite (mapM_ok _ (udot w) (fun x => length x = length w)); [reflexivity|intros; now apply vdot_ok|exact H].
Qed.
Lemma adot_tens w t : Forall (Forall (fun x => length x = length w)) t -> adot (Tens t) w = Ok (Mat (map (map (udot w)) t)).
Proof.
  intros H. cbn [adot]. rewrite (mapM_ok _ (map (udot w)) (Forall (fun x => length x = length w))); [reflexivity| |exact H].
  intros m Hm. apply (mapM_ok _ _ (fun x => length x = length w)); [intros; now apply vdot_ok|exact Hm].
Qed.
Lemma adot_vec w x : length x = length w -> adot (Vec x) w = Ok (Scal (udot w x)).
Proof. intros H. cbn [adot]. now rewrite vdot_ok. Qed.

Lemma linear_batch w : (length w <> 1)%nat -> batch_agrees (length w) (linear_calc w) (udot w) /\ query_agrees (length w) (linear_calc w) (udot w).
Proof.
  intros H. split; [split|red]; intros; rewrite linear_calc_many by exact H; [now apply adot_vec|now apply adot_mat|now apply adot_tens].
Qed.

Definition sqv (x : list R) : list R := map (fun a => a * a) x.
Lemma sq_len w m : Forall (fun x : list R => length x = length w) m -> Forall (fun x => length x = length (w : list R)) (map sqv m).
Proof. intros H. induction H; cbn; constructor; auto. unfold sqv. now rewrite map_length. Qed.
Lemma sq_len2 w t : Forall (Forall (fun x : list R => length x = length w)) t -> Forall (Forall (fun x => length x = length (w : list R))) (map (map sqv) t).
Proof. intros H. induction H; cbn; constructor; auto using sq_len. Qed.

Lemma squared_batch w : (length w <> 1)%nat ->
  batch_agrees (length w) (squared_calc w) (fun x => udot w (sqv x)) /\ query_agrees (length w) (squared_calc w) (fun x => udot w (sqv x)).
Proof.
  intros H. assert (E : forall a, squared_calc w a = do s <- asquare a; adot s w).
  { intros a. destruct w as [|b [|c w]]; [reflexivity|exfalso; now apply H|reflexivity]. }
  split; [split|red]; intros; rewrite E; cbn [asquare amap bind].
  - apply (adot_vec w (sqv x)). unfold sqv. now rewrite map_length.
  - etransitivity; [apply (adot_mat w (map sqv m)); now apply sq_len|]. now rewrite map_map.
  - etransitivity; [apply (adot_tens w (map (map sqv) t)); now apply sq_len2|]. rewrite map_map. do 2 f_equal.
    apply map_ext. intros m. apply map_map.
Qed.

Lemma logistic_batch L : (length (lg_w L) <> 1)%nat ->
  batch_agrees (length (lg_w L)) (logistic_calc L) (fun x => logistic_val L (udot (lg_w L) x - lg_M L)) /\
  query_agrees (length (lg_w L)) (logistic_calc L) (fun x => logistic_val L (udot (lg_w L) x - lg_M L)).
Proof.
  intros H. assert (E : forall a, logistic_calc L a =
     do wx <- (do d <- adot a (lg_w L); Ok (amap (fun x => x - lg_M L) d)); Ok (amap (logistic_val L) wx)).
  { intros a. unfold logistic_calc. destruct (lg_w L) as [|b [|c w]]; [reflexivity|exfalso; now apply H|reflexivity]. }
  split; [split|red]; intros; rewrite E.
  - rewrite adot_vec by assumption. reflexivity.
  - rewrite adot_mat by assumption. cbn [bind amap]. now rewrite !map_map.
  - rewrite adot_tens by assumption. cbn [bind amap]. rewrite !map_map. do 2 f_equal. apply map_ext. intros m. now rewrite !map_map.
Qed.

Lemma bzip_ok x w : length x = length w -> bzip Rmult x w = Ok (zipw Rmult x w).
Proof. intros H. unfold bzip. now rewrite (proj2 (Nat.eqb_eq _ _) H). Qed.
Lemma zipw_length {A B C} (f : A -> B -> C) x : forall w, length x = length w -> length (zipw f x w) = length w.
Proof. induction x as [|a x IH]; intros [|b w] H; try discriminate; cbn; [reflexivity|]. f_equal. apply IH. now injection H. Qed.

Definition umax (w x : list R) : R := match zipw Rmult x w with [] => 0 | a :: l => rmax1 a l end.
Definition umin (w x : list R) : R := match zipw Rmult x w with [] => 0 | a :: l => rmin1 a l end.

Lemma extreme_many red f w a : (length w <> 1)%nat -> extreme_calc red f w a = reduce_last red f a w.
Proof. intros H. destruct w as [|b [|c w]]; [reflexivity|exfalso; now apply H|reflexivity]. Qed.

Lemma reduce_batch red f u w : (2 <= length w)%nat -> (forall x, length x = length w -> red (zipw Rmult x w) = Ok (u x)) ->
  batch_agrees (length w) (extreme_calc red f w) u.
Proof.
  intros Hw Hred. split; intros; rewrite extreme_many by lia; cbn [reduce_last].
  - rewrite bzip_ok by assumption. cbn [bind]. now rewrite Hred.
  - rewrite (mapM_ok _ (fun r => zipw Rmult r w) (fun x => length x = length w)); [|intros; now apply bzip_ok|assumption].
    cbn [bind]. replace (mapM red (map (fun r => zipw Rmult r w) m)) with (Ok (map u m)); [reflexivity|]. symmetry.
    induction H as [|x m Hx Hm IH]; cbn [mapM map]; [reflexivity|]. now rewrite Hred, IH.
Qed.

Lemma wmax_batch w : (2 <= length w)%nat -> batch_agrees (length w) (wmax_calc w) (umax w).
Proof.
  intros Hw. apply reduce_batch; [exact Hw|]. intros x Hx. unfold umax.
  pose proof (zipw_length Rmult x w Hx). destruct (zipw Rmult x w); [cbn in H; lia|reflexivity].
Qed.
Lemma wmin_batch w : (2 <= length w)%nat -> batch_agrees (length w) (wmin_calc w) (umin w).
Proof.
  intros Hw. apply reduce_batch; [exact Hw|]. intros x Hx. unfold umin.
  pose proof (zipw_length Rmult x w Hx). destruct (zipw Rmult x w); [cbn in H; lia|reflexivity].
Qed.

(** the maximum and minimum of the weighted rewards, entry by entry *)
Lemma zipw_nth {A B C} (f : A -> B -> C) x : forall w i, nth_error (zipw f x w) i =
  match nth_error x i, nth_error w i with Some a, Some b => Some (f a b) | _, _ => None end.
Proof.
  induction x as [|a x IH]; intros [|b w] [|i]; cbn; try reflexivity.
  - destruct (nth_error x i); reflexivity.
  - apply IH.
Qed.
Lemma umax_spec w x : (2 <= length w)%nat -> length x = length w ->
  (exists i a b, nth_error x i = Some a /\ nth_error w i = Some b /\ umax w x = a * b) /\
  (forall i a b, nth_error x i = Some a -> nth_error w i = Some b -> a * b <= umax w x).
Proof.
  intros Hw Hx. unfold umax. pose proof (zipw_length Rmult x w Hx) as Hl.
  destruct (zipw Rmult x w) as [|y l] eqn:E; [cbn in Hl; lia|]. split.
  - destruct (In_nth_error _ _ (rmax1_in l y)) as [i Hi]. rewrite <- E, zipw_nth in Hi.
    destruct (nth_error x i) as [a|] eqn:Ea; [|discriminate]. destruct (nth_error w i) as [b|] eqn:Eb; [|discriminate].
    injection Hi as Hi. exists i, a, b. rewrite <- Hi. auto.
  - intros i a b Ha Hb. assert (Hn : nth_error (y :: l) i = Some (a * b)) by (rewrite <- E, zipw_nth, Ha, Hb; reflexivity).
    apply nth_error_In in Hn. destruct Hn as [Hn | Hn]; [rewrite <- Hn; exact (proj1 (rmax1_ge l y))|exact (proj2 (rmax1_ge l y) _ Hn)].
Qed.
Lemma umin_spec w x : (2 <= length w)%nat -> length x = length w ->
  (exists i a b, nth_error x i = Some a /\ nth_error w i = Some b /\ umin w x = a * b) /\
  (forall i a b, nth_error x i = Some a -> nth_error w i = Some b -> umin w x <= a * b).
Proof.
  intros Hw Hx. unfold umin. pose proof (zipw_length Rmult x w Hx) as Hl.
  destruct (zipw Rmult x w) as [|y l] eqn:E; [cbn in Hl; lia|]. split.
  - destruct (In_nth_error _ _ (rmin1_in l y)) as [i Hi]. rewrite <- E, zipw_nth in Hi.
    destruct (nth_error x i) as [a|] eqn:Ea; [|discriminate]. destruct (nth_error w i) as [b|] eqn:Eb; [|discriminate].
    injection Hi as Hi. exists i, a, b. rewrite <- Hi. auto.
  - intros i a b Ha Hb. assert (Hn : nth_error (y :: l) i = Some (a * b)) by (rewrite <- E, zipw_nth, Ha, Hb; reflexivity).
    apply nth_error_In in Hn. destruct Hn as [Hn | Hn]; [rewrite <- Hn; exact (proj1 (rmin1_le l y))|exact (proj2 (rmin1_le l y) _ Hn)].
Qed.

Lemma wmax_full w : (2 <= length w)%nat -> exists u, batch_agrees (length w) (wmax_calc w) u /\ forall x, length x = length w ->
  (exists i a b, nth_error x i = Some a /\ nth_error w i = Some b /\ u x = a * b) /\
  (forall i a b, nth_error x i = Some a -> nth_error w i = Some b -> a * b <= u x).
Proof. intros H. exists (umax w). split; [now apply wmax_batch|]. intros; now apply umax_spec. Qed.
Lemma wmin_full w : (2 <= length w)%nat -> exists u, batch_agrees (length w) (wmin_calc w) u /\ forall x, length x = length w ->
  (exists i a b, nth_error x i = Some a /\ nth_error w i = Some b /\ u x = a * b) /\
  (forall i a b, nth_error x i = Some a -> nth_error w i = Some b -> u x <= a * b).
Proof. intros H. exists (umin w). split; [now apply wmin_batch|]. intros; now apply umin_spec. Qed.

Lemma bzip_map {A} (g h : A -> R) (l : list A) : bzip Rplus (map g l) (map h l) = Ok (map (fun x => g x + h x) l).
Proof.
  unfold bzip. rewrite !map_length, Nat.eqb_refl. f_equal. induction l; cbn; [reflexivity|]. now rewrite IHl.
Qed.
Lemma minlog_batch alpha w L : (2 <= length w)%nat -> length (lg_w L) = length w ->
  batch_agrees (length w) (minlog_calc alpha w L)
    (fun x => alpha * umin w x + (1 - alpha) * logistic_val L (udot (lg_w L) x - lg_M L)).
Proof.
  intros Hw HL. destruct (wmin_batch w Hw) as [A1 A2].
  assert (Hn : (length (lg_w L) <> 1)%nat) by lia. destruct (logistic_batch L Hn) as [[B1 B2] _]. rewrite HL in *.
  split; intros; unfold minlog_calc.
  - rewrite A1, B1 by assumption. reflexivity.
  - rewrite A2, B2 by assumption. cbn [bind amap aadd]. rewrite !map_map, bzip_map. reflexivity.
Qed.

Lemma bzip_one l w0 : bzip Rmult l [w0] = Ok (map (fun x => x * w0) l).
Proof.
  unfold bzip. destruct l as [|a [|b l]]; cbn; reflexivity.
Qed.
Lemma linear_one w0 : entrywise (linear_calc [w0]) (fun x => x * w0).
Proof.
  repeat split; intros; cbn [linear_calc np_array amul]; try rewrite bzip_one; try reflexivity.
  rewrite (mapM_ok _ (map (fun x => x * w0)) (fun _ => True)); [reflexivity|intros; apply bzip_one|].
  clear. induction m; constructor; auto.
Qed.
Lemma squared_one w0 : entrywise (squared_calc [w0]) (fun x => x * x * w0).
Proof.
  repeat split; intros; cbn [squared_calc np_array asquare amap bind]; try rewrite map_map; try reflexivity.
  do 2 f_equal. apply map_ext. intros; apply map_map.
Qed.
Lemma logistic_one L w0 : lg_w L = [w0] -> entrywise (logistic_calc L) (fun x => logistic_val L (x * w0)).
Proof.
  intros E. repeat split; intros; unfold logistic_calc; rewrite E; cbn [np_array amap bind]; try rewrite map_map; try reflexivity.
  do 2 f_equal. apply map_ext. intros; apply map_map.
Qed.
Lemma inf_weights_one a : 0 < a -> inf_weights [a] = [1].
Proof.
  intros H. unfold inf_weights, norm_inf. cbn. rewrite Rabs_pos_eq, Rmax_left by lra. f_equal. field. lra.
Qed.

(** ---- strict increase of the linear utility ---- *)
Lemma udot_strict w : Forall (fun x => 0 < x) w -> strictly_increasing (length w) (udot w).
Proof.
  intros Hw x y Hx Hy [Hle [k [a [b [Ha [Hb Hab]]]]]]. unfold udot. revert x y Hx Hy Hle k Ha Hb.
  induction Hw as [|c w Hc Hw IH]; intros x y Hx Hy Hle k Ha Hb.
  - destruct x; [|discriminate]. destruct k; discriminate.
  - destruct Hle as [|p q x y Hpq Hle]; [destruct k; discriminate|]. cbn in Hx, Hy. cbn.
    destruct k as [|k]; cbn in Ha, Hb.
    + injection Ha as ->. injection Hb as ->.
      assert (rsum (zipw Rmult x w) <= rsum (zipw Rmult y w)).
      { apply rsum_le2, zipw_le_mult; [|exact Hle]. unfold nonneg. eapply Forall_impl; [|exact Hw]. cbn; intros; lra. }
      assert (a * c < b * c) by now apply Rmult_lt_compat_r. lra.
    + assert (rsum (zipw Rmult x w) < rsum (zipw Rmult y w)) by (apply (IH x y) with (k := k); auto; lia).
      assert (p * c <= q * c) by (apply Rmult_le_compat_r; lra). lra.
Qed.
Lemma logistic_strict L : Forall (fun x => 0 < x) (lg_w L) -> 0 < lg_Q L -> 0 < lg_v L ->
  strictly_increasing (length (lg_w L)) (fun x => logistic_val L (udot (lg_w L) x - lg_M L)).
Proof.
  intros Hw HQ Hv x y Hx Hy H. apply logistic_val_strict; [assumption..|].
  pose proof (udot_strict (lg_w L) Hw x y Hx Hy H). lra.
Qed.
Lemma sum_weights_pos u : Forall (fun x => 0 < x) u -> 0 < rsum u -> Forall (fun x => 0 < x) (sum_weights u).
Proof.
  intros H Hs. unfold sum_weights. generalize dependent (rsum u). intros c Hc.
  induction H; cbn; constructor; [|assumption]. apply Rmult_lt_0_compat; [assumption|now apply Rinv_0_lt_compat].
Qed.

(** ---- counterexamples ---- *)
Lemma np_max2 a b : np_max [a; b] = Ok (Rmax a b).
Proof. reflexivity. Qed.

Lemma sqminmax_single_batch : exists w, Forall (fun x => 0 < x) w /\ rsum w = 1 /\ forall u, ~ batch_agrees 2 (sqminmax_calc w) u.
Proof.
  exists [1/2; 1/2]. split; [repeat constructor; lra|]. split; [cbn; lra|]. intros u [H1 H2].
  specialize (H1 [8; 8] eq_refl). specialize (H2 [[8; 8]]).
  assert (Hm : Forall (fun x : list R => length x = 2%nat) [[8; 8]]) by (repeat constructor). specialize (H2 Hm). clear Hm.
  cbn in H1, H2. injection H1 as H1. injection H2 as H2. rewrite <- H1 in H2. clear H1.
  replace (8 * (1 / 2)) with 4 in H2 by lra. unfold rmax1, rmin1 in H2. cbn in H2.
  rewrite Rmax_left, Rmin_left in H2 by lra.
  replace 4 with (2 * 2) in H2 at 1 by lra. rewrite sqrt_square in H2 by lra. lra.
Qed.

Lemma weighted_query_wrong : exists w t, Forall (fun x => 0 < x) w /\ norm_inf w = 1 /\ Forall (Forall (fun x : list R => length x = 2%nat)) t /\
  (forall u, batch_agrees 2 (wmax_calc w) u -> wmax_calc w (Tens t) <> Ok (Mat (map (map u) t))) /\
  (forall u, batch_agrees 2 (wmin_calc w) u -> wmin_calc w (Tens t) <> Ok (Mat (map (map u) t))).
Proof.
  exists [1; 1], [[[2; 5]; [1; 4]]]. split; [repeat constructor; lra|]. split.
  - unfold norm_inf; cbn. rewrite Rabs_R1. rewrite (Rmax_left 1 0) by lra. apply Rmax_left; lra.
  - split; [repeat constructor|]. split; intros u [H1 _]; specialize (H1 [2; 5] eq_refl); cbn in *; unfold rmax1, rmin1 in *; cbn in *;
      intros H; injection H as H H'; injection H1 as H1; rewrite <- H1 in H; revert H.
    + unfold Rmax. repeat destruct (Rle_dec _ _); lra.
    + unfold Rmin. repeat destruct (Rle_dec _ _); lra.
Qed.

Lemma mixture_wrong dens u : ~ batch_agrees 2 (mixture_calc dens) u.
Proof. intros [H _]. specialize (H [0; 0] eq_refl). discriminate. Qed.
