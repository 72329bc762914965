(** Lemmas about the minima of the two tuning objectives of HumanChoiceUser2. *)
From Coquelicot Require Import Coquelicot.
From Coq Require Import Reals Lra Lia List.
From Verif Require Import M_Base M_RBase M_Fake M_Normal M_User S_User P_Base P_RBase P_Normal P_User P_User2.
Import ListNotations.
Local Open Scope R_scope.

Definition avg (g : R -> R) (ds : list R) : R := rsum (map g ds) / INR (length ds).

Lemma len_pos (ds : list R) : ds <> [] -> 0 < INR (length ds).
Proof. intros H. destruct ds; [contradiction|]. apply lt_0_INR. cbn [length]. lia. Qed.
Lemma avg_lt g h ds : ds <> [] -> (forall d, In d ds -> g d < h d) -> avg g ds < avg h ds.
Proof.
  intros Hne H. pose proof (len_pos ds Hne) as Hn. unfold avg.
  apply Rmult_lt_compat_r; [now apply Rinv_0_lt_compat|]. clear Hn. destruct ds as [|d ds]; [contradiction|]. clear Hne.
  assert (L : forall es, (forall e, In e es -> g e < h e) -> rsum (map g es) <= rsum (map h es)).
  { induction es as [|e es IH]; intros He; cbn [map rsum]; [lra|].
    assert (g e < h e) by (apply He; now left). assert (rsum (map g es) <= rsum (map h es)) by (apply IH; intros; apply He; now right). lra. }
  cbn [map rsum]. assert (g d < h d) by (apply H; now left). assert (rsum (map g ds) <= rsum (map h ds)) by (apply L; intros; apply H; now right). lra.
Qed.
Lemma avg_const c ds : ds <> [] -> avg (fun _ => c) ds = c.
Proof.
  intros Hne. pose proof (len_pos ds Hne). unfold avg. replace (rsum (map (fun _ => c) ds)) with (INR (length ds) * c); [field; lra|].
  clear. induction ds as [|d ds IH]; [cbn; lra|]. cbn [map rsum length]. rewrite S_INR, <- IH. lra.
Qed.
Lemma avg_cts (k : R -> R -> R) ds : (forall d x, continuity_pt (fun t => k t d) x) -> continuity (fun t => avg (k t) ds).
Proof.
  intros H x. unfold avg. unfold Rdiv. apply (continuity_pt_mult (fun t => rsum (map (k t) ds)) (fun _ => / INR (length ds))).
  - induction ds as [|d ds IH]; cbn [map rsum]; [apply continuity_pt_const; intros ? ?; reflexivity|].
    apply (continuity_pt_plus (fun t => k t d) (fun t => rsum (map (k t) ds))); [apply H|exact IH].
  - apply continuity_pt_const. intros ? ?. reflexivity.
Qed.
(** a value is taken between two points *)
Lemma between (f : R -> R) a b p : continuity f -> a < b -> f a <= p -> p < f b -> exists t, a <= t < b /\ f t = p.
Proof.
  intros Hf Hab Ha Hb. destruct (Req_dec (f a) p) as [E|N]; [exists a; split; [lra|exact E]|].
  destruct (IVT (fun t => f t - p) a b) as [t [Ht Hz]]; [|exact Hab|lra|lra|].
  - intros x. apply (continuity_pt_minus f (fun _ => p)); [apply Hf|]. apply continuity_pt_const. intros ? ?. reflexivity.
  - exists t. assert (f t = p) by lra. split; [|assumption]. split; [lra|]. destruct (Req_dec t b) as [->|]; lra.
Qed.
(** multiples of finitely many positive numbers exceed any bound *)
Lemma far_enough N ds : (forall d, In d ds -> Rabs d <> 0) -> forall a, exists T, a < T /\ forall d, In d ds -> N < Rabs d * T.
Proof.
  intros H a. assert (G : exists T, 0 < T /\ a < T /\ forall d, In d ds -> N < Rabs d * T).
  { induction ds as [|d ds IH].
    - exists (Rabs a + 1). pose proof (Rabs_pos a). pose proof (Rle_abs a). split; [lra|]. split; [lra|]. intros d [].
    - destruct IH as [T [HT [Ha IH]]]; [intros; apply H; now right|].
      assert (Hd : 0 < Rabs d) by (pose proof (Rabs_pos d); pose proof (H d (or_introl eq_refl)); lra).
      exists (T + (Rabs N + 1) / Rabs d). pose proof (Rabs_pos N). pose proof (Rle_abs N).
      assert (Hq : 0 < (Rabs N + 1) / Rabs d) by (apply Rdiv_lt_0_compat; lra).
      split; [lra|]. split; [lra|]. intros e [<-|He].
      + rewrite Rmult_plus_distr_l. replace (Rabs d * ((Rabs N + 1) / Rabs d)) with (Rabs N + 1) by (field; lra).
        assert (0 < Rabs d * T) by now apply Rmult_lt_0_compat. lra.
      + specialize (IH e He). rewrite Rmult_plus_distr_l.
        assert (0 <= Rabs e * ((Rabs N + 1) / Rabs d)) by (apply Rmult_le_pos; [apply Rabs_pos|lra]). lra. }
  destruct G as [T [_ [Ha G]]]. exists T. auto.
Qed.
(** the square of the distance from a target along three ordered values *)
Lemma middle_lt x y z p : x < y < z -> (y - p) * (y - p) < Rmax ((x - p) * (x - p)) ((z - p) * (z - p)).
Proof.
  intros [H1 H2]. destruct (Rle_lt_dec p y) as [H|H].
  - apply Rlt_le_trans with ((z - p) * (z - p)); [nra|apply Rmax_r].
  - apply Rlt_le_trans with ((x - p) * (x - p)); [nra|apply Rmax_l].
Qed.
Lemma sq0 x : x * x = 0 -> x = 0.
Proof. intros H. destruct (Rmult_integral _ _ H); assumption. Qed.

(** ---- ratings ---- *)
Definition untied (ds : list R) : list R := filter (fun d => if Req_EM_T (Rabs d) 0 then false else true) ds.
Lemma untied_in d ds : In d (untied ds) <-> In d ds /\ Rabs d <> 0.
Proof. unfold untied. rewrite filter_In. destruct (Req_EM_T (Rabs d) 0); split; intros [? ?]; split; auto; discriminate. Qed.
Lemma untied_some ds : (exists d, In d ds /\ d <> 0) -> untied ds <> [].
Proof. intros [d [Hd Hn]] E. assert (In d (untied ds)) by (apply untied_in; split; [exact Hd|now apply Rabs_no_R0]). rewrite E in H. contradiction. Qed.
Lemma rate_mean_avg s ds : untied ds <> [] -> rate_mean s ds = Some (avg (pcorrect s) (untied ds)).
Proof.
  intros H. unfold rate_mean. rewrite nanmean_somes, rate_mean_somes. fold (untied ds). unfold avg.
  destruct (untied ds); [contradiction|]. cbn [map length]. now rewrite map_length.
Qed.
Lemma rate_value s ds p : (exists d, In d ds /\ d <> 0) -> rate_obj s ds p = Some ((avg (pcorrect s) (untied ds) - p) * (avg (pcorrect s) (untied ds) - p)).
Proof. intros H. unfold rate_obj. now rewrite rate_mean_avg by now apply untied_some. Qed.
Lemma rate_falls s t ds : (exists d, In d ds /\ d <> 0) -> 0 < s -> s < t -> avg (pcorrect t) (untied ds) < avg (pcorrect s) (untied ds).
Proof. intros H Hs Ht. apply avg_lt; [now apply untied_some|]. intros d Hd. apply untied_in in Hd. now apply pcorrect_decreasing. Qed.
Lemma rate_bounds s ds : (exists d, In d ds /\ d <> 0) -> 0 < s -> 1 / 2 < avg (pcorrect s) (untied ds) < 1.
Proof.
  intros H Hs. split.
  - rewrite <- (avg_const (1 / 2) (untied ds)) by now apply untied_some. apply avg_lt; [now apply untied_some|].
    intros d Hd. apply untied_in in Hd. now apply pcorrect_range.
  - rewrite <- (avg_const 1 (untied ds)) by now apply untied_some. apply avg_lt; [now apply untied_some|].
    intros d Hd. apply untied_in in Hd. now apply pcorrect_range.
Qed.
Lemma rating_valley s t u ds p : 0 < s -> s < t -> t < u -> (exists d, In d ds /\ d <> 0) ->
  exists a b c, rate_obj s ds p = Some a /\ rate_obj t ds p = Some b /\ rate_obj u ds p = Some c /\ b < Rmax a c.
Proof.
  intros Hs Hst Htu H. do 3 eexists. split; [now apply rate_value|]. split; [now apply rate_value|]. split; [now apply rate_value|].
  rewrite Rmax_comm. apply middle_lt. split; apply rate_falls; auto; lra.
Qed.
Lemma ndtr_high e : 0 < e -> exists N, forall x, N < x -> 1 - e < ndtr x.
Proof.
  intros He. pose proof ndtr_lim_p as L. apply is_lim_spec in L. destruct (L (mkposreal e He)) as [N HN]. exists N. intros x Hx.
  specialize (HN x Hx). cbn in HN. apply Rabs_def2 in HN. lra.
Qed.
Lemma rating_root ds p : (exists d, In d ds /\ d <> 0) -> 1 / 2 < p < 1 -> exists s, 0 < s /\ rate_obj s ds p = Some 0 /\
  forall t, 0 < t -> rate_obj t ds p = Some 0 -> t = s.
Proof.
  intros H Hp. pose proof (untied_some ds H) as Hne.
  set (f := fun t => avg (fun d => ndtr (Rabs d * t)) (untied ds)).
  assert (Hf : continuity f).
  { apply (avg_cts (fun t d => ndtr (Rabs d * t))). intros d x. apply (continuity_pt_comp (fun t => Rabs d * t) ndtr); [|apply ndtr_continuous].
    apply (continuity_pt_mult (fun _ => Rabs d) (fun t => t)); [apply continuity_pt_const; intros ? ?; reflexivity|apply derivable_continuous_pt, derivable_pt_id]. }
  destruct (ndtr_high (1 - p)) as [N HN]; [lra|].
  destruct (far_enough N (untied ds)) with (a := 0) as [T [HT0 HT]]; [intros d Hd; now apply untied_in in Hd|].
  assert (H0 : f 0 = 1 / 2).
  { unfold f. transitivity (avg (fun _ => 1 / 2) (untied ds)); [|now apply avg_const]. unfold avg. f_equal. f_equal. apply map_ext. intros d. rewrite Rmult_0_r. apply ndtr_0. }
  assert (H1 : p < f T).
  { unfold f. rewrite <- (avg_const p (untied ds)) at 1 by exact Hne. apply avg_lt; [exact Hne|]. intros d Hd. specialize (HN _ (HT d Hd)). lra. }
  destruct (between f 0 T p Hf HT0) as [t [Ht Et]]; [lra|exact H1|].
  assert (Htp : 0 < t) by (destruct (Req_dec t 0) as [->|]; lra).
  assert (S2 : 0 < sqrt 2) by (apply sqrt_lt_R0; lra).
  exists (1 / (sqrt 2 * t)). assert (Hs : 0 < 1 / (sqrt 2 * t)) by (apply Rdiv_lt_0_compat; [lra|now apply Rmult_lt_0_compat]).
  assert (Ez : avg (pcorrect (1 / (sqrt 2 * t))) (untied ds) = p).
  { rewrite <- Et. unfold f, avg. f_equal. f_equal. apply map_ext. intros d. unfold pcorrect. do 2 f_equal. field. lra. }
  split; [exact Hs|]. split; [rewrite rate_value, Ez by exact H; f_equal; lra|].
  intros u Hu E. rewrite rate_value in E by exact H. injection E as E. apply sq0 in E.
  destruct (Rtotal_order u (1 / (sqrt 2 * t))) as [L|[L|L]]; [|exact L|]; exfalso.
  - pose proof (rate_falls _ _ ds H Hu L). lra.
  - pose proof (rate_falls _ _ ds H Hs L). lra.
Qed.
Lemma rating_edge s t ds p : 0 < s -> s < t -> (exists d, In d ds /\ d <> 0) -> exists a b, rate_obj s ds p = Some a /\ rate_obj t ds p = Some b /\
  (p <= 1 / 2 -> 0 < b /\ b < a) /\ (1 <= p -> 0 < a /\ a < b).
Proof.
  intros Hs Hst H. do 2 eexists. split; [now apply rate_value|]. split; [now apply rate_value|].
  pose proof (rate_bounds s ds H Hs). assert (Ht : 0 < t) by lra. pose proof (rate_bounds t ds H Ht). pose proof (rate_falls s t ds H Hs Hst).
  split; intros Hp; split; nra.
Qed.

(** ---- comparisons ---- *)
Lemma pair_value b ds p : ds <> [] -> Forall (informative b) ds ->
  obj b ds p = Some ((rsum (map (pair_probability b) ds) / INR (length ds) - p) * (rsum (map (pair_probability b) ds) / INR (length ds) - p)).
Proof. intros Hne H. unfold obj. now rewrite obj_mean_eq. Qed.
Lemma informative_up b c ds : b <= c -> Forall (informative b) ds -> Forall (informative c) ds.
Proof. intros Hbc H. eapply Forall_impl; [|exact H]. intros d Hd. unfold informative in *. pose proof (luce2_le b c d Hbc). lra. Qed.
Lemma informative_nz b d : informative b d -> Rabs d <> 0.
Proof. intros H E. unfold informative, pair_probability in H. rewrite E, Rmult_0_l, exp_0 in H. lra. Qed.
Lemma luce2_lt b c d : Rabs d <> 0 -> b < c -> luce2 b d < luce2 c d.
Proof.
  intros Hd H. unfold pair_probability. assert (0 < Rabs d) by (pose proof (Rabs_pos d); lra).
  assert (He : exp (Rabs d * b) < exp (Rabs d * c)) by (apply exp_increasing, Rmult_lt_compat_l; assumption).
  pose proof (exp_pos (Rabs d * b)). set (x := exp (Rabs d * b)) in *. set (y := exp (Rabs d * c)) in *. clearbody x y.
  apply (Rmult_lt_reg_r ((1 + x) * (1 + y))); [apply Rmult_lt_0_compat; lra|].
  replace (x / (1 + x) * ((1 + x) * (1 + y))) with (x * (1 + y)) by (field; lra).
  replace (y / (1 + y) * ((1 + x) * (1 + y))) with (y * (1 + x)) by (field; lra). lra.
Qed.
Lemma pair_rises b c ds : ds <> [] -> Forall (informative b) ds -> b < c -> avg (luce2 b) ds < avg (luce2 c) ds.
Proof. intros Hne H Hbc. apply avg_lt; [exact Hne|]. intros d Hd. rewrite Forall_forall in H. apply luce2_lt; [|exact Hbc]. now apply (informative_nz b), H. Qed.
Lemma pair_valley b c e ds p : b < c -> c < e -> ds <> [] -> Forall (informative b) ds ->
  exists x y z, obj b ds p = Some x /\ obj c ds p = Some y /\ obj e ds p = Some z /\ y < Rmax x z.
Proof.
  intros Hbc Hce Hne H. assert (Hc : Forall (informative c) ds) by (apply (informative_up b); [lra|exact H]).
  assert (He : Forall (informative e) ds) by (apply (informative_up c); [lra|exact Hc]).
  do 3 eexists. split; [now apply pair_value|]. split; [now apply pair_value|]. split; [now apply pair_value|].
  apply middle_lt. split; [now apply (pair_rises b c)|now apply (pair_rises c e)].
Qed.
Lemma luce2_cts d x : continuity_pt (fun t => luce2 t d) x.
Proof.
  unfold pair_probability. assert (E : continuity_pt (fun t => exp (Rabs d * t)) x).
  { apply (continuity_pt_comp (fun t => Rabs d * t) exp); [|apply derivable_continuous_pt, derivable_pt_exp].
    apply (continuity_pt_mult (fun _ => Rabs d) (fun t => t)); [apply continuity_pt_const; intros ? ?; reflexivity|apply derivable_continuous_pt, derivable_pt_id]. }
  apply (continuity_pt_div (fun t => exp (Rabs d * t)) (fun t => 1 + exp (Rabs d * t))); [exact E| |pose proof (exp_pos (Rabs d * x)); lra].
  apply (continuity_pt_plus (fun _ => 1)); [apply continuity_pt_const; intros ? ?; reflexivity|exact E].
Qed.
Lemma pair_root b ds p : ds <> [] -> Forall (informative b) ds -> rsum (map (pair_probability b) ds) / INR (length ds) <= p -> p < 1 ->
  exists c, b <= c /\ obj c ds p = Some 0 /\ forall e, b <= e -> obj e ds p = Some 0 -> e = c.
Proof.
  intros Hne H Hb Hp. fold (avg (luce2 b) ds) in Hb. set (f := fun t => avg (luce2 t) ds).
  assert (Hf : continuity f) by (apply avg_cts; intros; apply luce2_cts).
  assert (P2 : 1 / 2 < p).
  { eapply Rlt_le_trans; [|exact Hb]. rewrite <- (avg_const (1 / 2) ds) by exact Hne. apply avg_lt; [exact Hne|]. intros d Hd.
    rewrite Forall_forall in H. specialize (H d Hd). unfold informative in H. lra. }
  destruct (far_enough (ln (p / (1 - p))) ds) with (a := b) as [T [HT0 HT]].
  { intros d Hd. rewrite Forall_forall in H. now apply (informative_nz b), H. }
  assert (H1 : p < f T).
  { unfold f. rewrite <- (avg_const p ds) at 1 by exact Hne. apply avg_lt; [exact Hne|]. intros d Hd. specialize (HT d Hd).
    assert (Q : 0 < p / (1 - p)) by (apply Rdiv_lt_0_compat; lra).
    apply exp_increasing in HT. rewrite exp_ln in HT by exact Q. unfold pair_probability. pose proof (exp_pos (Rabs d * T)) as Hx.
    set (x := exp (Rabs d * T)) in *. clearbody x.
    assert (p < x * (1 - p)) by (apply (Rmult_lt_compat_r (1 - p)) in HT; [|lra]; replace (p / (1 - p) * (1 - p)) with p in HT by (field; lra); exact HT).
    apply (Rmult_lt_reg_r (1 + x)); [lra|]. replace (x / (1 + x) * (1 + x)) with x by (field; lra). lra. }
  destruct (between f b T p Hf HT0 Hb H1) as [c [Hc Ec]]. exists c. split; [lra|].
  assert (Ic : forall e, b <= e -> Forall (informative e) ds) by (intros e He; now apply (informative_up b)).
  split; [rewrite pair_value by (auto; apply Ic; lra); fold (avg (luce2 c) ds); fold (f c); rewrite Ec; f_equal; lra|].
  intros e He E. rewrite pair_value in E by auto. injection E as E. apply sq0 in E. fold (avg (luce2 e) ds) in E. unfold f in Ec.
  destruct (Rtotal_order e c) as [L|[L|L]]; [|exact L|]; exfalso.
  - pose proof (pair_rises e c ds Hne (Ic e He) L). lra.
  - assert (Hbc : b <= c) by lra. pose proof (pair_rises c e ds Hne (Ic c Hbc) L). lra.
Qed.
(** nearly tied pairs enter the mean only from some rationality on: a hill between two better values *)
Lemma pair_hill : exists b c e ds p x y z, 0 < b /\ b < c /\ c < e /\ (forall d, In d ds -> d <> 0) /\ 1 / 2 < p < 1 /\
  obj b ds p = Some x /\ obj c ds p = Some y /\ obj e ds p = Some z /\ x = 0 /\ z < y.
Proof.
  set (r := 50000001 / 49999999). assert (Hr : 1 < r) by (unfold r; lra).
  assert (Hln : 0 < ln r) by (rewrite <- ln_1; apply ln_increasing; lra).
  assert (Hln3 : 0 < ln 3) by (rewrite <- ln_1; apply ln_increasing; lra).
  assert (A1 : luce2 1 (ln 3) = 3 / 4).
  { unfold pair_probability. rewrite Rabs_pos_eq, Rmult_1_r, exp_ln by lra. lra. }
  assert (A2 : luce2 2 (ln 3) = 9 / 10).
  { unfold pair_probability. rewrite Rabs_pos_eq by lra. replace (ln 3 * 2) with (ln 3 + ln 3) by ring. rewrite exp_plus, exp_ln by lra. lra. }
  assert (A3 : luce2 3 (ln 3) = 27 / 28).
  { unfold pair_probability. rewrite Rabs_pos_eq by lra. replace (ln 3 * 3) with (ln 3 + ln 3 + ln 3) by ring. rewrite !exp_plus, exp_ln by lra. lra. }
  assert (B1 : luce2 1 (ln r / 2) < 50000001 / 100000000).
  { unfold pair_probability. rewrite Rabs_pos_eq, Rmult_1_r by lra.
    assert (exp (ln r / 2) < r) by (rewrite <- (exp_ln r) at 2 by lra; apply exp_increasing; lra).
    pose proof (exp_pos (ln r / 2)). set (x := exp (ln r / 2)) in *. clearbody x.
    apply (Rmult_lt_reg_r (1 + x)); [lra|]. unfold Rdiv at 1. rewrite Rmult_assoc, Rinv_l by lra. unfold r in *. lra. }
  assert (B2 : luce2 2 (ln r / 2) = 50000001 / 100000000).
  { unfold pair_probability. rewrite Rabs_pos_eq by lra. replace (ln r / 2 * 2) with (ln r) by field. rewrite exp_ln by lra. unfold r. lra. }
  assert (B4 : luce2 4 (ln r / 2) < 51 / 100).
  { unfold pair_probability. rewrite Rabs_pos_eq by lra. replace (ln r / 2 * 4) with (ln r + ln r) by field. rewrite exp_plus, exp_ln by lra. unfold r. lra. }
  assert (B3 : 50000001 / 100000000 <= luce2 3 (ln r / 2) < 51 / 100).
  { pose proof (luce2_le 2 3 (ln r / 2) ltac:(lra)). pose proof (luce2_le 3 4 (ln r / 2) ltac:(lra)). lra. }
  set (w := luce2 3 (ln r / 2)) in *.
  exists 1, 2, 3, [ln 3; ln r / 2], (3 / 4). do 3 eexists. split; [lra|]. split; [lra|]. split; [lra|].
  split; [intros d [<- | [<- | []]]; lra|]. split; [lra|].
  unfold obj, obj_mean. cbn [map]. cbv zeta.
  fold (luce2 1 (ln 3)) (luce2 1 (ln r / 2)) (luce2 2 (ln 3)) (luce2 2 (ln r / 2)) (luce2 3 (ln 3)) (luce2 3 (ln r / 2)). fold w.
  rewrite A1, A2, A3, B2, (proj2 (Rltb_true _ _) B1).
  rewrite (proj2 (Rltb_false (3/4) _)), (proj2 (Rltb_false (9/10) _)), (proj2 (Rltb_false (27/28) _)), (proj2 (Rltb_false w _)), (proj2 (Rltb_false (50000001 / 100000000) _)) by lra.
  unfold nanmean. cbn [map concat app rsum length INR]. split; [reflexivity|]. split; [reflexivity|]. split; [reflexivity|]. split; [lra|].
  clearbody w. assert (-1/50 < (27 / 28 + (w + 0)) / (1 + 1) - 3 / 4 < 0) by lra. nra.
Qed.
