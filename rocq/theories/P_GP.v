(** Lemmas about the Gaussian process regression and its data store. *)
From Coq Require Import Lra.
From Verif Require Import M_GP S_GP S_Kernel P_Base P_Kernel P_Acq P_Chol.
From Coq Require Import Reals Lra Lia List.
From Coq Require Import Permutation.
From Verif Require Import S_Psd P_Psd.
Import ListNotations.
Local Open Scope R_scope.

(** ---- kernel entries ---- *)
Lemma noiseless_no_zeroed k : noiseless k -> no_zeroed k.
Proof. induction k; simpl; tauto. Qed.
Lemma noiseless_noisy k u v : noiseless k -> noisy k u v = kcall k u v.
Proof.
  induction k as [s l e|s sb c|s l p|s l e z|a IHa b IHb|a IHa b IHb]; cbn [noiseless noisy kcall]; intro H; auto; try tauto.
  - subst e. apply Rplus_0_r. - now rewrite IHa, IHb by tauto. - now rewrite IHa, IHb by tauto.
Qed.
Definition centry (k : kern) (on : bool) (u v : point) : R := if on then noisy k u v else kcall k u v.
Lemma kcov_c k X Y : X <> [] -> no_zeroed k ->
  exists M, kcov k X Y = Ok M /\ forall i j, (i < length X)%nat -> (j < length Y)%nat ->
    mat_at M i j = centry k (same_start X Y && Nat.eqb i j)%bool (pt X i) (pt Y j).
Proof.
  intros HX HZ. destruct (kcov_spec k X Y HX (or_introl HZ)) as [M [E [_ H]]]. exists M. split; auto.
  intros i j Hi Hj. change (mat_at M i j) with (entry M i j). rewrite H by auto. unfold centry.
  destruct (same_start X Y && Nat.eqb i j)%bool; [now apply kentry_on|now apply kentry_off].
Qed.
Lemma same_start_refl X : same_start X X = true.
Proof. unfold same_start. now rewrite Nat.eqb_refl, point_eqb_refl. Qed.

(** ---- linear algebra ---- *)
Lemma pd_ext n A B : (forall i j, (i < n)%nat -> (j < n)%nat -> A i j = B i j) -> pd n A -> pd n B.
Proof. intros H K c Hc. rewrite (qform_ext n B A c c); auto. intros; symmetry; auto. Qed.
Lemma solves_ext n A B b b' x : (forall i j, (i < n)%nat -> (j < n)%nat -> A i j = B i j) -> (forall i, (i < n)%nat -> b i = b' i) ->
  solves n A b x -> solves n B b' x.
Proof.
  intros HA Hb H i Hi. rewrite <- Hb by auto. rewrite <- (H i Hi). apply sumn_ext. intros j Hj. now rewrite HA.
Qed.
(** x^T A x = b^T x for a solution of A x = b *)
Lemma solves_qform n A b x : solves n A b x -> qform n A x = sumn n (fun i => b i * x i).
Proof.
  intro H. unfold qform. apply sumn_ext. intros i Hi. rewrite <- (H i Hi). rewrite <- sumn_scale_r. apply sumn_ext. intros j _. ring.
Qed.
(** the quadratic form of a matrix with one more row and column *)
Lemma qform_last n A d : qform (S n) A d =
  qform n A d + d n * sumn n (fun i => d i * A i n) + d n * sumn n (fun j => d j * A n j) + d n * d n * A n n.
Proof.
  unfold qform. cbn [sumn].
  replace (sumn n (fun i => sumn n (fun j => d i * d j * A i j) + d i * d n * A i n))
    with (sumn n (fun i => sumn n (fun j => d i * d j * A i j)) + d n * sumn n (fun i => d i * A i n)).
  - replace (sumn n (fun j => d n * d j * A n j)) with (d n * sumn n (fun j => d j * A n j)); [ring|].
    rewrite <- sumn_scale. apply sumn_ext. intros; ring.
  - rewrite sumn_plus. f_equal. rewrite <- sumn_scale. apply sumn_ext. intros; ring.
Qed.
Lemma psd_plus_pd n A (d : nat -> R) : psd n A -> (forall i, (i < n)%nat -> 0 < d i) -> pd n (fun i j => A i j + if Nat.eqb i j then d i else 0).
Proof.
  intros HA Hd c [i [Hi Hc]]. rewrite qform_plus. cut (0 < qform n (fun i j => if Nat.eqb i j then d i else 0) c); [specialize (HA c); lra|].
  assert (E : qform n (fun i j => if Nat.eqb i j then d i else 0) c = sumn n (fun i => c i * c i * d i)).
  { unfold qform. apply sumn_ext. intros a Ha. rewrite (sumn_single n _ a Ha).
    - now rewrite Nat.eqb_refl.
    - intros b _ Hb. rewrite (proj2 (Nat.eqb_neq a b)) by congruence. ring. }
  rewrite E. clear E. assert (P : forall m, (m <= n)%nat -> 0 <= sumn m (fun i => c i * c i * d i)).
  { intros m Hm. apply sumn_nonneg. intros a Ha. apply Rmult_le_pos; [nra|]. left. apply Hd. lia. }
  assert (Q : forall m, (m <= n)%nat -> (i < m)%nat -> 0 < sumn m (fun i => c i * c i * d i)).
  { induction m as [|m IH]; intros Hm Him; [lia|]. cbn [sumn]. assert (Hp := P m ltac:(lia)).
    destruct (Nat.eq_dec i m) as [<- | N].
    - assert (0 < c i * c i) by nra. specialize (Hd i Hi). nra.
    - specialize (IH ltac:(lia) ltac:(lia)). assert (0 <= c m * c m * d m) by (apply Rmult_le_pos; [nra|left; apply Hd; lia]). lra. }
  apply Q; auto.
Qed.

(** ---- regression ---- *)
Lemma train_cov_spec k Y sig M : no_zeroed k -> Y <> [] -> length sig = length Y -> kcov k Y Y = Ok M ->
  forall i j, (i < length Y)%nat -> (j < length Y)%nat -> gp_cov M sig i j = train_cov k Y sig i j.
Proof.
  intros HZ HY HS E i j Hi Hj. destruct (kcov_c k Y Y HY HZ) as [M' [E' H]]. rewrite E' in E. injection E as <-.
  unfold gp_cov, train_cov. rewrite H by auto. rewrite same_start_refl. cbn [andb]. rewrite HS, Nat.mod_small by auto.
  destruct (Nat.eqb_spec i j) as [<- | N]; [reflexivity|]. unfold centry. apply Rplus_0_r.
Qed.
Definition pt_dim (Y : list point) : Prop := forall x y, In x Y -> In y Y -> length x = length y.
Lemma kcall_sym_nz k u v : no_zeroed k -> kcall k u v = kcall k v u.
Proof. intro H. rewrite <- (kentry_off k [] u v H), <- (kentry_off k [] v u H). apply kentry_sym. Qed.
Lemma noisy_sym_nz k u v : no_zeroed k -> noisy k u v = noisy k v u.
Proof. intro H. rewrite <- (kentry_on k [] u v H), <- (kentry_on k [] v u H). apply kentry_sym. Qed.
Lemma train_cov_sym k Y sig n : no_zeroed k -> symmetric n (train_cov k Y sig).
Proof.
  intros H i j _ _. unfold train_cov. rewrite (Nat.eqb_sym j i). destruct (Nat.eqb_spec i j) as [<- | N]; auto. now apply kcall_sym_nz.
Qed.
Lemma nth_map_seq {B} (g : nat -> B) n i d : (i < n)%nat -> nth i (map g (seq 0 n)) d = g i.
Proof.
  intro H. rewrite (nth_indep _ d (g 0%nat)) by (now rewrite map_length, seq_length). rewrite (map_nth g). now rewrite seq_nth.
Qed.
Lemma nth_map_enum (h : nat * point -> R) X i : (i < length X)%nat -> nth i (map h (enumerate X)) 0 = h (i, pt X i).
Proof.
  intro H. rewrite (nth_indep _ 0 (h (0%nat, []))) by (rewrite map_length; unfold enumerate; now rewrite P_Base.enumerate_from_length).
  rewrite (map_nth h). unfold enumerate. rewrite enumerate_from_nth_entry by auto. reflexivity.
Qed.

Section Regression.
  Variables (mean : option (point -> R)) (k : kern) (Y : list point) (y sig : list R) (X : list point).
  Hypothesis HZ : no_zeroed k.
  Hypothesis HX : X <> [].
  Hypothesis HY : Y <> [].
  Hypothesis Hy : length y = length Y.
  Hypothesis HS : length sig = length Y.
  Let st := Some {| gX := Y; gy := y; gsig := sig |}.
  Lemma gp_predict_fails : ~ pd (length Y) (train_cov k Y sig) -> gp_predict mean k st X = Raise LinAlgError.
  Proof.
    intro N. unfold gp_predict, st. cbn [gX gy gsig].
    destruct (kcov_c k X X HX HZ) as [MXX [E1 H1]]. destruct (kcov_c k X Y HX HZ) as [MXY [E2 H2]]. destruct (kcov_c k Y Y HY HZ) as [MYY [E3 H3]].
    rewrite E1, E2, E3. cbn [bind].
    destruct (chol (length Y) (gp_cov MYY sig)) as [L|] eqn:EL; [|reflexivity]. exfalso. apply N.
    apply (pd_ext _ (gp_cov MYY sig)); [intros; eapply train_cov_spec; eauto|].
    apply (chol_pd _ _ L); auto. intros i j Hi Hj. rewrite !(train_cov_spec k Y sig MYY) by auto. now apply (train_cov_sym k Y sig (length Y)).
  Qed.
  Lemma gp_predict_ok : pd (length Y) (train_cov k Y sig) ->
    exists alpha beta mu var, gp_predict mean k st X = Ok (mu, var) /\ length mu = length X /\ length var = length X /\
      solves (length Y) (train_cov k Y sig) (fun j => nth j y 0) alpha /\
      forall i, (i < length X)%nat -> let c j := centry k (same_start X Y && Nat.eqb i j)%bool (pt X i) (pt Y j) in
        solves (length Y) (train_cov k Y sig) c (beta i) /\
        nth i mu 0 = sumn (length Y) (fun j => c j * alpha j) + mean_at mean (pt X i) /\
        nth i var 0 = Rmax 0 (noisy k (pt X i) (pt X i) - sumn (length Y) (fun j => c j * beta i j)).
  Proof.
    intro P. unfold gp_predict, st. cbn [gX gy gsig].
    destruct (kcov_c k X X HX HZ) as [MXX [E1 H1]]. destruct (kcov_c k X Y HX HZ) as [MXY [E2 H2]]. destruct (kcov_c k Y Y HY HZ) as [MYY [E3 H3]].
    rewrite E1, E2, E3. cbn [bind].
    assert (HA : forall i j, (i < length Y)%nat -> (j < length Y)%nat -> gp_cov MYY sig i j = train_cov k Y sig i j) by (intros; now apply train_cov_spec).
    assert (SA : symmetric (length Y) (gp_cov MYY sig)).
    { intros i j Hi Hj. rewrite !HA by auto. now apply (train_cov_sym k Y sig (length Y)). }
    destruct (chol_complete _ _ SA (pd_ext _ _ _ (fun i j Hi Hj => eq_sym (HA i j Hi Hj)) P)) as [L EL]. rewrite EL.
    rewrite Hy, Nat.eqb_refl. cbn [negb].
    exists (cho_solve (length Y) L (fun j => nth j y 0)), (fun i => cho_solve (length Y) L (fun r => mat_at MXY i r)).
    eexists _, _. split; [reflexivity|]. split; [|split; [|split]].
    - rewrite map_length. unfold enumerate. now rewrite P_Base.enumerate_from_length.
    - now rewrite map_length, seq_length.
    - apply (solves_ext _ (gp_cov MYY sig) _ (fun j => nth j y 0)); auto. now apply cho_solve_spec.
    - intros i Hi. set (c := fun j => centry k (same_start X Y && Nat.eqb i j)%bool (pt X i) (pt Y j)). cbv zeta. split; [|split].
      + apply (solves_ext _ (gp_cov MYY sig) _ (fun r => mat_at MXY i r)); auto; [intros j Hj; unfold c; now apply H2|]. now apply cho_solve_spec.
      + rewrite nth_map_enum by auto. cbn [fst snd]. f_equal. rewrite sum_to_sumn. apply sumn_ext. intros j Hj. unfold c. now rewrite H2.
      + rewrite nth_map_seq by auto. f_equal. rewrite H1 by auto. rewrite same_start_refl, Nat.eqb_refl. cbn [andb centry]. f_equal.
        rewrite sum_to_sumn. apply sumn_ext. intros j Hj. unfold c. now rewrite H2.
  Qed.
End Regression.

(** the noise of the kernel does not enter the covariance between separate points *)
Lemma separate_no_zeroed k X Y : separate k X Y -> no_zeroed k.
Proof. intros [H | [H _]]; auto. now apply noiseless_no_zeroed. Qed.
Lemma point_eqb_eq_dim u v d : length u = d -> length v = d -> point_eqb u v = true -> u = v.
Proof. intros Hu Hv H. apply point_eqb_true in H; congruence. Qed.
Lemma separate_centry k X Y d i j : separate k X Y -> dim d X -> dim d Y -> (i < length X)%nat -> (j < length Y)%nat ->
  centry k (same_start X Y && Nat.eqb i j)%bool (pt X i) (pt Y j) = kcall k (pt X i) (pt Y j).
Proof.
  intros [H | [H N]] DX DY Hi Hj.
  - unfold centry. destruct (same_start X Y && Nat.eqb i j)%bool; auto. now apply noiseless_noisy.
  - replace (same_start X Y) with false; [reflexivity|]. symmetry. unfold same_start. apply Bool.andb_false_iff. right.
    apply Bool.not_true_is_false. intro K.
    assert (IX : In (pt X 0) X) by (apply pt_In; lia). assert (IY : In (pt Y 0) Y) by (apply pt_In; lia).
    apply (point_eqb_eq_dim _ _ d) in K; [|now apply DX|now apply DY]. apply (N _ IX). now rewrite K.
Qed.

(** the prediction is the text book posterior *)
Lemma gp_textbook mean k Y y sig X d : separate k X Y -> dim d X -> dim d Y -> X <> [] -> Y <> [] -> length y = length Y -> length sig = length Y ->
  pd (length Y) (train_cov k Y sig) ->
  exists mu var, gp_predict mean k (Some {| gX := Y; gy := y; gsig := sig |}) X = Ok (mu, var) /\ length mu = length X /\ length var = length X /\
    forall i, (i < length X)%nat -> exists m v, posterior k Y y (train_cov k Y sig) (pt X i) m v /\
      nth i mu 0 = m + mean_at mean (pt X i) /\ nth i var 0 = Rmax 0 v.
Proof.
  intros HQ DX DY HX HY Hy HS P. assert (HZ := separate_no_zeroed _ _ _ HQ).
  destruct (gp_predict_ok mean k Y y sig X HZ HX HY Hy HS P) as [al [be [mu [var [E [L1 [L2 [SA H]]]]]]]].
  exists mu, var. do 3 (split; auto). intros i Hi. destruct (H i Hi) as [HB [Hm Hv]].
  assert (C : forall j, (j < length Y)%nat -> centry k (same_start X Y && Nat.eqb i j)%bool (pt X i) (pt Y j) = kcall k (pt X i) (pt Y j))
    by (intros; now apply (separate_centry k X Y d)).
  eexists _, _. split; [|split; [exact Hm|exact Hv]]. exists al, (be i). split; auto. split.
  - apply (solves_ext _ (train_cov k Y sig) _ (fun j => centry k (same_start X Y && Nat.eqb i j)%bool (pt X i) (pt Y j))); auto.
  - split; [|f_equal]; apply sumn_ext; intros j Hj; now rewrite C.
Qed.
(** the posterior is determined *)
Lemma posterior_unique k Y y A x m v m' v' : pd (length Y) A -> posterior k Y y A x m v -> posterior k Y y A x m' v' -> m = m' /\ v = v'.
Proof.
  intros P [al [be [S1 [S2 [-> ->]]]]] [al' [be' [S1' [S2' [-> ->]]]]].
  assert (E1 := solves_unique _ _ _ _ _ P S1 S1'). assert (E2 := solves_unique _ _ _ _ _ P S2 S2').
  split; [|f_equal]; apply sumn_ext; intros j Hj; [now rewrite E1|now rewrite E2].
Qed.

(** ---- noise-free data is reproduced ---- *)
Lemma unit_solves n A i : (i < n)%nat -> symmetric n A -> solves n A (fun j => A i j) (fun j => if Nat.eqb i j then 1 else 0).
Proof.
  intros Hi HA a Ha. rewrite (sumn_single n _ i Hi).
  - rewrite Nat.eqb_refl, Rmult_1_r. now apply HA.
  - intros b _ N. rewrite (proj2 (Nat.eqb_neq i b)) by congruence. ring.
Qed.
Lemma nth_repeat_0 n i : nth i (repeat 0 n) 0 = 0.
Proof. revert i. induction n; intros [|i]; simpl; auto. Qed.
Lemma interpolate_entry k Y (y : list R) sig j0 (c alpha beta : nat -> R) : no_zeroed k -> pd (length Y) (train_cov k Y sig) ->
  (j0 < length Y)%nat -> solves (length Y) (train_cov k Y sig) (fun j => nth j y 0) alpha -> solves (length Y) (train_cov k Y sig) c beta ->
  (forall j, (j < length Y)%nat -> c j = train_cov k Y sig j0 j) ->
  sumn (length Y) (fun j => c j * alpha j) = nth j0 y 0 /\ sumn (length Y) (fun j => c j * beta j) = train_cov k Y sig j0 j0.
Proof.
  intros HZ P Hj Sa Sb Hc. split.
  - rewrite <- (Sa j0 Hj). apply sumn_ext. intros j H. now rewrite Hc.
  - transitivity (c j0); [|now apply Hc]. rewrite <- (Sb j0 Hj). apply sumn_ext. intros j H. now rewrite Hc.
Qed.
Lemma interpolation_self mean k Y y : no_zeroed k -> Y <> [] -> length y = length Y -> pd (length Y) (train_cov k Y (repeat 0 (length Y))) ->
  exists mu var, gp_predict mean k (Some {| gX := Y; gy := y; gsig := repeat 0 (length Y) |}) Y = Ok (mu, var) /\
    length mu = length Y /\ length var = length Y /\
    forall i, (i < length Y)%nat -> nth i mu 0 = nth i y 0 + mean_at mean (pt Y i) /\ nth i var 0 = 0.
Proof.
  intros HZ HY Hy P. destruct (gp_predict_ok mean k Y y (repeat 0 (length Y)) Y HZ HY HY Hy (repeat_length _ _) P) as [al [be [mu [var [E [L1 [L2 [SA H]]]]]]]].
  exists mu, var. do 3 (split; auto). intros i Hi. destruct (H i Hi) as [HB [Hm Hv]].
  destruct (interpolate_entry k Y y (repeat 0 (length Y)) i _ al (be i) HZ P Hi SA HB) as [R1 R2].
  { intros j Hj. unfold train_cov. rewrite same_start_refl, nth_repeat_0, Rplus_0_r. cbn [andb]. unfold centry.
    destruct (Nat.eqb_spec i j) as [<- | N]; reflexivity. }
  rewrite R1 in Hm. rewrite R2 in Hv. split; auto. rewrite Hv. unfold train_cov. rewrite Nat.eqb_refl, nth_repeat_0. apply Rmax_left. lra.
Qed.
Lemma interpolation_any mean k Y y X : noiseless k -> X <> [] -> Y <> [] -> length y = length Y -> pd (length Y) (train_cov k Y (repeat 0 (length Y))) ->
  exists mu var, gp_predict mean k (Some {| gX := Y; gy := y; gsig := repeat 0 (length Y) |}) X = Ok (mu, var) /\
    length mu = length X /\ length var = length X /\
    forall i j, (i < length X)%nat -> (j < length Y)%nat -> pt X i = pt Y j ->
      nth i mu 0 = nth j y 0 + mean_at mean (pt Y j) /\ nth i var 0 = 0.
Proof.
  intros HN HX HY Hy P. assert (HZ := noiseless_no_zeroed k HN).
  destruct (gp_predict_ok mean k Y y (repeat 0 (length Y)) X HZ HX HY Hy (repeat_length _ _) P) as [al [be [mu [var [E [L1 [L2 [SA H]]]]]]]].
  exists mu, var. do 3 (split; auto). intros i j0 Hi Hj EQ. destruct (H i Hi) as [HB [Hm Hv]].
  destruct (interpolate_entry k Y y (repeat 0 (length Y)) j0 _ al (be i) HZ P Hj SA HB) as [R1 R2].
  { intros j Hj'. unfold train_cov. rewrite nth_repeat_0, Rplus_0_r, EQ. unfold centry.
    destruct (Nat.eqb_spec j0 j) as [<- | N]; rewrite ?noiseless_noisy by auto; now destruct (same_start X Y && _)%bool. }
  rewrite R1, EQ in Hm. rewrite R2, EQ in Hv. split; auto. rewrite Hv. unfold train_cov. rewrite Nat.eqb_refl, nth_repeat_0. apply Rmax_left. lra.
Qed.
(** ---- variances ---- *)
Lemma gp_variance_nonneg mean k st X mu var : gp_predict mean k st X = Ok (mu, var) -> Forall (fun v => 0 <= v) var.
Proof.
  unfold gp_predict. destruct st as [d|].
  - destruct (kcov k X X) as [M1|]; [|discriminate]. destruct (kcov k X (gX d)) as [M2|]; [|discriminate]. destruct (kcov k (gX d) (gX d)) as [M3|]; [|discriminate].
    cbn [bind]. destruct (chol _ _); [|discriminate]. destruct (negb _); [discriminate|]. intro E. injection E as _ <-.
    apply Forall_map, Forall_forall. intros i _. apply Rmax_l.
  - destruct (kcov k X X) as [M1|]; [|discriminate]. cbn [bind]. intro E. injection E as _ <-. apply Forall_map, Forall_forall. intros i _. apply Rmax_l.
Qed.
Lemma kernel_diag_nonneg k d x : no_zeroed k -> valid d k -> periodic_1d d k -> length x = d -> 0 <= noisy k x x.
Proof.
  intros HZ Hv Hp Hd. assert (P := mentry_psd k x true d 1 (fun _ => x) Hv Hp Hd (fun _ _ => Hd)).
  specialize (P (fun _ => 1)). unfold qform, mentry in P. cbn [sumn Nat.eqb andb] in P. rewrite kentry_on in P by auto. lra.
Qed.
(** observing data never increases the variance *)
Lemma posterior_shrinks k Y y sig x m v : pd (length Y) (train_cov k Y sig) -> posterior k Y y (train_cov k Y sig) x m v -> v <= noisy k x x.
Proof.
  intros P [al [be [_ [S2 [_ ->]]]]]. rewrite <- (solves_qform _ _ _ _ S2). assert (K := pd_psd _ _ P be). lra.
Qed.
(** the posterior variance is not negative *)
Definition app_pt (Y : list point) (x : point) (i : nat) : point := if Nat.eqb i (length Y) then x else pt Y i.
Lemma train_cov_psd k d Y sig : no_zeroed k -> valid d k -> periodic_1d d k -> dim d Y -> Y <> [] -> length sig = length Y -> Forall (fun s => 0 <= s) sig ->
  psd (length Y) (train_cov k Y sig).
Proof.
  intros HZ Hv Hp HD HY HS Hs.
  apply (psd_ext _ (fun i j => mentry k (pt Y 0) true (pt Y) i j + if Nat.eqb i j then nth i sig 0 else 0)).
  - intros i j _ _. unfold mentry, train_cov. cbn [andb]. destruct (Nat.eqb_spec i j) as [<- | N].
    + now rewrite kentry_on. + rewrite kentry_off by auto. apply Rplus_0_r.
  - apply psd_plus.
    + apply (mentry_psd k _ _ d); auto. * apply HD, pt_In. destruct Y; [congruence|simpl; lia]. * intros i Hi. now apply HD, pt_In.
    + apply psd_diag. intros i Hi. rewrite Forall_forall in Hs. apply Hs, nth_In. lia.
Qed.
Lemma posterior_nonneg k d Y y sig x m v : no_zeroed k -> valid d k -> periodic_1d d k -> dim d Y -> length x = d -> length sig = length Y ->
  Forall (fun s => 0 <= s) sig -> posterior k Y y (train_cov k Y sig) x m v -> 0 <= v.
Proof.
  intros HZ Hv Hp HD Hx HS Hs [al [be [_ [S2 [_ ->]]]]]. set (n := length Y) in *.
  set (B := fun i j => mentry k x true (app_pt Y x) i j + if Nat.eqb i j then (if Nat.eqb i n then 0 else nth i sig 0) else 0).
  assert (PB : psd (S n) B).
  { apply psd_plus.
    - apply (mentry_psd k _ _ d); auto. intros i Hi. unfold app_pt. fold n. destruct (Nat.eqb_spec i n); auto. apply HD, pt_In. fold n. lia.
    - apply psd_diag. intros i Hi. destruct (Nat.eqb_spec i n); [lra|]. rewrite Forall_forall in Hs. apply Hs, nth_In. lia. }
  set (c := fun j => kcall k x (pt Y j)) in *.
  specialize (PB (fun i => if Nat.eqb i n then 1 else - be i)). rewrite qform_last in PB. rewrite !Nat.eqb_refl in PB.
  assert (E1 : qform n B (fun i => if Nat.eqb i n then 1 else - be i) = qform n (train_cov k Y sig) be).
  { unfold qform. apply sumn_ext. intros i Hi. apply sumn_ext. intros j Hj.
    rewrite (proj2 (Nat.eqb_neq i n)), (proj2 (Nat.eqb_neq j n)) by lia. unfold B, mentry, app_pt, train_cov. fold n.
    rewrite (proj2 (Nat.eqb_neq i n)), (proj2 (Nat.eqb_neq j n)) by lia. cbn [andb].
    destruct (Nat.eqb_spec i j) as [<- | N]; rewrite ?kentry_on, ?kentry_off by auto; ring. }
  assert (E2 : sumn n (fun i => (if Nat.eqb i n then 1 else - be i) * B i n) = - sumn n (fun j => c j * be j)).
  { replace (- sumn n (fun j => c j * be j)) with ((-1) * sumn n (fun j => c j * be j)) by ring. rewrite <- sumn_scale. apply sumn_ext. intros i Hi.
    rewrite (proj2 (Nat.eqb_neq i n)) by lia. unfold B, mentry, app_pt. fold n. rewrite Nat.eqb_refl. rewrite (proj2 (Nat.eqb_neq i n)) by lia. cbn [andb].
    rewrite kentry_off by auto. unfold c. rewrite (kcall_sym_nz k x) by auto. ring. }
  assert (E3 : sumn n (fun j => (if Nat.eqb j n then 1 else - be j) * B n j) = - sumn n (fun j => c j * be j)).
  { replace (- sumn n (fun j => c j * be j)) with ((-1) * sumn n (fun j => c j * be j)) by ring. rewrite <- sumn_scale. apply sumn_ext. intros i Hi.
    rewrite (proj2 (Nat.eqb_neq i n)) by lia. unfold B, mentry, app_pt. fold n. rewrite Nat.eqb_refl. rewrite (proj2 (Nat.eqb_neq i n)), (proj2 (Nat.eqb_neq n i)) by lia. cbn [andb].
    rewrite kentry_off by auto. unfold c. ring. }
  assert (E4 : B n n = noisy k x x).
  { unfold B, mentry, app_pt. fold n. rewrite !Nat.eqb_refl. cbn [andb]. rewrite kentry_on by auto. ring. }
  rewrite E1, E2, E3, E4, (solves_qform n _ c be S2) in PB. unfold c in *. lra.
Qed.
Lemma train_cov_pd k d Y sig : no_zeroed k -> valid d k -> periodic_1d d k -> dim d Y -> Y <> [] -> length sig = length Y ->
  Forall (fun s => 0 < s) sig -> pd (length Y) (train_cov k Y sig).
Proof.
  intros HZ Hv Hp HD HY HS Hs.
  apply (pd_ext _ (fun i j => mentry k (pt Y 0) true (pt Y) i j + if Nat.eqb i j then nth i sig 0 else 0)).
  - intros i j _ _. unfold mentry, train_cov. cbn [andb]. destruct (Nat.eqb_spec i j) as [<- | N].
    + now rewrite kentry_on. + rewrite kentry_off by auto. apply Rplus_0_r.
  - apply psd_plus_pd.
    + apply (mentry_psd k _ _ d); auto. * apply HD, pt_In. destruct Y; [congruence|simpl; lia]. * intros i Hi. now apply HD, pt_In.
    + intros i Hi. rewrite Forall_forall in Hs. apply Hs, nth_In. lia.
Qed.
(** two equal training inputs without any noise: the covariance is singular *)
Lemma duplicate_singular k Y sig i j : noiseless k -> (i < length Y)%nat -> (j < length Y)%nat -> i <> j -> pt Y i = pt Y j ->
  nth i sig 0 = 0 -> nth j sig 0 = 0 -> ~ pd (length Y) (train_cov k Y sig).
Proof.
  intros HN Hi Hj N E Zi Zj P. specialize (P (fun a => if Nat.eqb a i then 1 else if Nat.eqb a j then -1 else 0)).
  assert (K : qform (length Y) (train_cov k Y sig) (fun a => if Nat.eqb a i then 1 else if Nat.eqb a j then -1 else 0) = 0).
  { rewrite (qform_2 (length Y) (train_cov k Y sig) i j 1 (-1) Hi Hj N). unfold train_cov. rewrite !Nat.eqb_refl.
    rewrite (proj2 (Nat.eqb_neq i j)), (proj2 (Nat.eqb_neq j i)) by congruence. rewrite Zi, Zj, E, !noiseless_noisy by auto. ring. }
  rewrite K in P. cut (0 < 0); [lra|]. apply P. exists i. split; auto. rewrite Nat.eqb_refl. lra.
Qed.
