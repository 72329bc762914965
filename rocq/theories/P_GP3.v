(** The predictive distribution of the preference GP, and witnesses. *)
From Coq Require Import Lra.
From Verif Require Import M_Fake M_Acq M_GP S_GP S_Kernel P_Base P_RBase P_Kernel P_Acq P_Chol P_GP P_GP2.
From Coq Require Import Reals Lra Lia List.
From Verif Require Import S_Psd P_Psd.
Import ListNotations.
Local Open Scope R_scope.

(** ---- the inverse of [I + W K] ---- *)
Definition unitv (j i : nat) : R := if Nat.eqb i j then 1 else 0.
Lemma sumn_unit n j f : (j < n)%nat -> sumn n (fun i => unitv j i * f i) = f j.
Proof.
  intro H. rewrite (sumn_single n _ j H); unfold unitv; [rewrite Nat.eqb_refl; ring|]. intros i _ N. rewrite (proj2 (Nat.eqb_neq i j)) by auto. ring.
Qed.
Lemma sumn_unit' n i f : (i < n)%nat -> sumn n (fun j => unitv j i * f j) = f i.
Proof.
  intro H. rewrite (sumn_single n _ i H); unfold unitv; [rewrite Nat.eqb_refl; ring|]. intros j _ N. rewrite (proj2 (Nat.eqb_neq i j)) by auto. ring.
Qed.
Lemma pd_inverse n K : symmetric n K -> pd n K -> exists B, right_inverse n K B.
Proof.
  intros HS HP. destruct (chol_complete n K HS HP) as [L E]. exists (fun i j => cho_solve n L (unitv j) i).
  intros i j Hi Hj. apply (cho_solve_spec n K L (unitv j) HS E i Hi).
Qed.
Lemma inverse_sym n K B : symmetric n K -> right_inverse n K B -> symmetric n B.
Proof.
  intros HS HB i j Hi Hj.
  assert (C : forall p q, (p < n)%nat -> (q < n)%nat -> B p q = sumn n (fun a => sumn n (fun b => B b p * K b a * B a q))).
  { intros p q Hp Hq. rewrite sumn_swap. transitivity (sumn n (fun b => unitv q b * B b p)).
    - rewrite <- (sumn_unit n p (fun a => B a q) Hp).
      transitivity (sumn n (fun a => sumn n (fun b => B b p * K b a * B a q))).
      + apply sumn_ext. intros a Ha. rewrite <- (HB a p Ha Hp : sumn n (fun b => K a b * B b p) = unitv p a).
        rewrite <- sumn_scale_r. apply sumn_ext. intros b Hb. rewrite (HS a b) by auto. ring.
      + rewrite sumn_swap. apply sumn_ext. intros b Hb. rewrite <- (HB b q Hb Hq : sumn n (fun a => K b a * B a q) = unitv q b).
        rewrite <- sumn_scale_r. apply sumn_ext. intros; ring.
    - apply sumn_ext. intros b Hb. rewrite <- (HB b q Hb Hq : sumn n (fun a => K b a * B a q) = unitv q b).
      rewrite <- sumn_scale_r. apply sumn_ext. intros; ring. }
  rewrite (C i j), (C j i) by auto. rewrite sumn_swap. apply sumn_ext. intros a Ha. apply sumn_ext. intros b Hb. rewrite (HS a b) by auto. ring.
Qed.
Lemma inverse_pd n K B : symmetric n K -> pd n K -> right_inverse n K B -> pd n B.
Proof.
  intros HS HP HB c [i [Hi Hc]]. set (u := fun a => sumn n (fun j => B a j * c j)).
  assert (SU : solves n K c u).
  { intros p Hp. unfold u. transitivity (sumn n (fun j => unitv j p * c j)); [|now apply sumn_unit'].
    transitivity (sumn n (fun a => sumn n (fun j => K p a * B a j * c j))).
    - apply sumn_ext. intros a _. rewrite <- sumn_scale. apply sumn_ext. intros; ring.
    - rewrite sumn_swap. apply sumn_ext. intros j Hj. rewrite sumn_scale_r. now rewrite (HB p j Hp Hj). }
  assert (E : qform n B c = qform n K u).
  { rewrite (solves_qform n K c u SU). unfold qform. apply sumn_ext. intros a _. unfold u. rewrite <- sumn_scale. apply sumn_ext. intros; ring. }
  rewrite E. apply HP. destruct (zero_or_not n u) as [Z | Z]; auto. exfalso. apply Hc. rewrite <- (SU i Hi). apply sumn_zero. intros j Hj. rewrite Z by auto. ring.
Qed.
Lemma one_plus_invertible n W K : symmetric n W -> psd n W -> symmetric n K -> pd n K -> exists B, right_inverse n (one_plus n W K) B.
Proof.
  intros SW PW SK PK. destruct (pd_inverse n K SK PK) as [Ki HKi]. assert (SKi := inverse_sym n K Ki SK HKi). assert (PKi := inverse_pd n K Ki SK PK HKi).
  set (Q := fun i j => Ki i j + W i j).
  assert (SQ : symmetric n Q) by (intros i j Hi Hj; unfold Q; rewrite (SKi i j), (SW i j) by auto; reflexivity).
  assert (PQ : pd n Q). { intros c Hc. unfold Q. rewrite qform_plus. specialize (PKi c Hc). specialize (PW c). lra. }
  destruct (pd_inverse n Q SQ PQ) as [Qi HQi]. exists (fun a j => sumn n (fun b => Ki a b * Qi b j)). intros i j Hi Hj.
  transitivity (sumn n (fun b => Q i b * Qi b j)); [|now apply HQi].
  unfold one_plus, Q.
  transitivity (sumn n (fun a => unitv a i * sumn n (fun b => Ki a b * Qi b j)) + sumn n (fun a => sumn n (fun c => W i c * K c a) * sumn n (fun b => Ki a b * Qi b j))).
  { rewrite <- sumn_plus. apply sumn_ext. intros a _. unfold unitv. ring. }
  rewrite (sumn_unit' n i (fun a => sumn n (fun b => Ki a b * Qi b j)) Hi).
  assert (E : sumn n (fun a => sumn n (fun c => W i c * K c a) * sumn n (fun b => Ki a b * Qi b j)) = sumn n (fun c => W i c * Qi c j)).
  { transitivity (sumn n (fun c => W i c * sumn n (fun a => K c a * sumn n (fun b => Ki a b * Qi b j)))).
    - transitivity (sumn n (fun a => sumn n (fun c => W i c * (K c a * sumn n (fun b => Ki a b * Qi b j))))).
      + apply sumn_ext. intros a _. rewrite <- sumn_scale_r. apply sumn_ext. intros; ring.
      + rewrite sumn_swap. apply sumn_ext. intros c _. now rewrite sumn_scale.
    - apply sumn_ext. intros c Hc. f_equal. transitivity (sumn n (fun b => unitv b c * Qi b j)); [|exact (sumn_unit' n c (fun b => Qi b j) Hc)].
      transitivity (sumn n (fun a => sumn n (fun b => K c a * Ki a b * Qi b j))).
      + apply sumn_ext. intros a _. rewrite <- sumn_scale. apply sumn_ext. intros; ring.
      + rewrite sumn_swap. apply sumn_ext. intros b Hb. rewrite sumn_scale_r. now rewrite (HKi c b Hc Hb). }
  rewrite E, <- sumn_plus. apply sumn_ext. intros; ring.
Qed.
Lemma right_inverse_ext n A A' B : (forall i j, (i < n)%nat -> (j < n)%nat -> A i j = A' i j) -> right_inverse n A B -> right_inverse n A' B.
Proof. intros H K i j Hi Hj. rewrite <- (K i j Hi Hj). apply sumn_ext. intros a Ha. now rewrite H. Qed.
(** [z = T W c] *)
Lemma laplace_solve n W K T c : right_inverse n (one_plus n W K) T ->
  let w := fun b => sumn n (fun a => W b a * c a) in let z := fun a => sumn n (fun b => T a b * w b) in
  (forall i, (i < n)%nat -> z i = sumn n (fun a => W i a * (c a - sumn n (fun b => K a b * z b)))) /\
  sumn n (fun b => sumn n (fun a => c a * T a b) * w b) = sumn n (fun a => c a * z a).
Proof.
  intros HT w z. split.
  - intros i Hi. assert (E : sumn n (fun a => one_plus n W K i a * z a) = w i).
    { unfold z. transitivity (sumn n (fun b => unitv b i * w b)); [|now apply sumn_unit'].
      transitivity (sumn n (fun a => sumn n (fun b => one_plus n W K i a * T a b * w b))).
      - apply sumn_ext. intros a _. rewrite <- sumn_scale. apply sumn_ext. intros; ring.
      - rewrite sumn_swap. apply sumn_ext. intros b Hb. rewrite sumn_scale_r. now rewrite (HT i b Hi Hb). }
    assert (E2 : sumn n (fun a => one_plus n W K i a * z a) = z i + sumn n (fun a => W i a * sumn n (fun b => K a b * z b))).
    { unfold one_plus. transitivity (sumn n (fun a => unitv a i * z a) + sumn n (fun a => sumn n (fun c => W i c * K c a) * z a)).
      { rewrite <- sumn_plus. apply sumn_ext. intros. unfold unitv. ring. }
      rewrite (sumn_unit' n i z Hi). f_equal.
      transitivity (sumn n (fun a => sumn n (fun c0 => W i c0 * (K c0 a * z a)))).
      - apply sumn_ext. intros a _. rewrite <- sumn_scale_r. apply sumn_ext. intros; ring.
      - rewrite sumn_swap. apply sumn_ext. intros c0 _. now rewrite sumn_scale. }
    rewrite E2 in E. unfold w in E.
    transitivity (sumn n (fun a => W i a * c a) - sumn n (fun a => W i a * sumn n (fun b => K a b * z b))); [lra|].
    rewrite <- sumn_minus. apply sumn_ext. intros; ring.
  - unfold z. transitivity (sumn n (fun b => sumn n (fun a => c a * (T a b * w b)))).
    + apply sumn_ext. intros b _. rewrite <- sumn_scale_r. apply sumn_ext. intros; ring.
    + rewrite sumn_swap. apply sumn_ext. intros a _. now rewrite sumn_scale.
Qed.
(** the reduction of the variance: between nothing and everything *)
Lemma laplace_bounds n W K c z kxx (B : nat -> nat -> R) : symmetric n W -> psd n W -> psd n K ->
  (forall i, (i < n)%nat -> z i = sumn n (fun a => W i a * (c a - sumn n (fun b => K a b * z b)))) ->
  0 <= sumn n (fun a => c a * z a) /\
  ((forall d, 0 <= qform n K d - 2 * sumn n (fun a => c a * d a) + kxx) -> sumn n (fun a => c a * z a) <= kxx).
Proof.
  intros SW PW PK HZ. set (r := fun a => c a - sumn n (fun b => K a b * z b)).
  assert (E1 : sumn n (fun a => r a * z a) = qform n W r).
  { unfold qform. apply sumn_ext. intros i Hi. rewrite (HZ i Hi). fold r. rewrite <- sumn_scale. apply sumn_ext. intros a _. fold (r a). unfold r. ring. }
  assert (E2 : sumn n (fun a => c a * z a) = sumn n (fun a => r a * z a) + qform n K z).
  { unfold qform. rewrite <- sumn_plus. apply sumn_ext. intros a _. unfold r.
    replace (sumn n (fun j => z a * z j * K a j)) with (z a * sumn n (fun b => K a b * z b)); [ring|]. rewrite <- sumn_scale. apply sumn_ext. intros; ring. }
  assert (Q1 := PW r). assert (Q2 := PK z). split; [lra|]. intro H. specialize (H z). lra.
Qed.
Lemma augmented_psd k d Y x : no_zeroed k -> valid d k -> periodic_1d d k -> dim d Y -> length x = d ->
  forall e, 0 <= qform (length Y) (train_cov k Y []) e - 2 * sumn (length Y) (fun a => kcall k x (pt Y a) * e a) + noisy k x x.
Proof.
  intros HZ Hv Hp HD Hx be. set (n := length Y).
  set (B := fun i j => mentry k x true (app_pt Y x) i j).
  assert (PB : psd (S n) B).
  { apply (mentry_psd k _ _ d); auto. intros i Hi. unfold app_pt. fold n. destruct (Nat.eqb_spec i n); auto. apply HD, pt_In. fold n. lia. }
  specialize (PB (fun i => if Nat.eqb i n then 1 else - be i)). rewrite qform_last in PB. rewrite !Nat.eqb_refl in PB.
  assert (Z : forall i, nth i (@nil R) 0 = 0) by (intros [|]; reflexivity).
  assert (E1 : qform n B (fun i => if Nat.eqb i n then 1 else - be i) = qform n (train_cov k Y []) be).
  { unfold qform. apply sumn_ext. intros i Hi. apply sumn_ext. intros j Hj.
    rewrite (proj2 (Nat.eqb_neq i n)), (proj2 (Nat.eqb_neq j n)) by lia. unfold B, mentry, app_pt, train_cov. fold n.
    rewrite (proj2 (Nat.eqb_neq i n)), (proj2 (Nat.eqb_neq j n)) by lia. cbn [andb].
    destruct (Nat.eqb_spec i j) as [<- | N]; rewrite ?Z, ?kentry_on, ?kentry_off by auto; ring. }
  assert (E2 : sumn n (fun i => (if Nat.eqb i n then 1 else - be i) * B i n) = - sumn n (fun j => kcall k x (pt Y j) * be j)).
  { replace (- sumn n (fun j => kcall k x (pt Y j) * be j)) with ((-1) * sumn n (fun j => kcall k x (pt Y j) * be j)) by ring. rewrite <- sumn_scale. apply sumn_ext. intros i Hi.
    rewrite (proj2 (Nat.eqb_neq i n)) by lia. unfold B, mentry, app_pt. fold n. rewrite Nat.eqb_refl. rewrite (proj2 (Nat.eqb_neq i n)) by lia. cbn [andb].
    rewrite kentry_off by auto. rewrite (kcall_sym_nz k x) by auto. ring. }
  assert (E3 : sumn n (fun j => (if Nat.eqb j n then 1 else - be j) * B n j) = - sumn n (fun j => kcall k x (pt Y j) * be j)).
  { replace (- sumn n (fun j => kcall k x (pt Y j) * be j)) with ((-1) * sumn n (fun j => kcall k x (pt Y j) * be j)) by ring. rewrite <- sumn_scale. apply sumn_ext. intros i Hi.
    rewrite (proj2 (Nat.eqb_neq i n)) by lia. unfold B, mentry, app_pt. fold n. rewrite Nat.eqb_refl. rewrite (proj2 (Nat.eqb_neq i n)), (proj2 (Nat.eqb_neq n i)) by lia. cbn [andb].
    rewrite kentry_off by auto. ring. }
  assert (E4 : B n n = noisy k x x).
  { unfold B, mentry, app_pt. fold n. rewrite !Nat.eqb_refl. cbn [andb]. now rewrite kentry_on by auto. }
  rewrite E1, E2, E3, E4 in PB. lra.
Qed.
Lemma stored_K k Y M : no_zeroed k -> Y <> [] -> kcov k Y Y = Ok M ->
  forall i j, (i < length Y)%nat -> (j < length Y)%nat -> mat_at M i j = train_cov k Y [] i j.
Proof.
  intros HZ HY E i j Hi Hj. destruct (kcov_c k Y Y HY HZ) as [M' [E' H]]. rewrite E' in E. injection E as <-.
  rewrite H by auto. rewrite same_start_refl. cbn [andb]. unfold train_cov, centry.
  destruct (Nat.eqb_spec i j) as [<- | N]; [|reflexivity]. destruct i; cbn; ring.
Qed.
(** the reported standard deviations squared of a fitted preference GP lie between 0 and the prior variance; no clipping takes place *)
Lemma pgp_variance inv k d dm X : inverts inv -> separate k X (pX d) -> valid dm k -> periodic_1d dm k -> dim dm X -> dim dm (pX d) ->
  X <> [] -> pX d <> [] -> kcov k (pX d) (pX d) = Ok (pK d) -> pd (length (pX d)) (mat_at (pK d)) ->
  symmetric (length (pX d)) (mat_at (pW d)) -> psd (length (pX d)) (mat_at (pW d)) ->
  exists mu var, pgp_predict inv k (Some d) X = Ok (mu, var) /\ length mu = length X /\ length var = length X /\
    forall i, (i < length X)%nat -> 0 <= nth i var 0 <= noisy k (pt X i) (pt X i) /\
      exists z, (forall a, (a < length (pX d))%nat ->
                   z a = sumn (length (pX d)) (fun b => mat_at (pW d) a b *
                           (kcall k (pt X i) (pt (pX d) b) - sumn (length (pX d)) (fun e => mat_at (pK d) b e * z e)))) /\
                nth i var 0 = noisy k (pt X i) (pt X i) - sumn (length (pX d)) (fun a => kcall k (pt X i) (pt (pX d) a) * z a).
Proof.
  intros HI HQ Hv Hp DX DY HX HY EK PK SW PW. assert (HZ := separate_no_zeroed _ _ _ HQ). set (n := length (pX d)) in *.
  assert (HK := stored_K k (pX d) (pK d) HZ HY EK). fold n in HK.
  assert (SK : symmetric n (mat_at (pK d))).
  { intros i j Hi Hj. rewrite !HK by auto. now apply (train_cov_sym k (pX d) [] n). }
  destruct (chol_complete n (mat_at (pK d)) SK PK) as [L EL].
  rewrite (pgp_chunk inv k d dm X HQ DX DY HX). fold n. rewrite EL. eexists _, _. split; [reflexivity|].
  split; [apply map_length|]. split; [apply map_length|]. intros i Hi.
  rewrite (nth_indep _ 0 (Rmax 0 (pgp_var inv k d []))) by (now rewrite map_length). rewrite (map_nth (fun x => Rmax 0 (pgp_var inv k d x))).
  fold (pt X i). set (x := pt X i). assert (Dx : length x = dm) by (now apply DX, pt_In).
  assert (EW : forall a b, pgp_wk d a b = one_plus n (mat_at (pW d)) (mat_at (pK d)) a b).
  { intros a b. unfold pgp_wk, one_plus. now rewrite sum_to_sumn. }
  assert (HT : right_inverse n (one_plus n (mat_at (pW d)) (mat_at (pK d))) (inv n (pgp_wk d))).
  { apply (right_inverse_ext n (pgp_wk d)); [auto|]. destruct (one_plus_invertible n _ _ SW PW SK PK) as [B HB].
    apply (HI n (pgp_wk d) B). apply (right_inverse_ext n (one_plus n (mat_at (pW d)) (mat_at (pK d)))); auto. }
  destruct (laplace_solve n _ _ _ (fun a => kcall k x (pt (pX d) a)) HT) as [Z1 Z2].
  set (z := fun a => sumn n (fun b => inv n (pgp_wk d) a b * sumn n (fun a0 => mat_at (pW d) b a0 * kcall k x (pt (pX d) a0)))) in *. fold z in Z1.
  assert (EV : pgp_var inv k d x = noisy k x x - sumn n (fun a => kcall k x (pt (pX d) a) * z a)).
  { unfold pgp_var. fold n. f_equal. exact Z2. }
  destruct (laplace_bounds n (mat_at (pW d)) (mat_at (pK d)) (fun a => kcall k x (pt (pX d) a)) z (noisy k x x) (fun _ _ => 0) SW PW (pd_psd _ _ PK) Z1) as [B1 B2].
  assert (B3 : sumn n (fun a => kcall k x (pt (pX d) a) * z a) <= noisy k x x).
  { apply B2. intro e. assert (A := augmented_psd k dm (pX d) x HZ Hv Hp DY Dx e). fold n in A.
    rewrite (qform_ext n (mat_at (pK d)) (train_cov k (pX d) []) e e); auto. }
  rewrite EV, Rmax_right by lra. split; [lra|]. exists z. split; auto.
Qed.
(** predicting at the training inputs returns the fitted values *)
Lemma pgp_reproduces inv k d : no_zeroed k -> pX d <> [] -> length (pF d) = length (pX d) -> kcov k (pX d) (pX d) = Ok (pK d) ->
  pd (length (pX d)) (mat_at (pK d)) -> exists var, pgp_predict inv k (Some d) (pX d) = Ok (pF d, var).
Proof.
  intros HZ HY HF EK PK. set (n := length (pX d)) in *.
  assert (HK := stored_K k (pX d) (pK d) HZ HY EK). fold n in HK.
  assert (SK : symmetric n (mat_at (pK d))).
  { intros i j Hi Hj. rewrite !HK by auto. now apply (train_cov_sym k (pX d) [] n). }
  destruct (chol_complete n (mat_at (pK d)) SK PK) as [L EL].
  unfold pgp_predict. fold n. rewrite EK. cbn [bind]. rewrite EL. eexists. f_equal. f_equal.
  apply nth_eq_list; [now rewrite map_length, seq_length|]. rewrite map_length, seq_length. intros i Hi. rewrite nth_map_seq by auto.
  rewrite sum_to_sumn. exact (cho_solve_spec n _ L (fun j => nth j (pF d) 0) SK EL i Hi).
Qed.

(** ---- the store, by positions ---- *)
Lemma zipw_nth (a b : list R) i : length a = length b -> (i < length a)%nat -> nth i (zipw Rplus a b) 0 = nth i a 0 + nth i b 0.
Proof. revert b i. induction a; intros [|] [|i]; simpl; intros; try discriminate; try lia; auto. apply IHa; lia. Qed.
Lemma holds_stored mean X y sig st : holds mean X y sig st -> stored mean X y sig st.
Proof.
  intros [d [-> [<- [<- [HL <-]]]]]. exists d. split; [reflexivity|]. do 3 (split; auto).
  assert (ML : length (map (mean_at mean) (gX d)) = length (gX d)) by apply map_length.
  split; [rewrite zipw_length; congruence|]. intros i Hi. rewrite zipw_nth by (rewrite ?ML; lia).
  rewrite (nth_indep (map (mean_at mean) (gX d)) 0 (mean_at mean [])) by (rewrite ML; lia). rewrite (map_nth (mean_at mean)).
  change (prior_mean mean (pt (gX d) i)) with (mean_at mean (nth i (gX d) [])). ring.
Qed.
Lemma gp_history_stored mean pre st0 st1 l : gp_run mean pre st0 = Ok st1 -> Forall same_number l ->
  exists st, gp_run mean (pre ++ GReset :: adds l) st0 = Ok st /\
    (l = [] -> st = None) /\
    (l <> [] -> stored mean (concat (map (fun a => fst (fst a)) l)) (concat (map (fun a => snd (fst a)) l)) (concat (map sig_of l)) st).
Proof.
  intros E H. destruct (gp_history mean pre st0 st1 l E H) as [st [E2 [H1 H2]]]. exists st. do 2 (split; auto). intro N. now apply holds_stored, H2.
Qed.
(** ---- noise-free data, any kernel ---- *)
Lemma interpolation_any_kernel mean k Y y : Y <> [] -> no_zeroed k \/ (2 <= length Y)%nat -> length y = length Y ->
  (forall M, kcov k Y Y = Ok M -> pd (length Y) (entry M)) ->
  exists mu var, gp_predict mean k (Some {| gX := Y; gy := y; gsig := repeat 0 (length Y) |}) Y = Ok (mu, var) /\
    length mu = length Y /\ length var = length Y /\
    forall i, (i < length Y)%nat -> nth i mu 0 = nth i y 0 + prior_mean mean (pt Y i) /\ nth i var 0 = 0.
Proof.
  intros HY HZ Hy P. set (n := length Y) in *.
  assert (HZ' : no_zeroed k \/ (length Y <> 1%nat /\ length Y <> 1%nat)) by (destruct HZ as [HZ | HZ]; [now left|right; fold n; lia]).
  destruct (kcov_spec k Y Y HY HZ') as [M [E [_ H]]]. specialize (P M E). unfold gp_predict. cbn [gX gy gsig]. fold n. rewrite E. cbn [bind].
  assert (HA : forall i j, (i < n)%nat -> (j < n)%nat -> entry M i j = gp_cov M (repeat 0 n) i j).
  { intros i j Hi Hj. unfold gp_cov. change (mat_at M i j) with (entry M i j). rewrite nth_repeat_0. destruct (Nat.eqb i j); ring. }
  assert (SM : symmetric n (entry M)).
  { intros i j Hi Hj. rewrite !H by auto. rewrite Nat.eqb_sym. apply kentry_sym. }
  assert (SA : symmetric n (gp_cov M (repeat 0 n))) by (intros i j Hi Hj; rewrite <- !HA by auto; now apply SM).
  destruct (chol_complete n _ SA (pd_ext _ _ _ HA P)) as [L EL]. rewrite EL, Hy, Nat.eqb_refl. cbn [negb].
  eexists _, _. split; [reflexivity|]. split; [rewrite map_length; unfold enumerate; now rewrite P_Base.enumerate_from_length|].
  split; [now rewrite map_length, seq_length|]. intros i Hi. rewrite nth_map_enum, nth_map_seq by auto. cbn [fst snd]. rewrite !sum_to_sumn.
  split.
  - unfold prior_mean, mean_at. f_equal. rewrite <- (cho_solve_spec n _ L (fun j => nth j y 0) SA EL i Hi). apply sumn_ext. intros j Hj. now rewrite <- HA.
  - assert (S2 := cho_solve_spec n _ L (fun r => mat_at M i r) SA EL i Hi). cbv beta in S2.
    replace (sumn n (fun r => mat_at M i r * cho_solve n L (fun r0 => mat_at M i r0) r)) with (mat_at M i i); [apply Rmax_left; lra|].
    rewrite <- S2. apply sumn_ext. intros j Hj. now rewrite <- HA.
Qed.
(** ---- witnesses ---- *)
(** sixteen query points, the last one the only training point: the noise of the kernel shows up only in the chunk [[ [0] ]] *)
Definition w_kern : kern := RBF 1 1 1.
Definition w_data : pgp_data := {| pX := [[0]]; pF := [1]; pW := [[0]]; pK := [[2]] |}.
Definition w_query : list point := repeat [1] 15 ++ [[0]].
Lemma w_chol : exists L, chol 1 (mat_at (pK w_data)) = Some L /\ cho_solve 1 L (fun j => nth j (pF w_data) 0) 0%nat = 1 / 2.
Proof.
  assert (Q : 0 < sqrt 2) by (apply sqrt_lt_R0; lra). assert (Q2 : sqrt 2 * sqrt 2 = 2) by (apply sqrt_sqrt; lra).
  cbn [chol]. unfold mat_at, w_data. cbn [pK nth]. unfold Rltb. destruct (Rlt_dec 0 2) as [_ | N]; [|lra]. eexists. split; [reflexivity|].
  unfold cho_solve. cbn [fwd bwd pF nth]. unfold sum_to. cbn [seq map]. change (rsum []) with 0.
  replace ((1 / sqrt 2 - 0) / sqrt 2) with (1 / (sqrt 2 * sqrt 2)) by (field; lra). now rewrite Q2.
Qed.
Lemma w_predict inv X : X <> [] -> exists mu var, pgp_predict inv w_kern (Some w_data) X = Ok (mu, var) /\ length mu = length X /\ length var = length X /\
  forall i, (i < length X)%nat -> nth i mu 0 = centry w_kern (same_start X [[0]] && Nat.eqb i 0)%bool (pt X i) [0] * (1 / 2).
Proof.
  intro HX. unfold pgp_predict. change (pX w_data) with [[0]]. cbn [length].
  destruct (kcov_c w_kern X [[0]] HX I) as [M1 [E1 H1]]. destruct (kcov_c w_kern X X HX I) as [M2 [E2 _]]. rewrite E1, E2. cbn [bind].
  destruct w_chol as [L [EL HL]]. rewrite EL. eexists _, _. split; [reflexivity|]. do 2 (split; [now rewrite map_length, seq_length|]).
  intros i Hi. rewrite nth_map_seq by auto. unfold sum_to at 1. cbn [seq map]. rewrite HL, H1 by (auto; simpl; lia). cbn [rsum fold_right pt nth]. unfold rsum. cbn [fold_right]. ring.
Qed.
Lemma nth_set_slice_last (l v : list R) : length v = 1%nat -> length l = 16%nat -> nth 15 (set_slice l 15 16 v) 0 = nth 0 v 0.
Proof.
  intros Hv Hl. unfold set_slice. rewrite app_nth2; rewrite firstn_length; [|lia]. rewrite Hl. cbn [Nat.min Nat.sub]. rewrite app_nth1 by lia. reflexivity.
Qed.
Lemma set_slice_length (l v : list R) lo hi : (lo <= hi)%nat -> (hi <= length l)%nat -> length v = (hi - lo)%nat -> length (set_slice l lo hi v) = length l.
Proof. intros. unfold set_slice. rewrite !app_length, firstn_length, skipn_length. lia. Qed.
Lemma w_differs inv mu0 sg0 : length mu0 = 16%nat ->
  exists mu var mu' var', pgp_predict inv w_kern (Some w_data) w_query = Ok (mu, var) /\
    predict_large (pgp_predict inv w_kern (Some w_data)) w_query mu0 sg0 = Ok (mu', var') /\ nth 15 mu 0 = 1 / 2 /\ nth 15 mu' 0 = 1.
Proof.
  intros Hm. destruct (w_predict inv w_query ltac:(discriminate)) as [mu [var [E [L1 [L2 H]]]]].
  destruct (w_predict inv (repeat [1] 15) ltac:(discriminate)) as [mu1 [var1 [E1 [L11 [L12 H1]]]]].
  destruct (w_predict inv [[0]] ltac:(discriminate)) as [mu2 [var2 [E2 [L21 [L22 H2]]]]].
  unfold predict_large. change (seq 0 ((length w_query + 14) / 15)) with [0%nat; 1%nat]. cbn [large_loop].
  change (firstn (Nat.min (length w_query) (0 * 15 + 15) - 0 * 15) (skipn (0 * 15) w_query)) with (repeat [1] 15 : list point).
  change (firstn (Nat.min (length w_query) (1 * 15 + 15) - 1 * 15) (skipn (1 * 15) w_query)) with ([[0]] : list point).
  rewrite E1, E2. cbn [bind fst snd]. exists mu, var. eexists _, _. split; [exact E|]. split; [reflexivity|]. split.
  - rewrite H by (simpl; lia). cbn [Nat.eqb]. rewrite Bool.andb_false_r. unfold centry. cbn [kcall w_kern pt w_query repeat app nth]. rewrite rbf_call_self. lra.
  - change (Nat.min (length w_query) (1 * 15 + 15)) with 16%nat. change (1 * 15)%nat with 15%nat. change (Nat.min (length w_query) (0 * 15 + 15)) with 15%nat.
    rewrite nth_set_slice_last; [|now rewrite L21|].
    + rewrite H2 by (simpl; lia). rewrite same_start_refl. cbn [Nat.eqb andb centry noisy kcall w_kern pt nth]. rewrite rbf_call_self. lra.
    + rewrite set_slice_length; auto; simpl; try lia.
Qed.
(** ---- summary lemmas ---- *)
Lemma gp_variance mean k Y y sig X d : separate k X Y -> valid d k -> periodic_1d d k -> dim d X -> dim d Y -> X <> [] -> Y <> [] ->
  length y = length Y -> length sig = length Y -> Forall (fun s => 0 <= s) sig -> pd (length Y) (train_cov k Y sig) ->
  exists mu var, gp_predict mean k (Some {| gX := Y; gy := y; gsig := sig |}) X = Ok (mu, var) /\ length var = length X /\
    forall i, (i < length X)%nat -> exists m v, posterior k Y y (train_cov k Y sig) (pt X i) m v /\ nth i var 0 = v /\ 0 <= v <= noisy k (pt X i) (pt X i).
Proof.
  intros HQ Hv Hp DX DY HX HY Hy HS Hs P. assert (HZ := separate_no_zeroed _ _ _ HQ).
  destruct (gp_textbook mean k Y y sig X d HQ DX DY HX HY Hy HS P) as [mu [var [E [L1 [L2 H]]]]]. exists mu, var. do 2 (split; auto).
  intros i Hi. destruct (H i Hi) as [m [v [Q [_ Q2]]]]. exists m, v. split; auto.
  assert (0 <= v) by (apply (posterior_nonneg k d Y y sig (pt X i) m v); auto; now apply DX, pt_In).
  assert (v <= noisy k (pt X i) (pt X i)) by (now apply (posterior_shrinks k Y y sig _ m)). rewrite Rmax_right in Q2 by auto. auto.
Qed.
Lemma gp_total mean k Y y sig X d : no_zeroed k -> valid d k -> periodic_1d d k -> dim d Y -> X <> [] -> Y <> [] ->
  length y = length Y -> length sig = length Y -> Forall (fun s => 0 < s) sig ->
  exists mu var, gp_predict mean k (Some {| gX := Y; gy := y; gsig := sig |}) X = Ok (mu, var) /\ length mu = length X /\ length var = length X.
Proof.
  intros HZ Hv Hp DY HX HY Hy HS Hs.
  destruct (gp_predict_ok mean k Y y sig X HZ HX HY Hy HS (train_cov_pd k d Y sig HZ Hv Hp DY HY HS Hs)) as [al [be [mu [var [E [L1 [L2 _]]]]]]].
  exists mu, var. auto.
Qed.
Lemma gp_fails_iff mean k Y y sig X : no_zeroed k -> X <> [] -> Y <> [] -> length y = length Y -> length sig = length Y ->
  (gp_predict mean k (Some {| gX := Y; gy := y; gsig := sig |}) X = Raise LinAlgError <-> ~ pd (length Y) (train_cov k Y sig)).
Proof.
  intros HZ HX HY Hy HS. split; intro H; [|now apply gp_predict_fails].
  intro P. destruct (gp_predict_ok mean k Y y sig X HZ HX HY Hy HS P) as [al [be [mu [var [E _]]]]]. congruence.
Qed.
Lemma gp_duplicate mean k Y y sig X i j : noiseless k -> X <> [] -> Y <> [] -> length y = length Y -> length sig = length Y ->
  (i < length Y)%nat -> (j < length Y)%nat -> i <> j -> pt Y i = pt Y j -> nth i sig 0 = 0 -> nth j sig 0 = 0 ->
  gp_predict mean k (Some {| gX := Y; gy := y; gsig := sig |}) X = Raise LinAlgError.
Proof.
  intros HN HX HY Hy HS Hi Hj N E Zi Zj. apply gp_predict_fails; auto using noiseless_no_zeroed. now apply (duplicate_singular k Y sig i j).
Qed.
Lemma mean_ignored : exists mean k X, X <> [] /\ forall mu var, gp_predict (Some mean) k None X = Ok (mu, var) -> mu <> map mean X.
Proof.
  exists (fun _ => 1), (RBF 1 1 0), [[0]]. split; [discriminate|]. intros mu var E. unfold gp_predict in E.
  destruct (kcov (RBF 1 1 0) [[0]] [[0]]); [|discriminate]. cbn [bind] in E. injection E as <- _. cbn [map]. intro K. injection K as K. lra.
Qed.
(** the identity is positive definite *)
Lemma pd_two a b c d : b = c -> 0 < a -> 0 < a * d - b * c -> pd 2 (fun i j => match i, j with 0, 0 => a | 0, _ => b | _, 0 => c | _, _ => d end)%nat.
Proof.
  intros E Ha Hd x [i [Hi Hx]]. unfold qform. cbn [sumn]. subst c. set (p := x 0%nat) in *. set (q := x 1%nat) in *.
  assert (K : a * (0 + (0 + p * p * a + p * q * b) + (0 + q * p * b + q * q * d)) = (a * p + b * q) * (a * p + b * q) + (a * d - b * b) * (q * q)) by ring.
  assert (P : 0 < (a * p + b * q) * (a * p + b * q) + (a * d - b * b) * (q * q)).
  { assert (S1 := Rle_0_sqr (a * p + b * q)). unfold Rsqr in S1. destruct (Req_dec q 0) as [Z | Z].
    - rewrite Z in *. assert (p <> 0). { destruct i as [|[|i]]; [exact Hx|exact (fun _ => Hx Z)|lia]. }
      assert (0 < p * p) by (assert (S2 := Rsqr_pos_lt p H); exact S2). assert (0 < a * a) by nra. nra.
    - assert (0 < q * q) by (exact (Rsqr_pos_lt q Z)). assert (0 < (a * d - b * b) * (q * q)) by (now apply Rmult_lt_0_compat). lra. }
  rewrite <- K in P. apply (Rmult_lt_reg_l a); [exact Ha|]. rewrite Rmult_0_r. exact P.
Qed.
(** a routine that inverts every invertible matrix: the pseudo-inverse [A^T (A A^T)^-1] *)
Definition outer (n : nat) (A : nat -> nat -> R) (i j : nat) : R := sumn n (fun a => A i a * A j a).
Definition gram_inv (n : nat) (A : mat) : mat :=
  match chol n (outer n A) with
  | Some L => fun a j => sumn n (fun b => A b a * cho_solve n L (unitv j) b)
  | None => fun _ _ => 0
  end.
Lemma outer_qform n A c : qform n (outer n A) c = sumn n (fun a => (sumn n (fun i => c i * A i a)) ^ 2).
Proof.
  transitivity (sumn n (fun a => qform n (fun i j => A i a * A j a) c)).
  - unfold qform, outer. rewrite (sumn_swap n n (fun a i => sumn n (fun j => c i * c j * (A i a * A j a)))). apply sumn_ext. intros i _.
    rewrite sumn_swap. apply sumn_ext. intros j _. now rewrite sumn_scale.
  - apply sumn_ext. intros a _. apply (qform_rank1 n (fun i => A i a) c).
Qed.
Lemma sumn_nonneg_zero n f : (forall i, (i < n)%nat -> 0 <= f i) -> sumn n f = 0 -> forall i, (i < n)%nat -> f i = 0.
Proof.
  induction n as [|n IH]; intros H E i Hi; [lia|]. cbn [sumn] in E. assert (A := sumn_nonneg n f (fun i Hi => H i (Nat.lt_lt_succ_r _ _ Hi))).
  assert (B := H n (Nat.lt_succ_diag_r n)). destruct (Nat.eq_dec i n) as [-> | N]; [lra|]. apply IH; [intros; apply H; lia|lra|lia].
Qed.
Lemma outer_pd n A B : right_inverse n A B -> pd n (outer n A).
Proof.
  intros HB c [i [Hi Hc]]. rewrite outer_qform. assert (N : 0 <= sumn n (fun a => (sumn n (fun i => c i * A i a)) ^ 2)) by (apply sumn_nonneg; intros; apply pow2_ge_0).
  destruct N as [N | N]; auto. exfalso. apply Hc.
  assert (Z : forall a, (a < n)%nat -> sumn n (fun i => c i * A i a) = 0).
  { intros a Ha. assert (K := sumn_nonneg_zero n _ (fun a _ => pow2_ge_0 (sumn n (fun i => c i * A i a))) (eq_sym N) a Ha). cbv beta in K.
    set (s := sumn n (fun i => c i * A i a)) in *. cbn [pow] in K. rewrite Rmult_1_r in K. apply Rmult_integral in K. tauto. }
  transitivity (sumn n (fun j => unitv i j * c j)); [now rewrite sumn_unit|].
  transitivity (sumn n (fun j => sumn n (fun a => c j * A j a * B a i))).
  - apply sumn_ext. intros j Hj. rewrite <- (HB j i Hj Hi : _ = unitv i j). rewrite <- sumn_scale_r. apply sumn_ext. intros; ring.
  - rewrite sumn_swap. apply sumn_zero. intros a Ha. rewrite sumn_scale_r, (Z a Ha). ring.
Qed.
Lemma gram_inverts : inverts gram_inv.
Proof.
  intros n A B HB. assert (SO : symmetric n (outer n A)) by (intros i j _ _; unfold outer; apply sumn_ext; intros; ring).
  destruct (chol_complete n _ SO (outer_pd n A B HB)) as [L EL]. intros i j Hi Hj. unfold gram_inv. rewrite EL.
  rewrite <- (cho_solve_spec n _ L (unitv j) SO EL i Hi : _ = if Nat.eqb i j then 1 else 0). unfold outer.
  transitivity (sumn n (fun a => sumn n (fun b => A i a * A b a * cho_solve n L (unitv j) b))).
  - apply sumn_ext. intros a _. rewrite <- sumn_scale. apply sumn_ext. intros; ring.
  - rewrite sumn_swap. apply sumn_ext. intros b _. now rewrite sumn_scale_r.
Qed.
