(** Lemmas about the order of the data, prediction in chunks and the prediction of the preference GP. *)
From Coq Require Import Lra.
From Verif Require Import M_Fake M_Acq M_GP S_GP S_Kernel P_Base P_RBase P_Kernel P_Acq P_Chol P_GP.
From Coq Require Import Reals Lra Lia List.
From Coq Require Import Permutation FinFun.
From Verif Require Import S_Psd P_Psd.
Import ListNotations.
Local Open Scope R_scope.

(** ---- the order of the training data ---- *)
Lemma sumn_reindex n g f : bFun n f -> bInjective n f -> sumn n (fun i => g (f i)) = sumn n g.
Proof.
  intros HF HI. rewrite <- !sum_to_sumn. unfold sum_to. apply rsum_perm. rewrite <- (map_map f g). apply Permutation_map.
  apply NoDup_Permutation_bis.
  - clear HF. assert (forall l, NoDup l -> (forall x, In x l -> (x < n)%nat) -> NoDup (map f l)) as K.
    { induction 1 as [|x l N ND IH]; intro B; simpl; constructor.
      - intro I. apply in_map_iff in I as [y [E I]]. apply N. rewrite (HI x y) ; auto; [apply B; now left|apply B; now right].
      - apply IH. intros; apply B; now right. }
    apply K; [apply seq_NoDup|]. intros x I. apply in_seq in I. lia.
  - rewrite map_length. lia.
  - intros x I. apply in_map_iff in I as [y [<- I]]. apply in_seq in I. apply in_seq. specialize (HF y). lia.
Qed.
Lemma pd_reindex n A f : bFun n f -> bInjective n f -> pd n A -> pd n (fun i j => A (f i) (f j)).
Proof.
  intros HF HI P c [i [Hi Hc]]. destruct (bSurjective_bBijective HF (proj1 (bInjective_bSurjective HF) HI)) as [g [HG H]].
  assert (E : qform n (fun i j => A (f i) (f j)) c = qform n A (fun a => c (g a))).
  { unfold qform. rewrite <- (sumn_reindex n (fun i => sumn n (fun j => c (g i) * c (g j) * A i j)) f HF HI). apply sumn_ext. intros a Ha.
    rewrite <- (sumn_reindex n (fun j => c (g (f a)) * c (g j) * A (f a) j) f HF HI). apply sumn_ext. intros b Hb.
    now rewrite (proj1 (H a Ha)), (proj1 (H b Hb)). }
  rewrite E. apply P. exists (f i). split; [now apply HF|]. now rewrite (proj1 (H i Hi)).
Qed.
Lemma solves_reindex n A b x f : bFun n f -> bInjective n f -> solves n A b x -> solves n (fun i j => A (f i) (f j)) (fun i => b (f i)) (fun i => x (f i)).
Proof. intros HF HI H i Hi. rewrite (sumn_reindex n (fun j => A (f i) j * x j) f HF HI). apply H. now apply HF. Qed.
Definition dtrip : point * R * R := ([], 0, 0).
Lemma points_nth l i : pt (points_of l) i = fst (fst (nth i l dtrip)).
Proof. unfold pt, points_of. apply (map_nth (fun t : point * R * R => fst (fst t)) l dtrip). Qed.
Lemma obs_nth l i : nth i (obs_of l) 0 = snd (fst (nth i l dtrip)).
Proof. unfold obs_of. apply (map_nth (fun t : point * R * R => snd (fst t)) l dtrip). Qed.
Lemma noise_nth l i : nth i (noise_of l) 0 = snd (nth i l dtrip).
Proof. unfold noise_of. apply (map_nth (fun t : point * R * R => snd t) l dtrip). Qed.
Definition tcov k l := train_cov k (points_of l) (noise_of l).
Lemma tcov_reindex k l l' f n : bInjective n f -> (forall x, (x < n)%nat -> nth x l' dtrip = nth (f x) l dtrip) ->
  forall i j, (i < n)%nat -> (j < n)%nat -> tcov k l' i j = tcov k l (f i) (f j).
Proof.
  intros HI HN i j Hi Hj. unfold tcov, train_cov. rewrite !points_nth, !noise_nth, !HN by auto.
  destruct (Nat.eqb_spec i j) as [<- | N]; [now rewrite Nat.eqb_refl|]. rewrite (proj2 (Nat.eqb_neq (f i) (f j))); auto.
Qed.
Lemma posterior_perm k l l' x m v : Permutation l l' -> posterior k (points_of l) (obs_of l) (tcov k l) x m v ->
  posterior k (points_of l') (obs_of l') (tcov k l') x m v.
Proof.
  intros HP. destruct (proj1 (Permutation_nth l l' dtrip) HP) as [HL [f [HF [HI HN]]]].
  assert (L1 : length (points_of l) = length l) by apply map_length.
  assert (L2 : length (points_of l') = length l) by (unfold points_of; now rewrite map_length).
  unfold posterior. cbv zeta. rewrite L1, L2. set (n := length l) in *.
  intros [al [be [S1 [S2 [-> ->]]]]]. exists (fun i => al (f i)), (fun i => be (f i)).
  assert (HA : forall i j, (i < n)%nat -> (j < n)%nat -> tcov k l (f i) (f j) = tcov k l' i j) by (intros; symmetry; now apply (tcov_reindex k l l' f n)).
  assert (HP' : forall j, (j < n)%nat -> pt (points_of l') j = pt (points_of l) (f j)) by (intros; rewrite !points_nth; now rewrite HN).
  split; [|split; [|split]].
  - apply (solves_ext n (fun i j => tcov k l (f i) (f j)) _ (fun i => nth (f i) (obs_of l) 0)); auto.
    + intros i Hi. rewrite !obs_nth. now rewrite HN.
    + apply (solves_reindex n (tcov k l) (fun j => nth j (obs_of l) 0)); auto.
  - apply (solves_ext n (fun i j => tcov k l (f i) (f j)) _ (fun i => kcall k x (pt (points_of l) (f i)))); auto.
    + intros i Hi. now rewrite HP'.
    + apply (solves_reindex n (tcov k l) (fun j => kcall k x (pt (points_of l) j))); auto.
  - rewrite <- (sumn_reindex n (fun j => kcall k x (pt (points_of l) j) * al j) f HF HI). apply sumn_ext. intros j Hj. now rewrite HP'.
  - f_equal. rewrite <- (sumn_reindex n (fun j => kcall k x (pt (points_of l) j) * be j) f HF HI). apply sumn_ext. intros j Hj. now rewrite HP'.
Qed.
Lemma tcov_pd_perm k l l' : Permutation l l' -> pd (length l) (tcov k l) -> pd (length l') (tcov k l').
Proof.
  intros HP P. destruct (proj1 (Permutation_nth l l' dtrip) HP) as [HL [f [HF [HI HN]]]]. cbv zeta in HL. rewrite HL.
  apply (pd_ext _ (fun i j => tcov k l (f i) (f j))); [|now apply pd_reindex]. intros. symmetry. now apply (tcov_reindex k l l' f (length l)).
Qed.
Lemma pd_dec n A : symmetric n A -> pd n A \/ ~ pd n A.
Proof.
  intro H. destruct (chol n A) as [L|] eqn:E; [left; now apply (chol_pd n A L)|]. right. intro P. destruct (chol_complete n A H P) as [L K]. congruence.
Qed.
Lemma nth_eq_list (a b : list R) : length a = length b -> (forall i, (i < length a)%nat -> nth i a 0 = nth i b 0) -> a = b.
Proof. intros H K. apply (nth_ext a b 0 0 H K). Qed.
Lemma gp_perm mean k l l' X d : Permutation l l' -> separate k X (points_of l) -> dim d X -> dim d (points_of l) -> X <> [] -> l <> [] ->
  gp_predict mean k (store l) X = gp_predict mean k (store l') X.
Proof.
  intros HP HQ DX DY HX HL. assert (HZ := separate_no_zeroed _ _ _ HQ).
  assert (HPp : Permutation (points_of l) (points_of l')) by now apply Permutation_map.
  assert (HQ' : separate k X (points_of l')).
  { destruct HQ as [H | [H N]]; [now left|right; split; auto]. intros x I J. apply (N x I). eapply Permutation_in; [symmetry; exact HPp|exact J]. }
  assert (DY' : dim d (points_of l')) by (intros x I; apply DY; eapply Permutation_in; [symmetry; exact HPp|exact I]).
  assert (NE : forall q, q <> [] -> points_of q <> []) by (intros [|]; simpl; congruence).
  assert (HL' : l' <> []) by (intros ->; apply HL; symmetry in HP; now apply Permutation_nil in HP).
  assert (Ly : forall q, length (obs_of q) = length (points_of q)) by (intro; unfold obs_of, points_of; now rewrite !map_length).
  assert (Ls : forall q, length (noise_of q) = length (points_of q)) by (intro; unfold noise_of, points_of; now rewrite !map_length).
  assert (Lp : forall q, length (points_of q) = length q) by (intro; apply map_length).
  destruct (pd_dec (length (points_of l)) (tcov k l)) as [P | N]; [now apply train_cov_sym|..].
  - assert (P' : pd (length (points_of l')) (tcov k l')) by (rewrite Lp in *; now apply (tcov_pd_perm k l)).
    destruct (gp_textbook mean k _ (obs_of l) (noise_of l) X d HQ DX DY HX (NE _ HL) (Ly _) (Ls _) P) as [mu [var [E [L1 [L2 H]]]]].
    destruct (gp_textbook mean k _ (obs_of l') (noise_of l') X d HQ' DX DY' HX (NE _ HL') (Ly _) (Ls _) P') as [mu' [var' [E' [L1' [L2' H']]]]].
    unfold store. rewrite E, E'. f_equal. f_equal; apply nth_eq_list; try congruence; intros i Hi.
    + rewrite L1 in Hi. destruct (H i Hi) as [m [v [Q [Q1 Q2]]]]. destruct (H' i Hi) as [m' [v' [Q' [Q1' Q2']]]].
      destruct (posterior_unique k _ _ _ _ m v m' v' P' (posterior_perm k l l' _ _ _ HP Q) Q') as [-> ->]. congruence.
    + rewrite L2 in Hi. destruct (H i Hi) as [m [v [Q [Q1 Q2]]]]. destruct (H' i Hi) as [m' [v' [Q' [Q1' Q2']]]].
      destruct (posterior_unique k _ _ _ _ m v m' v' P' (posterior_perm k l l' _ _ _ HP Q) Q') as [-> ->]. congruence.
  - assert (N' : ~ pd (length (points_of l')) (tcov k l')).
    { intro P'. apply N. rewrite Lp in *. apply (tcov_pd_perm k l'); [now symmetry|auto]. }
    unfold store. rewrite !gp_predict_fails; auto.
Qed.

(** ---- call histories ---- *)
Lemma map_const_repeat {A} (s : R) (l : list A) : repeat s (length l) = map (fun _ : A => s) l.
Proof. induction l; simpl; congruence. Qed.
Lemma zipw_length {A B C} (f : A -> B -> C) a b : length a = length b -> length (zipw f a b) = length a.
Proof. revert b. induction a; intros [|]; simpl; intro; try discriminate; auto. Qed.
Lemma zipw_app {A B C} (f : A -> B -> C) a b a' b' : length a = length b -> zipw f (a ++ a') (b ++ b') = zipw f a b ++ zipw f a' b'.
Proof. revert b. induction a; intros [|]; simpl; intro H; try discriminate; auto. f_equal. apply IHa. lia. Qed.
Lemma zip_back {A} (m : A -> R) X y : length y = length X -> zipw Rplus (zipw Rminus y (map m X)) (map m X) = y.
Proof. revert y. induction X; intros [|]; simpl; intro H; try discriminate; auto. f_equal; [ring|]. apply IHX. lia. Qed.
Lemma zip_zero (X : list point) y : length y = length X -> zipw Rplus y (map (mean_at None) X) = y.
Proof. revert y. induction X; intros [|]; simpl; intro H; try discriminate; auto. f_equal; [ring|]. apply IHX. lia. Qed.
Definition holds (mean : option (point -> R)) (X : list point) (y sig : list R) (st : option gp_data) : Prop :=
  exists d, st = Some d /\ gX d = X /\ gsig d = sig /\ length (gy d) = length X /\ zipw Rplus (gy d) (map (mean_at mean) (gX d)) = y.
Lemma gp_add_first mean X y s : length y = length X -> exists st, gp_add mean X y s None = Ok st /\ holds mean X y (sig_of (X, y, s)) st.
Proof.
  intro H. unfold gp_add.
  assert (ES : match s with SScalar s => repeat s (length y) | SSeq l => l end = sig_of (X, y, s)) by (destruct s; [apply map_const_repeat|reflexivity]).
  rewrite ES. destruct mean as [m|].
  - rewrite H, Nat.eqb_refl. cbn [bind]. eexists; split; [reflexivity|]. eexists; split; [reflexivity|]. cbn [gX gy gsig]. do 2 (split; auto). split.
    + rewrite zipw_length; auto. now rewrite map_length.
    + now apply (zip_back m).
  - cbn [bind]. eexists; split; [reflexivity|]. eexists; split; [reflexivity|]. cbn [gX gy gsig]. do 3 (split; auto). now apply zip_zero.
Qed.
Lemma gp_add_next mean X y s X0 y0 sig0 st : length y = length X -> holds mean X0 y0 sig0 st ->
  exists st', gp_add mean X y s st = Ok st' /\ holds mean (X0 ++ X) (y0 ++ y) (sig0 ++ sig_of (X, y, s)) st'.
Proof.
  intros H [d [-> [<- [<- [HL HB]]]]]. destruct (gp_add_first mean X y s H) as [st1 [E [d1 [-> [EX [ES [HL1 HB1]]]]]]].
  unfold gp_add in *. destruct mean as [m|]; [destruct (Nat.eqb (length y) (length X)); [|discriminate]|]; cbn [bind] in *;
    injection E as <-; cbn [gX gy gsig] in *; (eexists; split; [reflexivity|]); (eexists; split; [reflexivity|]); cbn [gX gy gsig];
    (split; [reflexivity|]); (split; [now rewrite ES|]); (split; [rewrite !app_length; lia|]);
    rewrite map_app, zipw_app by (now rewrite map_length); congruence.
Qed.
Lemma gp_run_app mean a b st : gp_run mean (a ++ b) st = bind (gp_run mean a st) (gp_run mean b).
Proof.
  revert st. induction a as [|[X y s|] a IH]; intro st; cbn [app gp_run bind]; auto.
  destruct (gp_add mean X y s st); cbn [bind]; auto.
Qed.
Lemma gp_adds_spec mean l : Forall (fun a => length (snd (fst a)) = length (fst (fst a))) l -> forall X0 y0 sig0 st, holds mean X0 y0 sig0 st ->
  exists st', gp_run mean (adds l) st = Ok st' /\
    holds mean (X0 ++ concat (map (fun a => fst (fst a)) l)) (y0 ++ concat (map (fun a => snd (fst a)) l)) (sig0 ++ concat (map sig_of l)) st'.
Proof.
  induction 1 as [|[[X y] s] l Ha _ IH]; intros X0 y0 sig0 st H.
  - exists st. split; [reflexivity|]. simpl. now rewrite !app_nil_r.
  - cbn [adds map fst snd gp_run]. cbn [fst snd] in Ha. destruct (gp_add_next mean X y s X0 y0 sig0 st Ha H) as [st1 [E1 H1]]. rewrite E1. cbn [bind].
    destruct (IH _ _ _ _ H1) as [st2 [E2 H2]]. exists st2. split; [exact E2|]. cbn [map concat fst snd]. now rewrite !app_assoc.
Qed.
Lemma gp_history mean pre st0 st1 l : gp_run mean pre st0 = Ok st1 -> Forall (fun a => length (snd (fst a)) = length (fst (fst a))) l ->
  exists st, gp_run mean (pre ++ GReset :: adds l) st0 = Ok st /\
    (l = [] -> st = None) /\
    (l <> [] -> holds mean (concat (map (fun a => fst (fst a)) l)) (concat (map (fun a => snd (fst a)) l)) (concat (map sig_of l)) st).
Proof.
  intros E H. rewrite gp_run_app, E. cbn [bind gp_run]. unfold gp_reset. destruct H as [|[[X y] s] l Ha HF].
  - exists None. repeat split; auto; congruence.
  - cbn [adds map fst snd gp_run]. cbn [fst snd] in Ha. destruct (gp_add_first mean X y s Ha) as [s1 [E1 H1]]. rewrite E1. cbn [bind].
    destruct (gp_adds_spec mean l HF _ _ _ _ H1) as [s2 [E2 H2]]. exists s2. split; [exact E2|]. split; [discriminate|]. intros _. exact H2.
Qed.
Lemma gp_untrained mean k X : no_zeroed k -> X <> [] -> (forall x, In x X -> 0 <= noisy k x x) ->
  gp_predict mean k None X = Ok (map (fun _ => 0) X, map (fun x => noisy k x x) X).
Proof.
  intros HZ HX HN. unfold gp_predict. destruct (kcov_c k X X HX HZ) as [M [E H]]. rewrite E. cbn [bind]. do 2 f_equal.
  apply nth_eq_list; [now rewrite !map_length, seq_length|]. rewrite map_length, seq_length. intros i Hi. rewrite nth_map_seq by auto.
  rewrite H by auto. rewrite same_start_refl, Nat.eqb_refl. cbn [andb centry]. rewrite Rmax_right by (now apply HN, pt_In).
  rewrite (nth_indep _ 0 ((fun x => noisy k x x) [])) by (now rewrite map_length). now rewrite (map_nth (fun x => noisy k x x)).
Qed.

(** ---- chunks ---- *)
Lemma firstn_map {A B} (f : A -> B) n l : map f (firstn n l) = firstn n (map f l).
Proof. revert l. induction n; intros [|]; simpl; congruence. Qed.
Lemma skipn_skipn' {A} a b (l : list A) : skipn a (skipn b l) = skipn (b + a) l.
Proof. revert l. induction b; intros l; simpl; auto. destruct l; auto. now rewrite skipn_nil. Qed.
Lemma firstn_split {A} a b (l : list A) : firstn a l ++ firstn b (skipn a l) = firstn (a + b) l.
Proof. revert l. induction a; intros [|x l]; simpl; auto; [now rewrite firstn_nil|]. now rewrite IHa. Qed.
Lemma set_slice_step {B} (f : point -> B) X (m0 : list B) lo hi : (lo <= hi)%nat -> (hi <= length X)%nat -> length m0 = length X ->
  set_slice (map f (firstn lo X) ++ skipn lo m0) lo hi (map f (firstn (hi - lo) (skipn lo X))) = map f (firstn hi X) ++ skipn hi m0.
Proof.
  intros H1 H2 H3. unfold set_slice. assert (L : length (map f (firstn lo X)) = lo) by (rewrite map_length, firstn_length; lia).
  rewrite firstn_app, L, Nat.sub_diag. cbn [firstn]. rewrite app_nil_r, (firstn_all2 (map f (firstn lo X)) (n := lo)) by lia.
  rewrite skipn_app, L. rewrite (skipn_all2 (map f (firstn lo X)) (n := hi)) by lia. cbn [app]. rewrite skipn_skipn'. replace (lo + (hi - lo))%nat with hi by lia.
  rewrite app_assoc, <- map_app, firstn_split. now replace (lo + (hi - lo))%nat with hi by lia.
Qed.
Lemma clamp_slices {B} (f : point -> B) X (m0 : list B) a : length m0 = length X ->
  map f (firstn (Nat.min (length X) a) X) ++ skipn (Nat.min (length X) a) m0 = map f (firstn a X) ++ skipn a m0.
Proof.
  intro H. destruct (Nat.le_ge_cases a (length X)) as [K | K]; [now rewrite Nat.min_r by auto|].
  rewrite Nat.min_l by auto. rewrite (firstn_all2 X (n := a)) by lia. rewrite firstn_all, (skipn_all2 m0 (n := length X)), (skipn_all2 m0 (n := a)) by lia. reflexivity.
Qed.
Lemma incl_chunk {A} a b (X : list A) : incl (firstn a (skipn b X)) X.
Proof.
  intros x I. rewrite <- (firstn_skipn b X). apply in_or_app. right. rewrite <- (firstn_skipn a (skipn b X)). apply in_or_app. now left.
Qed.
Lemma chunk_nonempty {A} a b (X : list A) : (0 < a)%nat -> (b < length X)%nat -> firstn a (skipn b X) <> [].
Proof.
  intros Ha Hb E. apply (f_equal (@length A)) in E. rewrite firstn_length, skipn_length in E. cbn [length] in E. lia.
Qed.
Lemma large_loop_ok predict (f g : point -> R) X mu0 sg0 : length mu0 = length X -> length sg0 = length X ->
  (forall c, c <> [] -> incl c X -> predict c = Ok (map f c, map g c)) ->
  forall m i, (i + m = (length X + 14) / 15)%nat ->
  large_loop predict X (seq i m) (map f (firstn (i * 15) X) ++ skipn (i * 15) mu0) (map g (firstn (i * 15) X) ++ skipn (i * 15) sg0) = Ok (map f X, map g X).
Proof.
  intros H1 H2 HP. assert (D := Nat.div_mod (length X + 14) 15 ltac:(lia)). assert (M := Nat.mod_upper_bound (length X + 14) 15 ltac:(lia)).
  induction m as [|m IH]; intros i Hi; cbn [seq large_loop].
  - rewrite !firstn_all2, !skipn_all2 by lia. now rewrite !app_nil_r.
  - assert (HL : (i * 15 < length X)%nat) by lia.
    rewrite HP; [|apply chunk_nonempty; lia|apply incl_chunk]. cbn [bind fst snd].
    rewrite !set_slice_step by lia. rewrite !clamp_slices by auto. replace (i * 15 + 15)%nat with (S i * 15)%nat by lia. apply IH. lia.
Qed.
Lemma large_ok predict (f g : point -> R) X mu0 sg0 : length mu0 = length X -> length sg0 = length X ->
  (forall c, c <> [] -> incl c X -> predict c = Ok (map f c, map g c)) -> predict_large predict X mu0 sg0 = Ok (map f X, map g X).
Proof.
  intros H1 H2 HP. assert (K := large_loop_ok predict f g X mu0 sg0 H1 H2 HP _ 0%nat eq_refl). cbn [Nat.mul firstn map app skipn] in K. exact K.
Qed.
Lemma large_raise predict X mu0 sg0 e : X <> [] -> (forall c, c <> [] -> incl c X -> predict c = Raise e) -> predict_large predict X mu0 sg0 = Raise e.
Proof.
  intros HX HP. unfold predict_large. assert (L : (0 < length X)%nat) by (destruct X; [congruence|simpl; lia]).
  assert (D := Nat.div_str_pos (length X + 14) 15 ltac:(lia)). destruct ((length X + 14) / 15)%nat as [|m]; [lia|]. cbn [seq large_loop].
  rewrite HP; [reflexivity|apply chunk_nonempty; lia|apply incl_chunk].
Qed.

(** ---- the preference GP ---- *)
Lemma map_seq_pt {B} (h : nat -> B) (f : point -> B) X : (forall i, (i < length X)%nat -> h i = f (pt X i)) -> map h (seq 0 (length X)) = map f X.
Proof.
  intro H. apply (nth_ext _ _ (f []) (f [])); [now rewrite !map_length, seq_length|]. rewrite map_length, seq_length. intros i Hi.
  rewrite nth_map_seq by auto. rewrite (map_nth f). now apply H.
Qed.
Section Pgp.
  Variables (inv : nat -> mat -> mat) (k : kern) (d : pgp_data) (dm : nat).
  Let n := length (pX d).
  Definition pgp_mu (L : mat) (x : point) : R := sumn n (fun j => kcall k x (pt (pX d) j) * cho_solve n L (fun j => nth j (pF d) 0) j).
  Definition pgp_wk (a b : nat) : R := (if Nat.eqb a b then 1 else 0) + sum_to n (fun c => mat_at (pW d) a c * mat_at (pK d) c b).
  Definition pgp_var (x : point) : R :=
    noisy k x x - sumn n (fun b => sumn n (fun a => kcall k x (pt (pX d) a) * inv n pgp_wk a b) * sumn n (fun c => mat_at (pW d) b c * kcall k x (pt (pX d) c))).
  Lemma pgp_chunk X : separate k X (pX d) -> dim dm X -> dim dm (pX d) -> X <> [] ->
    pgp_predict inv k (Some d) X = match chol n (mat_at (pK d)) with
                                   | None => Raise ValueError
                                   | Some L => Ok (map (pgp_mu L) X, map (fun x => Rmax 0 (pgp_var x)) X)
                                   end.
  Proof.
    intros HQ DX DY HX. assert (HZ := separate_no_zeroed _ _ _ HQ). unfold pgp_predict. fold n.
    destruct (kcov_c k X (pX d) HX HZ) as [M1 [E1 H1]]. destruct (kcov_c k X X HX HZ) as [M2 [E2 H2]]. rewrite E1, E2. cbn [bind].
    destruct (chol n (mat_at (pK d))) as [L|]; [|reflexivity].
    assert (C : forall i j, (i < length X)%nat -> (j < n)%nat -> mat_at M1 i j = kcall k (pt X i) (pt (pX d) j)).
    { intros i j Hi Hj. rewrite H1 by auto. now apply (separate_centry k X (pX d) dm). }
    do 2 f_equal; apply map_seq_pt; intros i Hi.
    - unfold pgp_mu. rewrite sum_to_sumn. apply sumn_ext. intros j Hj. now rewrite C.
    - f_equal. unfold pgp_var. rewrite H2 by auto. rewrite same_start_refl, Nat.eqb_refl. cbn [andb centry]. f_equal.
      rewrite sum_to_sumn. apply sumn_ext. intros b Hb. rewrite !sum_to_sumn. f_equal; apply sumn_ext; intros a Ha; now rewrite C.
  Qed.
End Pgp.
Lemma separate_incl k X Y c : incl c X -> separate k X Y -> separate k c Y.
Proof. intros I [H | [H N]]; [now left|right; split; auto]. Qed.
Lemma dim_incl d X c : incl c X -> dim d X -> dim d c.
Proof. intros I H x Hx. apply H. now apply I. Qed.
Lemma pgp_large inv k st X mu0 sg0 dm : X <> [] -> length mu0 = length X -> length sg0 = length X -> dim dm X ->
  match st with Some d => separate k X (pX d) /\ dim dm (pX d) | None => no_zeroed k end ->
  predict_large (pgp_predict inv k st) X mu0 sg0 = pgp_predict inv k st X.
Proof.
  intros HX H1 H2 DX HS. destruct st as [d|].
  - destruct HS as [HQ DY]. rewrite (pgp_chunk inv k d dm X HQ DX DY HX). destruct (chol (length (pX d)) (mat_at (pK d))) as [L|] eqn:EL.
    + apply large_ok; auto. intros c Hc I. rewrite (pgp_chunk inv k d dm c); eauto using separate_incl, dim_incl. now rewrite EL.
    + apply large_raise; auto. intros c Hc I. rewrite (pgp_chunk inv k d dm c); eauto using separate_incl, dim_incl. now rewrite EL.
  - assert (K : forall c, c <> [] -> pgp_predict inv k None c = Ok (map (fun _ => 0) c, map (fun x => Rmax 0 (noisy k x x)) c)).
    { intros c Hc. unfold pgp_predict. destruct (kcov_c k c c Hc HS) as [M [E H]]. rewrite E. cbn [bind]. do 2 f_equal. apply map_seq_pt. intros i Hi.
      rewrite H by auto. now rewrite same_start_refl, Nat.eqb_refl. }
    rewrite (K X HX). apply large_ok; auto.
Qed.
