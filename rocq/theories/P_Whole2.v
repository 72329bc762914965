(** Histories of a preference GP with ratings and grades, with removals and with refused calls. *)
From Coq Require Import QArith Qreals.
From Coq Require Import Reals Lra Lia List Bool.
From Verif Require Import M_Base M_RBase M_Pareto M_Store M_Kernel M_GP M_Fit M_Mode M_Whole S_Whole P_Base P_Whole.
Import ListNotations.
Local Open Scope R_scope.

Lemma clamp_R q : Q2R (clamp q) = Rmin (999 / 1000) (Rmax (1 / 1000) (Q2R q)).
Proof.
  assert (A : Q2R (1 # 1000) = 1 / 1000) by (unfold Q2R; cbn; lra). assert (B : Q2R (999 # 1000) = 999 / 1000) by (unfold Q2R; cbn; lra).
  assert (L : forall x y, Qlt_bool x y = true -> Q2R x < Q2R y) by (intros x y H; apply Qlt_Rlt; now apply Qlt_bool_iff).
  assert (G : forall x y, Qlt_bool x y = false -> Q2R y <= Q2R x). { intros x y H. apply Qle_Rle, Qnot_lt_le. intro N. apply Qlt_bool_iff in N. congruence. }
  unfold clamp. destruct (Qlt_bool q (1 # 1000)) eqn:E1.
  - apply L in E1. rewrite A in E1. rewrite (Rmax_left (1 / 1000)) by lra. destruct (Qlt_bool (999 # 1000) (1 # 1000)) eqn:E2; [apply L in E2; lra|]. rewrite A, Rmin_right; lra.
  - apply G in E1. rewrite A in E1. rewrite (Rmax_right (1 / 1000)) by lra. destruct (Qlt_bool (999 # 1000) q) eqn:E2.
    + apply L in E2. rewrite B in *. rewrite Rmin_left; lra.
    + apply G in E2. rewrite B in E2. rewrite Rmin_right; lra.
Qed.

(** ---- ratings ---- *)
Definition rates (s : store) (X : list row) (v : list Q) : Prop :=
  pts_of s = X /\ sX s <> None /\ sRel s = None /\ sOrd s = None /\ sAbs s = Some (map clamp v, seq 0 (length X)) /\ length v = length X /\ sPareto s = false /\ sOpt s = false.
Definition unit_ratings (v : list Q) : Prop := forall q, In q v -> (0 <= q <= 1)%Q.
Lemma unit_passes v : unit_ratings v -> (existsb (fun x => Qlt_bool x 0) v || existsb (fun x => Qlt_bool 1 x) v)%bool = false.
Proof.
  intro H. apply orb_false_iff. split.
  - destruct (existsb _ v) eqn:E; [|reflexivity]. apply existsb_exists in E. destruct E as [q [I1 I2]]. apply Qlt_bool_iff in I2. destruct (H q I1) as [A _]. exfalso. exact (Qlt_not_le _ _ I2 A).
  - destruct (existsb _ v) eqn:E; [|reflexivity]. apply existsb_exists in E. destruct E as [q [I1 I2]]. apply Qlt_bool_iff in I2. destruct (H q I1) as [_ A]. exfalso. exact (Qlt_not_le _ _ I2 A).
Qed.
Lemma rates_first X v : length v = length X -> unit_ratings v -> rates (fst (add (init false) X (LAbs v))) X v.
Proof.
  intros L U. unfold add. cbn [add_labels]. unfold add_abs. rewrite (unit_passes v U). unfold append_abs, add_pareto. cbn. rewrite L. repeat split; auto. discriminate.
Qed.
Lemma rates_more s X v X' v' : rates s X v -> length v' = length X' -> unit_ratings v' -> rates (fst (add s X' (LAbs v'))) (X ++ X') (v ++ v').
Proof.
  intros [H1 [H2 [H3 [H4 [H5 [H6 [H7 H8]]]]]]] L U. unfold add. cbn [add_labels]. unfold add_abs. rewrite (unit_passes v' U), npts_pts, H1. unfold append_abs, add_pareto. cbn [sAbs add_points]. rewrite H5. cbn [sPareto set_abs add_points]. rewrite H7.
  cbn [andb fst]. unfold rates. cbn [set_opt set_abs add_points pts_of sX sRel sOrd sAbs sPareto sOpt]. rewrite H1, H3, H4, H7, map_app, !app_length, seq_app, L, H6. cbn [Nat.add]. repeat split; auto. discriminate.
Qed.
Lemma rates_run c : forall bs o X v, rates (o_S o) X v -> (forall b, In b bs -> length (snd b) = length (fst b) /\ unit_ratings (snd b)) ->
  rates (o_S (obj_run c o (rated_batches bs))) (X ++ concat (map fst bs)) (v ++ concat (map snd bs)).
Proof.
  induction bs as [|[X' v'] bs IH]; intros o X v H HB; cbn [rated_batches map concat fst snd]; [now rewrite !app_nil_r|].
  unfold obj_run. cbn [fold_left obj_step step]. destruct (HB _ (or_introl eq_refl)) as [L U]. cbn [fst snd] in L, U. rewrite !app_assoc. apply (IH (mkObject (fst (add (o_S o) X' (LAbs v'))) (o_fit o))); [|intros b Hb; apply HB; now right].
  cbn [o_S]. now apply rates_more.
Qed.
Lemma rated_labels s X v : rates s X v -> train_labels s = rated v.
Proof.
  intros [_ [_ [H3 [H4 [H5 [H6 _]]]]]]. unfold train_labels, rated. rewrite H3, H4, H5. cbn [option_map fst snd]. rewrite map_map, H6. do 3 f_equal. apply map_ext. intro q. apply clamp_R.
Qed.
(** a model that is not optimised predicts from a fit to its data *)
Lemma predict_stale c o Q draw r : sX (o_S o) <> None -> sOpt (o_S o) = false -> snd (obj_predict c o Q draw) = Ok r -> predicted_from c (train_pts (o_S o)) (train_labels (o_S o)) Q r.
Proof.
  intros HX HO. unfold obj_predict. destruct (sX (o_S o)) as [Y|]; [clear HX|congruence]. rewrite HO. destruct (fit_object c (o_S o) draw) as [f|e] eqn:EF; cbn [snd]; [|discriminate].
  unfold use_fit. cbn [o_fit o_S]. change (train_pts (set_opt (o_S o) true)) with (train_pts (o_S o)). destruct (Nat.eqb _ _); [|discriminate]. intro E.
  unfold fit_object in EF. cbv zeta in EF. destruct (kcov _ _ _) as [K|] eqn:EK; [|discriminate]. cbn [bind] in EF. destruct (fit_mode _ _ _ _ _ _ _ _ _) as [[k F]|] eqn:EM; [|discriminate]. cbn [bind fst snd] in EF.
  destruct (derivatives _ _ _ _) as [d|]; [|discriminate]. cbn [bind] in EF. injection EF as <-. cbn [f_F f_W f_K] in E. exists K. eexists. exists F, k, draw. split; [exact EK|]. split; [exact EM|]. exact E.
Qed.
Lemma ratings_predict c bs Q draw r : bs <> [] -> (forall b, In b bs -> length (snd b) = length (fst b) /\ forall q, In q (snd b) -> (0 <= q <= 1)%Q) ->
  snd (obj_predict c (obj_run c (new_object false) (rated_batches bs)) Q draw) = Ok r -> predicted_from c (batch_pts bs) (rated (concat (map snd bs))) Q r.
Proof.
  intros NB HB E. destruct bs as [|[X v] bs]; [congruence|]. destruct (HB _ (or_introl eq_refl)) as [L U]. cbn [fst snd] in L, U.
  assert (H : rates (o_S (obj_run c (new_object false) (rated_batches ((X, v) :: bs)))) (X ++ concat (map fst bs)) (v ++ concat (map snd bs))).
  { unfold obj_run. cbn [rated_batches map fold_left obj_step step fst snd]. apply (rates_run c bs (mkObject (fst (add (init false) X (LAbs v))) None)); [|intros b Hb; apply HB; now right]. now apply rates_first. }
  assert (HL := rated_labels _ _ _ H). destruct H as [H1 [H2 [_ [_ [_ [_ [_ H8]]]]]]]. apply predict_stale in E; [|exact H2|exact H8]. rewrite HL in E. unfold train_pts in E. rewrite H1 in E. exact E.
Qed.

(** ---- grades ---- *)
Definition grades (s : store) (X : list row) (y : list Z) : Prop :=
  pts_of s = X /\ sX s <> None /\ sRel s = None /\ sAbs s = None /\ sOrd s = Some (y, seq 0 (length X)) /\ length y = length X /\ sPareto s = false /\ sOpt s = false.
Lemma grades_pass y : (forall z, In z y -> (0 < z)%Z) -> existsb (fun x => (x <=? 0)%Z) y = false.
Proof. intro H. destruct (existsb _ y) eqn:E; [|reflexivity]. apply existsb_exists in E. destruct E as [z [I1 I2]]. apply Z.leb_le in I2. specialize (H z I1). lia. Qed.
Lemma shifted_seq n k : map (fun i => (i + n)%nat) (seq 0 k) = seq n k.
Proof. apply nth_ext with (d := (0 + n)%nat) (d' := 0%nat); rewrite map_length, !seq_length; [reflexivity|]. intros i Hi. rewrite (map_nth (fun i => (i + n)%nat)), !seq_nth by exact Hi. lia. Qed.
Lemma grades_first X y : length y = length X -> (forall z, In z y -> (0 < z)%Z) -> grades (fst (add (init false) X (LOrd y))) X y.
Proof.
  intros L U. unfold add. cbn [add_labels]. unfold add_ord. rewrite (grades_pass y U), shifted_seq. unfold append_ord, add_pareto. cbn. rewrite L. repeat split; auto. discriminate.
Qed.
Lemma grades_more s X y X' y' : grades s X y -> length y' = length X' -> (forall z, In z y' -> (0 < z)%Z) -> grades (fst (add s X' (LOrd y'))) (X ++ X') (y ++ y').
Proof.
  intros [H1 [H2 [H3 [H4 [H5 [H6 [H7 H8]]]]]]] L U. unfold add. cbn [add_labels]. unfold add_ord. rewrite (grades_pass y' U), shifted_seq, npts_pts, H1. unfold append_ord, add_pareto. cbn [sOrd add_points]. rewrite H5. cbn [sPareto set_ord add_points]. rewrite H7.
  cbn [andb fst]. unfold grades. cbn [set_opt set_ord add_points pts_of sX sRel sOrd sAbs sPareto sOpt]. rewrite H1, H3, H4, H7, !app_length, seq_app, L, H6. cbn [Nat.add]. repeat split; auto. discriminate.
Qed.
Lemma grades_run c : forall bs o X y, grades (o_S o) X y -> (forall b, In b bs -> length (snd b) = length (fst b) /\ forall z, In z (snd b) -> (0 < z)%Z) ->
  grades (o_S (obj_run c o (graded_batches bs))) (X ++ concat (map fst bs)) (y ++ concat (map snd bs)).
Proof.
  induction bs as [|[X' y'] bs IH]; intros o X y H HB; cbn [graded_batches map concat fst snd]; [now rewrite !app_nil_r|].
  unfold obj_run. cbn [fold_left obj_step step]. destruct (HB _ (or_introl eq_refl)) as [L U]. cbn [fst snd] in L, U. rewrite !app_assoc. apply (IH (mkObject (fst (add (o_S o) X' (LOrd y'))) (o_fit o))); [|intros b Hb; apply HB; now right].
  cbn [o_S]. now apply grades_more.
Qed.
Lemma grades_predict c bs Q draw r : bs <> [] -> (forall b, In b bs -> length (snd b) = length (fst b) /\ forall z, In z (snd b) -> (0 < z)%Z) ->
  snd (obj_predict c (obj_run c (new_object false) (graded_batches bs)) Q draw) = Ok r -> predicted_from c (batch_pts bs) (graded (concat (map snd bs))) Q r.
Proof.
  intros NB HB E. destruct bs as [|[X y] bs]; [congruence|]. destruct (HB _ (or_introl eq_refl)) as [L U]. cbn [fst snd] in L, U.
  assert (H : grades (o_S (obj_run c (new_object false) (graded_batches ((X, y) :: bs)))) (X ++ concat (map fst bs)) (y ++ concat (map snd bs))).
  { unfold obj_run. cbn [graded_batches map fold_left obj_step step fst snd]. apply (grades_run c bs (mkObject (fst (add (init false) X (LOrd y))) None)); [|intros b Hb; apply HB; now right]. now apply grades_first. }
  destruct H as [H1 [H2 [H3 [H4 [H5 [H6 [_ H8]]]]]]]. apply predict_stale in E; [|exact H2|exact H8]. unfold train_labels, train_pts in E. rewrite H1, H3, H4, H5, <- H6 in E. exact E.
Qed.

(** ---- points taken out after a fit ---- *)
Lemma fitted_state c o Q draw r : sX (o_S o) <> None -> snd (obj_predict c o Q draw) = Ok r ->
  exists f, o_fit (fst (obj_predict c o Q draw)) = Some f /\ length (f_F f) = length (pts_of (o_S o)) /\ sOpt (o_S (fst (obj_predict c o Q draw))) = true /\
    sX (o_S (fst (obj_predict c o Q draw))) = sX (o_S o) /\ sRel (o_S (fst (obj_predict c o Q draw))) = sRel (o_S o).
Proof.
  intro HX. unfold obj_predict. destruct (sX (o_S o)) as [Y|] eqn:EX; [clear HX|congruence].
  assert (U : forall o', pts_of (o_S o') = pts_of (o_S o) -> use_fit c o' Q = Ok r -> exists f, o_fit o' = Some f /\ length (f_F f) = length (pts_of (o_S o))).
  { intros o' E. unfold use_fit. destruct (o_fit o') as [f|]; [|discriminate]. destruct (Nat.eqb _ _) eqn:B; [|discriminate]. intros _. exists f. split; [reflexivity|]. apply Nat.eqb_eq in B. rewrite B. unfold train_pts. now rewrite map_length, E. }
  destruct (sOpt (o_S o)) eqn:EO; cbn [fst snd].
  - intro E. destruct (U o eq_refl E) as [f [A B]]. exists f. auto.
  - destruct (fit_object c (o_S o) draw) as [f|e]; cbn [fst snd]; [|discriminate]. intro E. destruct (U (mkObject (set_opt (o_S o) true) (Some f)) eq_refl E) as [g [A B]]. exists g. repeat split; auto.
Qed.
Lemma len_enum {A} (X : list A) : forall k, length (enumerate_from k X) = length X.
Proof. induction X as [|x X IH]; intro k; cbn; [reflexivity|now rewrite IH]. Qed.
Lemma keep_shorter ps X i : (i < length X)%nat -> mentioned ps i = false -> (length (keep_rows ps X) < length X)%nat.
Proof.
  intros Hi HM. unfold keep_rows. rewrite map_length. unfold enumerate.
  assert (G : forall (X : list row) k, (k <= i < k + length X)%nat -> (length (filter (fun ir : nat * row => mentioned ps (fst ir)) (enumerate_from k X)) < length X)%nat).
  { induction X0 as [|x X0 IH]; intros k H; cbn [length] in H; [lia|]. cbn [length enumerate_from filter fst]. assert (LE : (length (filter (fun ir : nat * row => mentioned ps (fst ir)) (enumerate_from (S k) X0)) <= length X0)%nat).
    { assert (A : forall (l : list (nat * row)), (length (filter (fun ir : nat * row => mentioned ps (fst ir)) l) <= length l)%nat) by (induction l as [|a l IHl]; cbn; [lia|destruct (mentioned ps (fst a)); cbn; lia]). specialize (A (enumerate_from (S k) X0)). rewrite len_enum in A. lia. }
    destruct (Nat.eq_dec k i) as [->|N]; [rewrite HM; lia|]. specialize (IH (S k) ltac:(lia)). destruct (mentioned ps k); cbn [length]; lia. }
  apply (G X 0%nat). lia.
Qed.
Lemma removed_predict c o Q draw r ps b i Q' draw' : sRel (o_S o) = Some ps -> (forall d u v, In (d, u, v) ps -> (u < length (pts_of (o_S o)))%nat /\ (v < length (pts_of (o_S o)))%nat) ->
  (i < length (pts_of (o_S o)))%nat -> (forall d u v, In (d, u, v) ps -> u <> i /\ v <> i) -> snd (obj_predict c o Q draw) = Ok r ->
  snd (obj_predict c (obj_step c (fst (obj_predict c o Q draw)) (CStore (ORemove b))) Q' draw') = Raise ValueError.
Proof.
  intros HR HI Hi HN E. assert (HX : sX (o_S o) <> None) by (intro N; unfold pts_of in Hi; rewrite N in Hi; cbn in Hi; lia).
  destruct (fitted_state c o Q draw r HX E) as [f [F1 [F2 [F3 [F4 F5]]]]]. set (o1 := fst (obj_predict c o Q draw)) in *. clearbody o1. clear E r.
  destruct (sX (o_S o)) as [X|] eqn:EX; [clear HX|congruence]. assert (EP : pts_of (o_S o) = X) by (unfold pts_of; now rewrite EX). rewrite EP in *.
  assert (M : mentioned ps i = false). { unfold mentioned. destruct (existsb _ ps) eqn:B; [|reflexivity]. apply existsb_exists in B. destruct B as [[[d u] v] [I1 I2]]. destruct (HN d u v I1) as [A1 A2]. apply orb_true_iff in I2. destruct I2 as [I2|I2]; apply Nat.eqb_eq in I2; congruence. }
  assert (K := keep_shorter ps X i Hi M).
  assert (R : forallb (pair_in_range (length X)) ps = true). { apply forallb_forall. intros [[d u] v] I1. destruct (HI d u v I1) as [A1 A2]. cbn. apply andb_true_iff. split; now apply Nat.ltb_lt. }
  assert (S : exists s', fst (step (o_S o1) (ORemove b)) = s' /\ sX s' = Some (keep_rows ps X) /\ sOpt s' = true).
  { cbn [step]. unfold remove_without_reference. rewrite F4, F5, HR, R. cbv zeta. destruct b; [destruct (sPrior (o_S o1)) as [[x y]|]|]; cbn [fst]; eexists; (split; [reflexivity|]); cbn; auto. }
  destruct S as [s' [S1 [S2 S3]]]. cbn [obj_step]. rewrite S1. unfold obj_predict. cbn [o_S]. rewrite S2, S3. cbn [snd]. unfold use_fit. cbn [o_fit o_S]. rewrite F1. unfold train_pts, pts_of. rewrite S2, map_length, F2.
  assert (B : Nat.eqb (length X) (length (keep_rows ps X)) = false) by (apply Nat.eqb_neq; intro B; rewrite B in K; exact (Nat.lt_irrefl _ K)).
  match goal with |- context [Nat.eqb ?a ?b] => change (Nat.eqb a b) with (Nat.eqb (length X) (length (keep_rows ps X))) end. now rewrite B.
Qed.
(** ---- a refused call after a reset ---- *)
Lemma refused_predict c o Q draw r X' Q' draw' : sX (o_S o) <> None -> snd (obj_predict c o Q draw) = Ok r -> length X' = length (pts_of (o_S o)) ->
  exists f, o_fit (fst (obj_predict c o Q draw)) = Some f /\
    snd (obj_predict c (obj_run c (fst (obj_predict c o Q draw)) [CStore OReset; CStore (OAdd X' LAbsOther)]) Q' draw') =
      pgp_predict (c_inv' c) (c_k c) (Some (Build_pgp_data (map (map Q2R) X') (f_F f) (f_W f) (f_K f))) Q'.
Proof.
  intros HX E L. destruct (fitted_state c o Q draw r HX E) as [f [F1 [F2 [F3 [F4 F5]]]]]. exists f. split; [exact F1|]. set (o1 := fst (obj_predict c o Q draw)) in *. clearbody o1.
  unfold obj_run. cbn [fold_left obj_step step fst o_S o_fit]. set (s := fst (add (reset (o_S o1)) X' LAbsOther)). assert (A1 : sX s = Some X') by reflexivity. assert (A2 : sOpt s = true) by exact F3. clearbody s.
  unfold obj_predict. cbn [o_S]. rewrite A1, A2. cbn [snd]. unfold use_fit. cbn [o_fit o_S]. rewrite F1. unfold train_pts, pts_of. rewrite A1, map_length, F2.
  match goal with |- context [Nat.eqb ?a ?b] => assert (B : Nat.eqb a b = true) by (apply Nat.eqb_eq; symmetry; exact L); rewrite B end. reflexivity.
Qed.
