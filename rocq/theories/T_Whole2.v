(** Property C185: whole histories of a preference GP with ratings and grades, removals and refused calls *)
From Coquelicot Require Import Coquelicot.
From Coq Require Import QArith Qreals Permutation.
From Coq Require Import Reals Lra Lia List.
From Verif Require Import M_Fake M_RBase M_Normal M_PrefProbit M_OrdProbit M_AbsProbit M_Acq M_GP M_Search M_Fit M_Mode S_PrefProbit S_OrdProbit S_AbsProbit S_Kernel S_GP S_Fit S_Mode P_RBase P_Normal P_AbsProbit P_Chol P_GP P_GP3 P_Search S_Search P_Fit P_Fit2 P_Fit3 P_Fit4 P_Fit5 P_Mode3 P_Mode4 P_Mode5 P_Mode6 P_Mode7 P_Mode8 P_Mode9 P_Mode10 P_NormMode T_GP T_Fit T_Mode.
From Verif Require Import M_Base M_Pareto M_Store M_Kernel M_Whole S_Whole P_Whole P_Whole2.
From Verif Require Import S_Psd P_Psd.
Import ListNotations.
Local Open Scope R_scope.

(** ratings between 0 and 1, given in any number of batches: the prediction comes from a fit in which each point has its own rating *)
Theorem C185_ratings : forall c bs Q draw r, bs <> [] -> (forall b, In b bs -> length (snd b) = length (fst b) /\ forall q, In q (snd b) -> (0 <= q <= 1)%Q) ->
  snd (obj_predict c (obj_run c (new_object false) (rated_batches bs)) Q draw) = Ok r -> predicted_from c (batch_pts bs) (rated (concat (map snd bs))) Q r.
Proof. exact ratings_predict. Qed.
Print Assumptions C185_ratings.
(** positive grades likewise *)
Theorem C185_grades : forall c bs Q draw r, bs <> [] -> (forall b, In b bs -> length (snd b) = length (fst b) /\ forall z, In z (snd b) -> (0 < z)%Z) ->
  snd (obj_predict c (obj_run c (new_object false) (graded_batches bs)) Q draw) = Ok r -> predicted_from c (batch_pts bs) (graded (concat (map snd bs))) Q r.
Proof. exact grades_predict. Qed.
Print Assumptions C185_grades.
(** refuted: points can be taken out between predictions; once a model has predicted and a point without comparison is taken out, no
    prediction succeeds *)
Theorem C185_removed_refuted : forall c o Q draw r ps b i Q' draw', sRel (o_S o) = Some ps ->
  (forall d u v, In (d, u, v) ps -> (u < length (pts_of (o_S o)))%nat /\ (v < length (pts_of (o_S o)))%nat) ->
  (i < length (pts_of (o_S o)))%nat -> (forall d u v, In (d, u, v) ps -> u <> i /\ v <> i) -> snd (obj_predict c o Q draw) = Ok r ->
  snd (obj_predict c (obj_step c (fst (obj_predict c o Q draw)) (CStore (ORemove b))) Q' draw') = Raise ValueError.
Proof. exact removed_predict. Qed.
Print Assumptions C185_removed_refuted.
(** refuted: after a reset old data have no influence; when as many points as before are given with ratings that are refused, the next
    prediction combines the new points with the values fitted to the old ones *)
Theorem C185_refused_refuted : forall c o Q draw r X' Q' draw', sX (o_S o) <> None -> snd (obj_predict c o Q draw) = Ok r -> length X' = length (pts_of (o_S o)) ->
  exists f, o_fit (fst (obj_predict c o Q draw)) = Some f /\
    snd (obj_predict c (obj_run c (fst (obj_predict c o Q draw)) [CStore OReset; CStore (OAdd X' LAbsOther)]) Q' draw') =
      pgp_predict (c_inv' c) (c_k c) (Some (Build_pgp_data (map (map Q2R) X') (f_F f) (f_W f) (f_K f))) Q'.
Proof. exact refused_predict. Qed.
Print Assumptions C185_refused_refuted.

(** ---- examples: three points on the axes, a linear kernel ---- *)
Definition a_rows : list row := [[1; 0; 0]; [0; 1; 0]; [0; 0; 1]]%Q.
Definition a_conf : gp_config := mkConfig sp_ex ex_k ex_P safe_inv gram_inv (2 / 10000) 100.
Definition a_Q : list point := [[1; 1; 1]].
Lemma a_pts : map (map Q2R) a_rows = [[1; 0; 0]; [0; 1; 0]; [0; 0; 1]].
Proof. unfold a_rows, Q2R. cbn. repeat f_equal; lra. Qed.
(** a model with these points and labels that can be evaluated answers *)
Lemma a_answers o y : sX (o_S o) = Some a_rows -> sOpt (o_S o) = false -> train_labels (o_S o) = y -> (forall F, exists d, derivatives sp_ex ex_P y F = Ok d) -> exists r, snd (obj_predict a_conf o a_Q (fun _ => 0)) = Ok r.
Proof.
  intros HX HO HL HD. assert (TP : forall s, sX s = Some a_rows -> train_pts s = [[1; 0; 0]; [0; 1; 0]; [0; 0; 1]]) by (intros s E; unfold train_pts, pts_of; rewrite E; exact a_pts).
  set (Y := [[1; 0; 0]; [0; 1; 0]; [0; 0; 1]]) in *. assert (NY : Y <> []) by discriminate. destruct (kcov_c ex_k Y Y NY I) as [K [EK _]].
  assert (HK : forall i j, (i < 3)%nat -> (j < 3)%nat -> unit_prior i j = mat_at K i j).
  { intros i j Hi Hj. rewrite (stored_K ex_k Y K I NY EK i j Hi Hj). destruct i as [|[|[|i]]], j as [|[|[|j]]]; try lia; unfold train_cov, unit_prior, ex_k; cbn [Nat.eqb noisy kcall pt nth Y]; unfold lin_call; cbn; lra. }
  assert (SK : symmetric 3 (mat_at K)) by (intros i j Hi Hj; rewrite <- !HK by assumption; now apply (unit_sym 3)).
  assert (PK : pd 3 (mat_at K)) by (apply (pd_ext 3 unit_prior); [exact HK|apply unit_pd]).
  assert (IB : right_inverse 3 (mat_at K) unit_prior) by (apply (right_inverse_ext 3 unit_prior); [exact HK|apply unit_inverse]).
  assert (MS : forall L F, exists F', mode_step sp_ex ex_P y 3 L safe_inv F = Ok F') by (intros L F; unfold mode_step; destruct (HD (entries F)) as [d ->]; cbn [bind]; eexists; reflexivity).
  assert (FT : exists k F, length F = 3%nat /\ fit_mode sp_ex ex_P y 3 (mat_at K) safe_inv (2 / 10000) 100 (map (fun _ => 0) (seq 0 3)) = Ok (k, F)).
  { unfold fit_mode. destruct (chol_complete 3 (mat_at K) SK PK) as [L ->].
    destruct (find_mode_spec (fun _ => mode_step sp_ex ex_P y 3 L safe_inv) (fun F_new F => Rltb (2 / 10000) (f_err F_new F)) true (map (fun _ => 0) (seq 0 3)) 100) as [H _].
    destruct (find_mode _ _ _ _ _ _) as [[k F]|e] eqn:EF; [|destruct H as [k [F [_ [_ E]]]]; destruct (MS L F) as [F' E']; congruence].
    exists k, F. split; [|reflexivity]. destruct H as [_ [A _]]. clear EF. induction A as [|k v v' A IH E]; [reflexivity|]. exact (mode_step_length sp_ex ex_P y 3 L safe_inv v v' IH E). }
  destruct FT as [k [F [LF EF]]]. destruct (HD (entries F)) as [d ED].
  set (W := map (fun i => map (fst (fst d) i) (seq 0 3)) (seq 0 3)).
  assert (EO : fit_object a_conf (o_S o) (fun _ => 0) = Ok (mkFit F W K k)).
  { unfold fit_object. rewrite (TP _ HX), HL. cbn [a_conf c_k c_sp c_P c_inv c_delta_f c_maxloops]. cbv zeta. rewrite EK. cbn [bind]. change (length Y) with 3%nat. rewrite EF. cbn [bind fst snd]. rewrite ED. reflexivity. }
  destruct (predict_form gram_inv ex_k (Build_pgp_data Y F W K) 3 a_Q unit_prior) as [mu [var [E _]]]; try assumption; try discriminate.
  - left. exact I.
  - intros x [<- |[]]. reflexivity.
  - intros x [<- |[<- |[<- |[]]]]; reflexivity.
  - exists (mu, var). unfold obj_predict. rewrite HX, HO, EO. cbn [snd]. unfold use_fit. cbn [o_fit o_S f_F f_W f_K]. change (train_pts (set_opt (o_S o) true)) with (train_pts (o_S o)). rewrite (TP _ HX), LF. exact E.
Qed.
Lemma smooth_total y : y_ord y = None -> forall F, exists d, derivatives sp_ex ex_P y F = Ok d.
Proof. intros E F. unfold derivatives. rewrite E. cbn [bind]. eexists. reflexivity. Qed.
Lemma a_smooth o : sX (o_S o) = Some a_rows -> sOpt (o_S o) = false -> y_ord (train_labels (o_S o)) = None -> exists r, snd (obj_predict a_conf o a_Q (fun _ => 0)) = Ok r.
Proof. intros A B C. exact (a_answers o _ A B eq_refl (smooth_total _ C)). Qed.
Definition a_ratings : list (list row * list Q) := [([[1; 0; 0]; [0; 1; 0]], [0; (1 # 2)]); ([[0; 0; 1]], [1])]%Q.
Example C185_ratings_ex : exists r, snd (obj_predict a_conf (obj_run a_conf (new_object false) (rated_batches a_ratings)) a_Q (fun _ => 0)) = Ok r /\
  predicted_from a_conf (batch_pts a_ratings) (mkLabels None None (Some [(1 / 1000, 0%nat); (1 / 2, 1%nat); (999 / 1000, 2%nat)])) a_Q r.
Proof.
  destruct (a_smooth (obj_run a_conf (new_object false) (rated_batches a_ratings)) eq_refl eq_refl eq_refl) as [r E]. exists r. split; [exact E|].
  apply C185_ratings in E; [|discriminate|].
  - unfold rated in E. cbn [a_ratings map snd concat app length seq combine] in E. unfold Q2R in E. cbn [Qnum Qden] in E.
    replace (Rmin (999 / 1000) (Rmax (1 / 1000) (0 * / 1))) with (1 / 1000) in E by (rewrite Rmax_left, Rmin_right; lra).
    replace (Rmin (999 / 1000) (Rmax (1 / 1000) (1 * / 2))) with (1 / 2) in E by (rewrite Rmax_right, Rmin_right; lra).
    replace (Rmin (999 / 1000) (Rmax (1 / 1000) (1 * / 1))) with (999 / 1000) in E by (rewrite Rmax_right, Rmin_left; lra). exact E.
  - intros b [<- |[<- |[]]]; (split; [reflexivity|]); [intros q [<- |[<- |[]]]|intros q [<- |[]]]; split; discriminate.
Qed.
Definition a_grades : list (list row * list Z) := [([[1; 0; 0]]%Q, [2]%Z); ([[0; 1; 0]; [0; 0; 1]]%Q, [1; 2]%Z)].
Lemma a_graded F : exists d, derivatives sp_ex ex_P (graded [2; 1; 2]%Z) F = Ok d.
Proof. unfold derivatives. cbn [y_ord graded y_rel]. unfold ord_derivatives. destruct (likelihood_each _ _ F) as [l|e] eqn:E; [cbn [bind]; eexists; reflexivity|]. exfalso. revert E. cbn. discriminate. Qed.
Example C185_grades_ex : exists r, snd (obj_predict a_conf (obj_run a_conf (new_object false) (graded_batches a_grades)) a_Q (fun _ => 0)) = Ok r /\
  predicted_from a_conf (batch_pts a_grades) (mkLabels None (Some [(2, 0); (1, 1); (2, 2)]%nat) None) a_Q r.
Proof.
  destruct (a_answers (obj_run a_conf (new_object false) (graded_batches a_grades)) (graded [2; 1; 2]%Z) eq_refl eq_refl eq_refl a_graded) as [r E]. exists r. split; [exact E|].
  apply C185_grades in E; [exact E|discriminate|]. intros b [<- |[<- |[]]]; (split; [reflexivity|]); [intros z [<- |[]]|intros z [<- |[<- |[]]]]; reflexivity.
Qed.
(** the third point has no comparison; after the prediction it is taken out *)
Definition a_object : gp_object := obj_run a_conf (new_object false) [CStore (OAdd a_rows (LRel [(1%Z, 0%nat, 1%nat)]))].
Example C185_removed_ex : exists r, snd (obj_predict a_conf a_object a_Q (fun _ => 0)) = Ok r /\
  snd (obj_predict a_conf (obj_step a_conf (fst (obj_predict a_conf a_object a_Q (fun _ => 0))) (CStore (ORemove false))) a_Q (fun _ => 0)) = Raise ValueError.
Proof.
  destruct (a_smooth a_object eq_refl eq_refl eq_refl) as [r E]. exists r. split; [exact E|].
  apply (C185_removed_refuted a_conf a_object a_Q (fun _ => 0) r [(1%Z, 0%nat, 1%nat)] false 2 a_Q (fun _ => 0) eq_refl); [|cbn; lia| |exact E]; intros d u v [H|[]]; injection H as <- <- <-; cbn; lia.
Qed.
Example C185_refused_ex : exists r f, snd (obj_predict a_conf a_object a_Q (fun _ => 0)) = Ok r /\ o_fit (fst (obj_predict a_conf a_object a_Q (fun _ => 0))) = Some f /\
  snd (obj_predict a_conf (obj_run a_conf (fst (obj_predict a_conf a_object a_Q (fun _ => 0))) [CStore OReset; CStore (OAdd [[5; 5; 5]; [6; 6; 6]; [7; 7; 7]]%Q LAbsOther)]) a_Q (fun _ => 0)) =
    pgp_predict gram_inv ex_k (Some (Build_pgp_data (map (map Q2R) [[5; 5; 5]; [6; 6; 6]; [7; 7; 7]]%Q) (f_F f) (f_W f) (f_K f))) a_Q.
Proof.
  destruct (a_smooth a_object eq_refl eq_refl eq_refl) as [r E]. 
  destruct (C185_refused_refuted a_conf a_object a_Q (fun _ => 0) r [[5; 5; 5]; [6; 6; 6]; [7; 7; 7]]%Q a_Q (fun _ => 0) ltac:(discriminate) E eq_refl) as [f [F1 F2]]. exists r, f. auto.
Qed.
