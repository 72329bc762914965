(** Lemmas: generalised variance. *)
From Verif Require Import M_Base M_RBase M_Select M_Normal M_GP M_Acq M_OrdProbit M_HyperGrad M_PBest.
From Coquelicot Require Import Coquelicot.
From Verif Require Import P_RBase P_Select P_Det P_Det3 P_GP3 P_Psd P_PBest S_PBest S_GP S_Psd M_UCB.
From Coq Require Import Reals Lra Lia List.
Local Open Scope R_scope.

(** ---- determinant of a bordered matrix ---- *)
Lemma det_last_row n : forall A, (forall j, (j < n)%nat -> A n j = 0) -> det (S n) A = A n n * det n A.
Proof.
  induction n as [|n IH]; intros A H. { rewrite det_S. simpl. ring. }
  rewrite det_S. change (sumn (S (S n)) (fun j => (-1) ^ j * A O j * det (S n) (minor j A))) with
    (sumn (S n) (fun j => (-1) ^ j * A O j * det (S n) (minor j A)) + (-1) ^ (S n) * A O (S n) * det (S n) (minor (S n) A)).
  rewrite (IH (minor (S n) A)).
  2:{ intros j Hj. unfold minor, skip. destruct (Nat.ltb_spec j (S n)); [|lia]. apply H. lia. }
  assert (Z : minor (S n) A n n = 0). { unfold minor, skip. destruct (Nat.ltb_spec n (S n)); [|lia]. apply H. lia. }
  rewrite Z. rewrite (sumn_ext (S n) _ (fun j => A (S n) (S n) * ((-1) ^ j * A O j * det n (minor j A)))).
  - rewrite sumn_scale, <- det_S. ring.
  - intros j Hj. rewrite (IH (minor j A)).
    + replace (minor j A n n) with (A (S n) (S n)). ring. unfold minor, skip. destruct (Nat.ltb_spec n j); [lia|auto].
    + intros c Hc. unfold minor. apply H. unfold skip. destruct (Nat.ltb_spec c j); lia.
Qed.
Lemma det_border n A x : (forall c, (c < n)%nat -> sumn n (fun k => x k * A k c) = A n c) ->
  det (S n) A = (A n n - sumn n (fun k => x k * A k n)) * det n A.
Proof.
  intro H. set (r := fun c => A n c - sumn n (fun k => x k * A k c)).
  transitivity (det (S n) (row_set A n r)).
  - symmetry. rewrite (det_row_ext (S n) A n r (fun c => (-1) * (sumn n (fun k => x k * A k c)) + A n c)) by (intros c _; unfold r; ring).
    rewrite (det_linear (S n) A n (-1)) by lia. rewrite det_row_sum by lia. rewrite row_set_same.
    rewrite sumn_zero; [ring|]. intros k Hk. rewrite det_row_copy by lia. destruct (Nat.eqb_spec n k); [lia|ring].
  - rewrite det_last_row.
    + unfold row_set at 1. rewrite Nat.eqb_refl. unfold r. f_equal. apply det_ext. intros i j Hi _. unfold row_set.
      destruct (Nat.eqb_spec i n); [lia|auto].
    + intros j Hj. unfold row_set. rewrite Nat.eqb_refl. unfold r. rewrite H by auto. ring.
Qed.
Lemma pd_add_eps n A eps : 0 < eps -> psd n A -> pd n (fun i j => A i j + (if Nat.eqb i j then eps else 0)).
Proof.
  intros He HP c [i [Hi Hc]]. rewrite qform_plus. assert (P := HP c).
  assert (Q : qform n (fun i j => if Nat.eqb i j then eps else 0) c = sumn n (fun i => eps * c i ^ 2)).
  { unfold qform. apply sumn_ext. intros a Ha. rewrite (sumn_single n _ a Ha). { rewrite Nat.eqb_refl. ring. }
    intros b _ Hb. rewrite (proj2 (Nat.eqb_neq a b)) by auto. ring. }
  rewrite Q. assert (0 < sumn n (fun i => eps * c i ^ 2)); [|lra].
  apply Rlt_le_trans with (eps * c i ^ 2). { apply Rmult_lt_0_compat; auto. apply pow2_gt_0; auto. }
  assert (L : forall m, (i < m)%nat -> eps * c i ^ 2 <= sumn m (fun i => eps * c i ^ 2)).
  { intros m. induction m as [|m IHm]; intro Hm; [lia|]. cbn [sumn]. assert (0 <= eps * c m ^ 2) by (apply Rmult_le_pos; [lra|apply pow2_ge_0]).
    destruct (Nat.eq_dec i m) as [->|N].
    - assert (0 <= sumn m (fun i => eps * c i ^ 2)) by (apply sumn_nonneg; intros k _; apply Rmult_le_pos; [lra|apply pow2_ge_0]). lra.
    - assert (eps * c i ^ 2 <= sumn m (fun i => eps * c i ^ 2)) by (apply IHm; lia). lra. }
  now apply L.
Qed.
Lemma psd_det n A : symmetric n A -> psd n A -> 0 <= det n A.
Proof.
  intros HS HP. destruct (Rle_or_lt 0 (det n A)) as [L|L]; auto. exfalso.
  set (B := fun (t : R) i j => A i j + (if Nat.eqb i j then t else 0)).
  assert (D : exists l, is_derive (fun t => det n (B t)) 0 l).
  { eexists. apply (det_derive n B (fun i j => if Nat.eqb i j then 1 else 0) 0). intros i j _ _. unfold B. destruct (Nat.eqb i j).
    - auto_derive; auto.
    - auto_derive; auto. }
  destruct D as [l D]. assert (C : continuous (fun t => det n (B t)) 0) by exact (ex_derive_continuous (K:=R_AbsRing) (V:=R_NormedModule) (fun t => det n (B t)) 0 (ex_intro _ l D)).
  assert (E0 : det n (B 0) = det n A). { apply det_ext. intros i j _ _. unfold B. destruct (Nat.eqb i j); ring. }
  assert (N : locally 0 (fun t => det n (B t) < 0)).
  { apply (C (fun y => y < 0)). rewrite E0. apply (open_lt 0). exact L. }
  destruct N as [eps N]. assert (He := cond_pos eps). assert (K := N (eps / 2)).
  assert (P : 0 < det n (B (eps / 2))).
  { apply pd_det. - intros i j Hi Hj. unfold B. rewrite (HS i j Hi Hj). rewrite Nat.eqb_sym. auto. - apply pd_add_eps; auto. lra. }
  assert (det n (B (eps / 2)) < 0); [|lra]. apply K. unfold ball. simpl. unfold AbsRing_ball, abs, minus, plus, opp. simpl.
  replace (eps / 2 + - 0) with (eps / 2) by ring. rewrite Rabs_right; lra.
Qed.

(** ---- roots ---- *)
Lemma root_pow d k : 0 <= d -> real_power d (1 / (INR k + 1)) ^ (S k) = d /\ 0 <= real_power d (1 / (INR k + 1)).
Proof.
  intro H. unfold real_power. destruct (Rltb 0 d) eqn:E.
  - apply Rltb_true in E. split; [|left; apply exp_pos]. rewrite <- Rpower_pow by apply exp_pos. rewrite Rpower_mult. rewrite S_INR.
    assert (0 <= INR k) by apply pos_INR. replace (1 / (INR k + 1) * (INR k + 1)) with 1 by (field; lra). now apply Rpower_1.
  - apply Rltb_false in E. assert (d = 0) by lra. subst d. split; [|lra]. simpl. ring.
Qed.
Lemma sub_psd N cov sel : (forall i, In i sel -> (i < N)%nat) -> symmetric N cov -> psd N cov ->
  symmetric (length sel) (sub_matrix cov sel) /\ psd (length sel) (sub_matrix cov sel).
Proof.
  intros H HS HP. assert (L : forall i, (i < length sel)%nat -> (nth i sel O < N)%nat) by (intros i Hi; apply H, nth_In; auto). split.
  - intros i j Hi Hj. apply HS; auto.
  - exact (psd_reindex N (length sel) cov (fun i => nth i sel O) L HP).
Qed.
Lemma sub_det_nonneg N cov sel : (forall i, In i sel -> (i < N)%nat) -> symmetric N cov -> psd N cov -> 0 <= det (length sel) (sub_matrix cov sel).
Proof. intros H HS HP. destruct (sub_psd N cov sel H HS HP). now apply psd_det. Qed.
Lemma gv_score_root N alpha mu cov prev idx : (forall i, In i prev -> (i < N)%nat) -> (idx < N)%nat -> symmetric N cov -> psd N cov ->
  exists b, gv_score alpha mu cov prev idx = mu idx + alpha * b /\ 0 <= b /\ b ^ S (length prev) = det (S (length prev)) (sub_matrix cov (prev ++ idx :: nil)).
Proof.
  intros Hp Hi HS HP. assert (Hd := sub_det_nonneg N cov (prev ++ idx :: nil)). rewrite app_length in Hd. simpl in Hd.
  replace (length prev + 1)%nat with (S (length prev)) in Hd by lia.
  destruct (root_pow (det (S (length prev)) (sub_matrix cov (prev ++ idx :: nil))) (length prev)) as [A B].
  { apply Hd; auto. intros i Hin. apply in_app_or in Hin. destruct Hin as [K|[<-|[]]]; auto. }
  eexists. split; [reflexivity|]. split; [exact B|exact A].
Qed.
Lemma sub_app_old (prev : list nat) idx i : (i < length prev)%nat -> nth i (prev ++ idx :: nil) O = nth i prev O.
Proof. intro H. now rewrite app_nth1. Qed.
Lemma sub_app_new (prev : list nat) idx : nth (length prev) (prev ++ idx :: nil) O = idx.
Proof. rewrite app_nth2 by lia. now rewrite Nat.sub_diag. Qed.
Lemma gv_conditional cov prev idx x : (forall i j, cov i j = cov j i) ->
  solves (length prev) (sub_matrix cov prev) (fun k => cov (nth k prev O) idx) x ->
  det (S (length prev)) (sub_matrix cov (prev ++ idx :: nil)) =
    det (length prev) (sub_matrix cov prev) * (cov idx idx - sumn (length prev) (fun k => x k * cov (nth k prev O) idx)).
Proof.
  intros HS Hx. set (n := length prev). set (A := sub_matrix cov (prev ++ idx :: nil)).
  assert (Aold : forall i j, (i < n)%nat -> (j < n)%nat -> A i j = sub_matrix cov prev i j).
  { intros i j Hi Hj. unfold A, sub_matrix. now rewrite !sub_app_old. }
  assert (Anew : forall i, (i < n)%nat -> A i n = cov (nth i prev O) idx /\ A n i = cov (nth i prev O) idx).
  { intros i Hi. unfold A, sub_matrix. unfold n. rewrite sub_app_new. fold n. rewrite sub_app_old by auto. split; auto. }
  assert (Ann : A n n = cov idx idx). { unfold A, sub_matrix, n. now rewrite sub_app_new. }
  rewrite (det_border n A x).
  - rewrite Ann. rewrite (det_ext n A (sub_matrix cov prev)) by auto. rewrite (sumn_ext n _ (fun k => x k * cov (nth k prev O) idx)); [ring|].
    intros k Hk. now rewrite (proj1 (Anew k Hk)).
  - intros c Hc. rewrite (proj2 (Anew c Hc)). rewrite <- (Hx c Hc). fold n. apply sumn_ext. intros k Hk. rewrite (Aold k c Hk Hc).
    unfold sub_matrix. rewrite (HS (nth c prev O)). ring.
Qed.
Lemma gv_duplicate alpha mu cov prev idx : In idx prev -> gv_score alpha mu cov prev idx = mu idx.
Proof.
  intro H. unfold gv_score. destruct (In_nth _ _ O H) as [i [Hi E]].
  rewrite (det_equal_rows (S (length prev)) _ i (length prev)) by (try lia; intro c; unfold sub_matrix; now rewrite sub_app_new, sub_app_old, E).
  unfold real_power. destruct (Rltb 0 0) eqn:F; [apply Rltb_true in F; lra|]. ring.
Qed.
Lemma gv_first alpha mu cov idx : 0 <= cov idx idx -> gv_score alpha mu cov nil idx = mu idx + alpha * cov idx idx.
Proof.
  intro H. unfold gv_score. cbn [length]. set (D := det 1 (sub_matrix cov (nil ++ idx :: nil))).
  assert (E : D = cov idx idx). { unfold D. rewrite det_S. unfold sub_matrix. simpl. ring. }
  destruct (root_pow D 0) as [A _]; [lra|]. cbn [pow] in A. rewrite Rmult_1_r in A. rewrite A. now rewrite E.
Qed.
Lemma gv_greedy_spec alpha mu cov indicies prev i : gv_greedy alpha mu cov indicies prev = Ok i ->
  In i indicies /\ forall j, In j indicies -> gv_score alpha mu cov prev j <= gv_score alpha mu cov prev i.
Proof.
  unfold gv_greedy. destruct (argmax Rltb (map (gv_score alpha mu cov prev) indicies)) as [k|e] eqn:E; [|discriminate]. cbn [bind]. intro G.
  apply argmax_first in E. destruct E as [Hk [M _]]. rewrite map_length in *. unfold getitem in G.
  destruct (nth_error indicies k) as [z|] eqn:Z; [|discriminate]. injection G as ->. split; [eapply nth_error_In; eauto|].
  intros j Hj. destruct (In_nth _ _ O Hj) as [a [Ha <-]]. assert (A := M a Ha). cbn beta in A.
  rewrite (nth_indep _ 0 (gv_score alpha mu cov prev O)) in A by now rewrite map_length. rewrite map_nth in A.
  rewrite (nth_indep _ 0 (gv_score alpha mu cov prev O)) in A by now rewrite map_length. rewrite map_nth in A.
  rewrite (nth_error_nth indicies k O Z) in A. exact A.
Qed.
Lemma gv_greedy_total alpha mu cov indicies prev : indicies <> nil -> exists i, gv_greedy alpha mu cov indicies prev = Ok i.
Proof.
  intro H. unfold gv_greedy. destruct (argmax Rltb (map (gv_score alpha mu cov prev) indicies)) as [k|e] eqn:E.
  - cbn [bind]. apply argmax_first in E. destruct E as [Hk _]. rewrite map_length in Hk. unfold getitem. destruct (nth_error indicies k) eqn:Z; eauto.
    apply nth_error_None in Z. lia.
  - destruct indicies; [congruence|discriminate].
Qed.
Lemma pd_solve n A b : symmetric n A -> pd n A -> exists x, solves n A b x.
Proof.
  intros HS HP. destruct (pd_inverse n A HS HP) as [B HB]. exists (fun j => sumn n (fun k => B j k * b k)). intros i Hi.
  transitivity (sumn n (fun k => sumn n (fun j => A i j * B j k) * b k)).
  - rewrite (sumn_ext n _ (fun j => sumn n (fun k => A i j * B j k * b k))) by (intros j _; rewrite <- sumn_scale; apply sumn_ext; intros; ring).
    rewrite sumn_swap. apply sumn_ext. intros k _. now rewrite sumn_scale_r.
  - rewrite (sumn_single n _ i Hi). { rewrite (HB i i Hi Hi), Nat.eqb_refl. ring. }
    intros k Hk Nk. rewrite (HB i k Hi Hk). rewrite (proj2 (Nat.eqb_neq i k)) by auto. ring.
Qed.
Lemma gv_bound N cov prev idx : (forall i, In i prev -> (i < N)%nat) -> (idx < N)%nat -> (forall i j, cov i j = cov j i) -> psd N cov ->
  pd (length prev) (sub_matrix cov prev) ->
  0 <= det (S (length prev)) (sub_matrix cov (prev ++ idx :: nil)) <= det (length prev) (sub_matrix cov prev) * cov idx idx.
Proof.
  intros Hp Hi HS HP PD. assert (S1 : symmetric N cov) by (intros i j _ _; apply HS).
  assert (S2 : symmetric (length prev) (sub_matrix cov prev)) by (intros i j _ _; apply HS). split.
  - assert (H := sub_det_nonneg N cov (prev ++ idx :: nil)). rewrite app_length in H. simpl in H. replace (length prev + 1)%nat with (S (length prev)) in H by lia.
    apply H; auto. intros i Hin. apply in_app_or in Hin. destruct Hin as [K|[<-|[]]]; auto.
  - destruct (pd_solve _ _ (fun k => cov (nth k prev O) idx) S2 PD) as [x Hx]. rewrite (gv_conditional cov prev idx x HS Hx).
    apply Rmult_le_compat_l. { left. now apply pd_det. }
    assert (Q : sumn (length prev) (fun k => x k * cov (nth k prev O) idx) = qform (length prev) (sub_matrix cov prev) x).
    { unfold qform. apply sumn_ext. intros k Hk. rewrite <- (Hx k Hk). rewrite <- sumn_scale. apply sumn_ext. intros; ring. }
    rewrite Q. assert (0 <= qform (length prev) (sub_matrix cov prev) x); [|lra]. apply (proj2 (sub_psd N cov prev Hp S1 HP)).
Qed.
Lemma gv_choice alpha mu cov indicies prev : indicies <> nil -> exists i, gv_greedy alpha mu cov indicies prev = Ok i /\
  In i indicies /\ forall j, In j indicies -> gv_score alpha mu cov prev j <= gv_score alpha mu cov prev i.
Proof. intro H. destruct (gv_greedy_total alpha mu cov indicies prev H) as [i E]. exists i. split; auto. now apply gv_greedy_spec. Qed.
Lemma gv_not_ucb : exists mu var, let cov := fun i j => if Nat.eqb i j then nth i var 0 else 0 in
  symmetric 2 cov /\ psd 2 cov /\ gv_greedy 1 (fun i => nth i mu 0) cov (0 :: 1 :: nil)%nat nil = Ok 0%nat /\
  ucb_greedy (fun _ l => l) 1 mu var 0 (0 :: 1 :: nil)%nat nil = Ok 1%nat.
Proof.
  exists (3 / 10 :: 0 :: nil), (0 :: 1 / 4 :: nil). intro cov. assert (P : psd 2 cov).
  { unfold cov. apply psd_diag. intros [|[|i]] Hi; simpl; try lra. lia. }
  split; [intros i j _ _; unfold cov; rewrite Nat.eqb_sym; destruct (Nat.eqb_spec j i) as [->|]; auto|]. split; [exact P|]. split.
  - destruct (gv_greedy_total 1 (fun i => nth i (3 / 10 :: 0 :: nil) 0) cov (0 :: 1 :: nil)%nat nil) as [i E]; [discriminate|]. rewrite E. f_equal.
    apply gv_greedy_spec in E. destruct E as [[<-|[<-|[]]] M]; auto. exfalso. assert (A := M 0%nat (or_introl eq_refl)).
    rewrite !gv_first in A by (unfold cov; simpl; lra). unfold cov in A. simpl in A. lra.
  - unfold ucb_greedy, score_greedy, pick_extreme. cbn [mapM]. unfold ucb_score. unfold getitem. cbn [nth_error bind]. cbn [argmax argmax_from].
    replace (1 / 4) with ((1 / 2) * (1 / 2)) by field. rewrite sqrt_square by lra. rewrite sqrt_0.
    replace (Rltb (3 / 10 + 1 * 0) (0 + 1 * (1 / 2))) with true by (symmetry; apply Rltb_true; lra). reflexivity.
Qed.
