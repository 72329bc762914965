(** The determinant of one plus a product, and of a positive definite matrix. *)
From Verif Require Import M_Acq P_Acq M_HyperGrad S_Psd P_Psd P_Det.
From Coquelicot Require Import Coquelicot.
From Coq Require Import Reals Lra Lia List.
From Verif Require Import M_RBase M_HyperGrad S_GP S_Psd P_Psd P_Chol P_GP P_GP3.
Local Open Scope R_scope.

Lemma mprod_sumn n A B i j : mprod n A B i j = sumn n (fun a => A i a * B a j).
Proof. apply sum_to_sumn. Qed.
Lemma mprod_assoc n A B C i j : mprod n (mprod n A B) C i j = mprod n A (mprod n B C) i j.
Proof.
  rewrite !mprod_sumn. rewrite (sumn_ext n _ (fun a => sumn n (fun b => A i b * B b a * C a j))) by (intros a _; rewrite mprod_sumn; symmetry; apply sumn_scale_r).
  rewrite sumn_swap. apply sumn_ext. intros b _. rewrite mprod_sumn, <- sumn_scale. apply sumn_ext. intros; ring.
Qed.
Lemma eye_plus_one n K W i j : eye_plus n K W i j = one_plus n K W i j.
Proof. unfold eye_plus, one_plus. now rewrite mprod_sumn. Qed.
(** a left and a right inverse agree *)
Lemma left_right n C A B : right_inverse n C A -> right_inverse n A B -> forall i j, (i < n)%nat -> (j < n)%nat -> C i j = B i j.
Proof.
  intros HC HB i j Hi Hj.
  assert (E : sumn n (fun a => sumn n (fun b => C i a * A a b * B b j)) = sumn n (fun b => sumn n (fun a => C i a * A a b * B b j))) by apply sumn_swap.
  rewrite (sumn_ext n _ (fun a => C i a * unitv j a)) in E.
  2:{ intros a Ha. rewrite (sumn_ext n _ (fun b => C i a * (A a b * B b j))) by (intros; ring). rewrite sumn_scale, (HB a j) by auto. unfold unitv. reflexivity. }
  rewrite (sumn_ext n (fun b => sumn n (fun a => C i a * A a b * B b j)) (fun b => unitv b i * B b j)) in E.
  2:{ intros b Hb. rewrite (sumn_scale_r n (B b j) (fun a => C i a * A a b)), (HC i b) by auto. unfold unitv. reflexivity. }
  rewrite (sumn_ext n _ (fun a => unitv j a * C i a)) in E by (intros; ring). rewrite (sumn_unit n j) in E by auto. rewrite (sumn_unit' n i) in E by auto. exact E.
Qed.
(** [I + K W] for symmetric matrices: the transpose of an inverse of [I + W K] is a left inverse *)
Lemma left_inverse n K W T : symmetric n K -> symmetric n W -> right_inverse n (one_plus n W K) T -> right_inverse n (fun i j => T j i) (one_plus n K W).
Proof.
  intros SK SW H i j Hi Hj. rewrite (sumn_ext n _ (fun a => one_plus n W K j a * T a i)).
  - rewrite (H j i) by auto. now rewrite (Nat.eqb_sym j i).
  - intros a Ha. rewrite Rmult_comm. f_equal. unfold one_plus. rewrite (Nat.eqb_sym a j). f_equal. apply sumn_ext. intros b Hb. rewrite (SK a b), (SW b j) by auto. ring.
Qed.
Lemma inverse_eye n K W : symmetric n W -> psd n W -> symmetric n K -> pd n K -> exists T, right_inverse n (one_plus n W K) T /\ right_inverse n (fun i j => T j i) (one_plus n K W) /\
  right_inverse n (one_plus n K W) (fun i j => T j i).
Proof.
  intros SW PW SK PK. destruct (one_plus_invertible n W K SW PW SK PK) as [T HT]. assert (HL := left_inverse n K W T SK SW HT). exists T. split; [exact HT|]. split; [exact HL|].
  (* a right inverse: I - K T W *)
  set (Z := fun i j => unitv j i - sumn n (fun a => sumn n (fun b => K i a * T a b * W b j))).
  assert (R : right_inverse n (one_plus n K W) Z).
  { intros i j Hi Hj. unfold one_plus, Z.
    transitivity (sumn n (fun a => unitv a i * Z a j) + sumn n (fun a => sumn n (fun b => K i b * W b a) * Z a j)).
    { rewrite <- sumn_plus. apply sumn_ext. intros a _. unfold Z, unitv. ring. }
    rewrite (sumn_unit' n i (fun a => Z a j)) by auto.
    assert (E : sumn n (fun a => sumn n (fun b => K i b * W b a) * Z a j) = sumn n (fun a => sumn n (fun b => K i a * T a b * W b j))).
    { rewrite (sumn_ext n _ (fun a => sumn n (fun b => K i b * (W b a * Z a j)))) by (intros a _; rewrite <- sumn_scale_r; apply sumn_ext; intros; ring).
      rewrite sumn_swap. apply sumn_ext. intros b Hb. rewrite sumn_scale. rewrite (sumn_ext n (fun b0 => K i b * T b b0 * W b0 j) (fun c => K i b * (T b c * W c j))) by (intros; ring). rewrite sumn_scale. f_equal.
      (* W Z = T W *)
      unfold Z. rewrite (sumn_ext n _ (fun a => unitv j a * W b a - W b a * sumn n (fun a0 => sumn n (fun b0 => K a a0 * T a0 b0 * W b0 j)))) by (intros; ring).
      rewrite sumn_minus, (sumn_unit n j) by auto.
      rewrite (sumn_ext n (fun a => W b a * _) (fun a => sumn n (fun b0 => W b a * sumn n (fun a0 => K a a0 * T a0 b0) * W b0 j))).
      2:{ intros a _. rewrite sumn_swap, <- sumn_scale. apply sumn_ext. intros b0 _. rewrite sumn_scale_r. ring. }
      rewrite sumn_swap.
      assert (G : forall b0, (b0 < n)%nat -> sumn n (fun a => W b a * sumn n (fun a0 => K a a0 * T a0 b0)) = unitv b0 b - T b b0).
      { intros b0 Hb0. assert (X := HT b b0 Hb Hb0). unfold one_plus in X.
        rewrite (sumn_ext n _ (fun a => unitv a b * T a b0 + sumn n (fun c => W b c * K c a) * T a b0)) in X by (intros; unfold unitv; ring).
        rewrite sumn_plus, (sumn_unit' n b (fun a => T a b0)) in X by auto. unfold unitv. rewrite <- X.
        rewrite (sumn_ext n (fun a => sumn n (fun c => W b c * K c a) * T a b0) (fun a => sumn n (fun c => W b c * (K c a * T a b0)))) by (intros a _; rewrite <- sumn_scale_r; apply sumn_ext; intros; ring).
        rewrite sumn_swap. rewrite (sumn_ext n (fun j0 => sumn n (fun i0 => W b j0 * (K j0 i0 * T i0 b0))) (fun a => W b a * sumn n (fun a0 => K a a0 * T a0 b0))) by (intros; apply sumn_scale). ring. }
      rewrite (sumn_ext n (fun j0 => sumn n (fun i0 => W b i0 * sumn n (fun a0 => K i0 a0 * T a0 j0) * W j0 j)) (fun b0 => unitv b0 b * W b0 j - T b b0 * W b0 j)).
      2:{ intros b0 Hb0. rewrite sumn_scale_r, G by auto. ring. }
      rewrite sumn_minus, (sumn_unit' n b (fun b0 => W b0 j)) by auto. ring. }
    rewrite E. unfold Z. unfold unitv. ring. }
  intros i j Hi Hj. rewrite <- (R i j Hi Hj). apply sumn_ext. intros a Ha. f_equal. exact (left_right n _ _ Z HL R a j Ha Hj).
Qed.

(** the trace of the product of two positive semidefinite matrices *)
Lemma psd_trace n A B : symmetric n A -> psd n A -> psd n B -> 0 <= sumn n (fun i => sumn n (fun j => A i j * B i j)).
Proof.
  intros SA PA PB. assert (H := psd_schur_product n A B SA PA PB (fun _ => 1)). unfold qform in H.
  rewrite (sumn_ext n _ (fun i => sumn n (fun j => A i j * B i j))) in H; [exact H|]. intros i _. apply sumn_ext. intros; ring.
Qed.
(** [inverse(I + K W) K] is positive semidefinite: T is the inverse of [I + W K] *)
Lemma inner_psd n K W T : symmetric n W -> psd n W -> symmetric n K -> psd n K -> right_inverse n (one_plus n W K) T ->
  psd n (fun i j => sumn n (fun a => T a i * K a j)).
Proof.
  intros SW PW SK PK HT c. set (y := fun a => sumn n (fun i => T a i * c i)). set (z := fun a => sumn n (fun b => K a b * y b)).
  assert (C : forall j, (j < n)%nat -> c j = y j + sumn n (fun a => W j a * z a)).
  { intros j Hj. transitivity (sumn n (fun i => c i * unitv i j)).
    { rewrite (sumn_ext n _ (fun i => unitv i j * c i)) by (intros; ring). now rewrite (sumn_unit' n j). }
    rewrite (sumn_ext n _ (fun i => c i * (T j i + sumn n (fun a => W j a * sumn n (fun b => K a b * T b i))))).
    - rewrite (sumn_ext n _ (fun i => T j i * c i + sumn n (fun a => W j a * sumn n (fun b => K a b * (T b i * c i))))).
      + rewrite sumn_plus. f_equal. rewrite sumn_swap. apply sumn_ext. intros a _. rewrite sumn_scale. f_equal. unfold z, y. rewrite sumn_swap. apply sumn_ext. intros b _. now rewrite sumn_scale.
      + intros i _. rewrite Rmult_plus_distr_l. f_equal; [ring|]. rewrite <- sumn_scale. apply sumn_ext. intros a _. rewrite <- Rmult_assoc, (Rmult_comm (c i)), Rmult_assoc. f_equal. rewrite <- sumn_scale. apply sumn_ext. intros; ring.
    - intros i Hi. f_equal. unfold unitv. rewrite <- (HT j i Hj Hi). unfold one_plus.
      rewrite (sumn_ext n _ (fun a => unitv a j * T a i + sumn n (fun b => W j b * K b a) * T a i)) by (intros; unfold unitv; ring). rewrite sumn_plus, (sumn_unit' n j (fun a => T a i)) by auto. f_equal.
      rewrite (sumn_ext n _ (fun a => sumn n (fun b => W j b * (K b a * T a i)))) by (intros a _; rewrite <- sumn_scale_r; apply sumn_ext; intros; ring).
      rewrite sumn_swap. apply sumn_ext. intros b _. now rewrite sumn_scale. }
  assert (E : qform n (fun i j => sumn n (fun a => T a i * K a j)) c = qform n K y + qform n W z).
  { transitivity (sumn n (fun a => z a * c a)).
    - unfold qform. rewrite (sumn_ext n _ (fun i => sumn n (fun j => sumn n (fun a => T a i * c i * (K a j * c j))))) by (intros i _; apply sumn_ext; intros j _; rewrite <- sumn_scale; apply sumn_ext; intros; ring).
      rewrite sumn_swap. apply sumn_ext. intros j Hj. rewrite sumn_swap. unfold z. rewrite <- sumn_scale_r. apply sumn_ext. intros a Ha. rewrite (SK j a) by auto. unfold y.
      rewrite (sumn_scale_r n (K a j * c j) (fun i => T a i * c i)). ring.
    - rewrite (sumn_ext n _ (fun a => z a * y a + z a * sumn n (fun b => W a b * z b))) by (intros a Ha; rewrite (C a Ha); ring). rewrite sumn_plus. f_equal.
      + unfold qform, z. apply sumn_ext. intros a _. rewrite <- sumn_scale_r. apply sumn_ext. intros; ring.
      + unfold qform. apply sumn_ext. intros a _. rewrite <- sumn_scale. apply sumn_ext. intros; ring. }
  rewrite E. apply Rplus_le_le_0_compat; [apply PK|apply PW].
Qed.

(** det(I + K W) >= 1 *)
Lemma det_path n K W t : is_derive (fun s => det n (one_plus n K (fun i j => s * W i j))) t
  (sumn n (fun i => det n (row_set (one_plus n K (fun i j => t * W i j)) i (mprod n K W i)))).
Proof.
  apply (det_derive n (fun s => one_plus n K (fun i j => s * W i j)) (mprod n K W)). intros i j _ _. unfold one_plus.
  apply (is_derive_ext (fun s => (if Nat.eqb i j then 1 else 0) + mprod n K W i j * s)).
  - intros s. rewrite mprod_sumn, <- sumn_scale_r. match goal with |- ?a = ?b => change (@eq R a b) end. f_equal. apply sumn_ext. intros; ring.
  - auto_derive; auto. ring.
Qed.
Lemma det_path_inverse n K W t : 0 <= t -> symmetric n W -> psd n W -> symmetric n K -> pd n K -> exists g, 0 <= g /\
  is_derive (fun s => det n (one_plus n K (fun i j => s * W i j))) t (det n (one_plus n K (fun i j => t * W i j)) * g).
Proof.
  intros Ht SW PW SK PK. set (V := fun i j => t * W i j). assert (SV : symmetric n V) by (intros i j Hi Hj; unfold V; rewrite (SW i j) by auto; reflexivity).
  assert (PV : psd n V) by (now apply psd_scale). destruct (inverse_eye n K V SV PV SK PK) as [T [HT [HL HR]]].
  exists (sumn n (fun i => sumn n (fun j => mprod n K W i j * T i j))). split.
  - rewrite (sumn_ext n _ (fun i => sumn n (fun j => sumn n (fun a => T i j * (K i a * W a j))))) by (intros i _; apply sumn_ext; intros j _; rewrite mprod_sumn, <- sumn_scale_r; apply sumn_ext; intros; ring).
    assert (Q := psd_trace n W (fun i j => sumn n (fun a => T a i * K a j)) SW PW (inner_psd n K V T SV PV SK (pd_psd n K PK) HT)). cbn beta in Q.
    rewrite (sumn_ext n (fun i => sumn n (fun j => W i j * sumn n (fun a => T a i * K a j))) (fun i => sumn n (fun j => sumn n (fun a => T a i * (K a j * W j i))))) in Q.
    2:{ intros i Hi. apply sumn_ext. intros j Hj. rewrite <- sumn_scale. apply sumn_ext. intros a _. rewrite (SW i j) by auto. ring. }
    rewrite sumn_swap. rewrite (sumn_ext n (fun j => sumn n (fun i => sumn n (fun a => T i j * (K i a * W a j)))) (fun j => sumn n (fun a => sumn n (fun i => T i j * (K i a * W a j))))) by (intros; apply sumn_swap).
    exact Q.
  - apply (jacobi n (fun s => one_plus n K (fun i j => s * W i j)) (mprod n K W) (fun i j => T j i) t); [exact HL|]. intros i j _ _. unfold one_plus.
    apply (is_derive_ext (fun s => (if Nat.eqb i j then 1 else 0) + mprod n K W i j * s)).
    + intros s. rewrite mprod_sumn, <- sumn_scale_r. match goal with |- ?a = ?b => change (@eq R a b) end. f_equal. apply sumn_ext. intros; ring.
    + auto_derive; auto. ring.
Qed.
Lemma det_one_plus n K W : symmetric n W -> psd n W -> symmetric n K -> pd n K -> 1 <= det n (one_plus n K W).
Proof.
  intros SW PW SK PK. set (h := fun s => det n (one_plus n K (fun i j => s * W i j))).
  assert (H0 : h 0 = 1). { unfold h. rewrite (det_ext n _ (fun i j => if Nat.eqb i j then 1 else 0)); [apply det_id|]. intros i j _ _. unfold one_plus. rewrite sumn_zero; [ring|intros; ring]. }
  assert (H1 : h 1 = det n (one_plus n K W)). { apply det_ext. intros i j _ _. unfold one_plus. f_equal. apply sumn_ext. intros; ring. }
  assert (D : forall t, is_derive h t (Derive h t)). { intros t. apply Derive_correct. eexists. apply det_path. }
  assert (Cc : continuity h). { intros t. apply continuity_pt_filterlim. apply (ex_derive_continuous h t). eexists. apply D. }
  assert (S1 : forall t, 0 <= t -> 1 <= h t * h t).
  { intros t Ht. destruct (MVT_gen (fun s => h s * h s) 0 t (fun s => 2 * h s * Derive h s)) as [c [Hc E]].
    - intros s _. evar_last; [apply (is_derive_mult h h); [apply D|apply D|intros; apply Rmult_comm]|]. cbn. ring.
    - intros s _. apply continuity_pt_mult; apply Cc.
    - rewrite Rmin_left, Rmax_right in Hc by auto. destruct (det_path_inverse n K W c) as [g [Hg Dg]]; auto; [lra|]. fold h in Dg. fold (h c) in Dg.
      rewrite (is_derive_unique h c _ Dg), H0 in E. assert (0 <= 2 * h c * (h c * g) * (t - 0)) by (apply Rmult_le_pos; [|lra]; replace (2 * h c * (h c * g)) with (2 * (h c * h c) * g) by ring; apply Rmult_le_pos; [|lra]; assert (0 <= h c * h c) by apply Rle_0_sqr; lra). lra. }
  rewrite <- H1. destruct (Rle_or_lt 0 (h 1)) as [P|N].
  - assert (X := S1 1 ltac:(lra)). destruct (Rle_or_lt 1 (h 1)); [auto|]. nra.
  - destruct (IVT_gen h 0 1 0 Cc) as [z [Hz E]]; [rewrite H0, Rmin_right, Rmax_left by lra; lra|]. rewrite Rmin_left, Rmax_right in Hz by lra. assert (X := S1 z ltac:(lra)). rewrite E in X. lra.
Qed.
