(** The mode of the log posterior: existence, uniqueness, bounds. *)
From Coquelicot Require Import Coquelicot.
From Coq Require Import Reals Lra Lia List.
From Verif Require Import M_RBase M_Normal M_PrefProbit M_OrdProbit M_AbsProbit M_Acq M_GP M_Search M_Fit S_PrefProbit S_OrdProbit S_AbsProbit S_GP S_Fit S_Mode P_RBase P_Acq P_Normal P_PrefProbit P_Put P_OrdProbit P_AbsProbit P_Chol P_GP P_GP3 P_Fit P_Fit2 P_Fit3 P_Fit4 P_Fit5 P_Mode P_Mode2.
From Verif Require Import S_Psd P_Psd.
Local Open Scope R_scope.

(** ---- Cauchy-Schwarz for a covariance ---- *)
Lemma cauchy_form n K x y : symmetric n K -> psd n K -> (bform n K x y) ^ 2 <= qform n K x * qform n K y.
Proof.
  intros S Pd. assert (Q : forall t, 0 <= qform n K y + t * (2 * bform n K x y) + t * t * qform n K x) by (intro t; rewrite <- qform_along by auto; apply Pd).
  assert (Qx := Pd x). set (a := qform n K x) in *. set (b := bform n K x y) in *. set (c := qform n K y) in *. destruct (Req_dec a 0) as [Z|N].
  - destruct (Req_dec b 0) as [E|E]; [rewrite E, Z; lra|]. exfalso. specialize (Q (- (c + 1) / (2 * b))). rewrite Z in Q. replace (c + - (c + 1) / (2 * b) * (2 * b) + - (c + 1) / (2 * b) * (- (c + 1) / (2 * b)) * 0) with (-1) in Q by (field; auto). lra.
  - specialize (Q (- b / a)). replace (c + - b / a * (2 * b) + - b / a * (- b / a) * a) with (c - b ^ 2 / a) in Q by (field; auto). assert (a * (b ^ 2 / a) <= a * c) by (apply Rmult_le_compat_l; lra). replace (a * (b ^ 2 / a)) with (b ^ 2) in H by (field; auto). exact H.
Qed.
Section Prior.
Variables (n : nat) (K B : nat -> nat -> R).
Hypothesis SK : symmetric n K.
Hypothesis PK : pd n K.
Hypothesis IB : right_inverse n K B.
Lemma SB : symmetric n B.
Proof. exact (inverse_sym n K B SK IB). Qed.
Lemma PB : pd n B.
Proof. exact (inverse_pd n K B SK PK IB). Qed.
Lemma K_B F : solves n K F (fun a => sumn n (fun j => B a j * F j)).
Proof.
  intros p Hp. transitivity (sumn n (fun j => unitv j p * F j)); [|now apply sumn_unit'].
  transitivity (sumn n (fun a => sumn n (fun j => K p a * B a j * F j))).
  - apply sumn_ext. intros a _. rewrite <- sumn_scale. apply sumn_ext. intros; ring.
  - rewrite sumn_swap. apply sumn_ext. intros j Hj. rewrite sumn_scale_r. now rewrite (IB p j Hp Hj).
Qed.
Lemma qform_K_B F : qform n K (fun a => sumn n (fun j => B a j * F j)) = qform n B F.
Proof.
  rewrite (solves_qform n K F _ (K_B F)). unfold qform. apply sumn_ext. intros a _. rewrite <- sumn_scale. apply sumn_ext. intros; ring.
Qed.
(** pairing values with a linear functional *)
Lemma pair_K_B F e : dotn n e F = bform n K e (fun a => sumn n (fun j => B a j * F j)).
Proof. rewrite bform_dot. unfold dotn. apply sumn_ext. intros i Hi. rewrite (K_B F i Hi). ring. Qed.
Lemma pairing_bound F e : (dotn n e F) ^ 2 <= qform n K e * qform n B F.
Proof. rewrite pair_K_B, <- qform_K_B. apply cauchy_form; auto. now apply pd_psd. Qed.
Lemma qform_unit i : (i < n)%nat -> qform n K (unitv i) = K i i.
Proof.
  intro Hi. unfold qform. transitivity (sumn n (fun a => unitv i a * sumn n (fun b => unitv i b * K a b))); [apply sumn_ext; intros a _; rewrite <- sumn_scale; apply sumn_ext; intros; ring|].
  rewrite sumn_unit by auto. now rewrite sumn_unit.
Qed.
Lemma entry_bound F i : (i < n)%nat -> (F i) ^ 2 <= K i i * qform n B F.
Proof. intro Hi. assert (T := pairing_bound F (unitv i)). unfold dotn in T. rewrite sumn_unit, qform_unit in T by auto. exact T. Qed.
Lemma diag_pos i : (i < n)%nat -> 0 < K i i.
Proof. intro Hi. rewrite <- qform_unit by auto. apply PK. exists i. split; auto. unfold unitv. rewrite Nat.eqb_refl. lra. Qed.
Lemma qform_cont : seq_continuous n (qform n B).
Proof.
  intros x l L. unfold qform. apply (is_lim_seq_sumn n (fun k i => sumn n (fun j => x k i * x k j * B i j)) (fun i => sumn n (fun j => l i * l j * B i j))). intros i Hi.
  apply (is_lim_seq_sumn n (fun k j => x k i * x k j * B i j) (fun j => l i * l j * B i j)). intros j Hj.
  apply (is_lim_seq_mult' (fun k => x k i * x k j) (fun _ => B i j)); [|apply is_lim_seq_const]. apply is_lim_seq_mult'; now apply L.
Qed.
Lemma qform_zero : qform n B (fun _ => 0) = 0.
Proof. unfold qform. apply sumn_zero. intros i _. apply sumn_zero. intros; ring. Qed.
(** a continuous function without positive values, minus the quadratic form, has a maximum *)
Lemma penal_max f : seq_continuous n f -> (forall F, f F <= 0) -> exists F, forall G, f G - 1 / 2 * qform n B G <= f F - 1 / 2 * qform n B F.
Proof.
  intros C N. set (m := - f (fun _ => 0)). assert (Hm : 0 <= m) by (unfold m; assert (T := N (fun _ => 0)); lra). set (T := sumn n (fun i => K i i)).
  assert (HT : forall i, (i < n)%nat -> K i i <= T).
  { intros i Hi. unfold T. rewrite <- (sumn_unit n i (fun i => K i i) Hi). apply sumn_le. intros j Hj. assert (D := diag_pos j Hj). unfold unitv. destruct (Nat.eqb j i); lra. }
  assert (HT0 : 0 <= T) by (unfold T; apply sumn_nonneg; intros i Hi; left; now apply diag_pos).
  set (M := sqrt (T * (2 * m))). assert (HM : 0 <= M) by apply sqrt_pos. assert (MM : M * M = T * (2 * m)) by (unfold M; apply sqrt_sqrt; apply Rmult_le_pos; lra).
  destruct (box_max n (fun F => f F - 1 / 2 * qform n B F) M HM) as [F HF].
  { intros x l L. apply (is_lim_seq_minus' (fun k => f (x k)) (fun k => 1 / 2 * qform n B (x k))); [now apply C|]. apply (is_lim_seq_scal_l (fun k => qform n B (x k)) (1 / 2) (Finite (qform n B l))). now apply qform_cont. }
  exists F. intro G. destruct (Rle_or_lt (f G - 1 / 2 * qform n B G) (f F - 1 / 2 * qform n B F)) as [|L]; auto. apply HF. intros i Hi.
  assert (Z := HF (fun _ => 0) ltac:(intros; lra)). cbn beta in Z. rewrite qform_zero in Z. fold m in Z. assert (NG := N G).
  assert (Q : qform n B G <= 2 * m) by (unfold m; lra). assert (Eb := entry_bound G i Hi). assert (HTi := HT i Hi). assert (Di := diag_pos i Hi).
  assert (Q0 : 0 <= qform n B G) by (apply pd_psd, PB).
  assert (G i ^ 2 <= T * (2 * m)). { eapply Rle_trans; [exact Eb|]. apply Rmult_le_compat; lra. }
  rewrite <- MM in H. split; nra.
Qed.
End Prior.

(** ---- the mode ---- *)
Section Mode.
Variables (sp : special) (P : probit_set) (n : nat) (y : labels) (K B : nat -> nat -> R).
Hypothesis GP : good_probits sp P.
Hypothesis GL : good_labels P n y.
Hypothesis DY : discrete P y.
Hypothesis SK : symmetric n K.
Hypothesis PK : pd n K.
Hypothesis IB : right_inverse n K B.
Lemma mode_exists : exists F, mode sp P y n B F.
Proof.
  destruct (penal_max n K B SK PK IB (LL sp P y) (LL_cont sp P n y GP GL DY) (LL_nonpos sp P n y GP GL DY)) as [F HF]. exists F. exact HF.
Qed.
Lemma post_seg F G t : 0 <= t <= 1 -> (1 - t) * log_post sp P y n B F + t * log_post sp P y n B G + 1 / 2 * (t * (1 - t)) * qform n B (fun i => G i - F i) <= log_post sp P y n B (along F (fun i => G i - F i) t).
Proof.
  intro Ht. assert (S := SB n K B SK IB). unfold log_post. assert (L := LL_seg sp P n y GP GL DY F G t Ht). assert (Q := qform_along n B F (fun i => G i - F i) t S). assert (Q1 := qform_along n B F (fun i => G i - F i) 1 S). rewrite along_diff in Q1. nra.
Qed.
Lemma mode_strong F G : mode sp P y n B F -> log_post sp P y n B G <= log_post sp P y n B F - 1 / 2 * qform n B (fun i => G i - F i).
Proof.
  intro M. set (q := qform n B (fun i => G i - F i)). assert (Hq : 0 <= q) by (apply pd_psd, (PB n K B SK PK IB)). set (a := log_post sp P y n B F). set (b := log_post sp P y n B G).
  assert (H : forall t, 0 < t < 1 -> b - a + 1 / 2 * (1 - t) * q <= 0).
  { intros t Ht. assert (S := post_seg F G t ltac:(lra)). assert (U := M (along F (fun i => G i - F i) t)). fold a b q in S, U. assert (0 <= t * - (b - a + 1 / 2 * (1 - t) * q)) by lra. assert (0 <= - (b - a + 1 / 2 * (1 - t) * q)); [|lra]. apply (Rmult_le_reg_l t); lra. }
  destruct (Rle_or_lt b (a - 1 / 2 * q)) as [|L]; auto. exfalso. set (d := b - a + 1 / 2 * q) in *. assert (Hd : 0 < d) by (unfold d; lra).
  assert (Ht : 0 < d / (d + q + 1) < 1). { split; [apply Rdiv_lt_0_compat; lra|]. apply (Rmult_lt_reg_r (d + q + 1)); [lra|]. replace (d / (d + q + 1) * (d + q + 1)) with d by (field; lra). lra. }
  assert (T := H _ Ht). set (t := d / (d + q + 1)) in *. assert (E : t * (d + q + 1) = d) by (unfold t; field; lra). assert (d - 1 / 2 * t * q <= 0) by (unfold d; unfold d in T; lra). nra.
Qed.
Lemma mode_only F G : mode sp P y n B F -> mode sp P y n B G -> forall i, (i < n)%nat -> F i = G i.
Proof.
  intros MF MG i Hi. assert (A := mode_strong F G MF). assert (C := MG F). destruct (zero_or_not n (fun i => G i - F i)) as [Z|Z]; [|specialize (Z i Hi); lra]. assert (T := PB n K B SK PK IB _ Z). lra.
Qed.
(** what lies outside the points does not matter *)
Lemma mode_ext F G : (forall i, (i < n)%nat -> F i = G i) -> mode sp P y n B F -> mode sp P y n B G.
Proof.
  intros E M H. replace (log_post sp P y n B G) with (log_post sp P y n B F); [apply M|]. unfold log_post. rewrite (qform_ext n B B F G) by auto. f_equal. destruct DY as [NA _]. destruct GL as [GR [GO _]]. unfold LL. rewrite NA. cbn [part]. do 2 f_equal.
  - destruct (y_rel y) as [r|]; cbn [part]; auto. unfold LLp. apply rsum_ext. intros p Hp. destruct (GR r eq_refl p Hp) as [Hu [Hv _]]. now rewrite !E.
  - destruct (y_ord y) as [o|]; cbn [part]; auto. unfold LLo. apply rsum_ext. intros p Hp. rewrite E; auto. now apply (GO o eq_refl).
Qed.
(** bounds *)
Lemma mode_better F : mode sp P y n B F -> LL sp P y (fun _ => 0) + qform n B F <= LL sp P y F.
Proof.
  intro M. assert (T := mode_strong F (fun _ => 0) M). unfold log_post in T. rewrite qform_zero in T. assert (E : qform n B (fun i => 0 - F i) = qform n B F).
  { unfold qform. apply sumn_ext. intros i _. apply sumn_ext. intros; ring. } rewrite E in T. lra.
Qed.
Lemma mode_form_bound F : mode sp P y n B F -> qform n B F <= - LL sp P y (fun _ => 0).
Proof. intro M. assert (T := mode_better F M). assert (N := LL_nonpos sp P n y GP GL DY F). lra. Qed.
Lemma mode_entry_bound F i : mode sp P y n B F -> (i < n)%nat -> (F i) ^ 2 <= K i i * - LL sp P y (fun _ => 0).
Proof.
  intros M Hi. assert (A := entry_bound n K B SK PK IB F i Hi). assert (C := mode_form_bound F M). assert (D := diag_pos n K PK i Hi). assert (K i i * qform n B F <= K i i * - LL sp P y (fun _ => 0)) by (apply Rmult_le_compat_l; lra). lra.
Qed.
End Mode.
