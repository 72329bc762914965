(** Lemmas for asking for ratings. *)
From Coquelicot Require Import Coquelicot.
From Coq Require Import Reals Lra Lia List Arith.
From Verif Require Import M_RBase M_Select M_Info M_Hyper M_AbsProbit M_Acq M_AbsAcq M_Beta S_AbsProbit S_Gamma S_Acq S_AbsAcq P_Gamma P_Gamma2 P_Gamma3 P_AbsProbit P_Acq P_Acq6 P_Acq7 S_Psd P_Psd.
Import ListNotations.
Local Open Scope R_scope.

(** ---- limits of integrals over the open unit interval ---- *)
Definition cont01 (f : R -> R) : Prop := forall x, 0 < x < 1 -> continuous f x.
Lemma near_pos_le h S a b : cont01 h -> (forall x, 0 < x < 1 -> 0 <= h x) -> near h S S -> 0 < a -> a < b -> b < 1 -> RInt h a b <= S.
Proof.
  intros C P N Ha Hab Hb. apply le_epsilon. intros e He. destruct (N e He) as [d [Pd H]]. set (u := Rmin a (d / 2)). set (v := Rmax b (1 - d / 2)).
  assert (M1 : u <= a) by apply Rmin_l. assert (M2 : u <= d / 2) by apply Rmin_r. assert (M3 : b <= v) by apply Rmax_l. assert (M4 : 1 - d / 2 <= v) by apply Rmax_r. assert (Q1 : v < 1) by (apply Rmax_lub_lt; lra). assert (P0 : 0 < u) by (apply Rmin_pos; lra). specialize (H u v ltac:(lra) ltac:(lra)).
  assert (I : forall x y, 0 < x < 1 -> 0 < y < 1 -> ex_RInt h x y) by (intros; now apply cont_int). assert (E : RInt h u v = RInt h u a + (RInt h a b + RInt h b v)). { rewrite <- (RInt_Chasles (V := R_CompleteNormedModule) h u a v) by (apply I; lra). rewrite <- (RInt_Chasles (V := R_CompleteNormedModule) h a b v) by (apply I; lra). reflexivity. }
  assert (0 <= RInt h u a) by (apply RInt_ge_0; [lra|apply I; lra|intros; apply P; lra]). assert (0 <= RInt h b v) by (apply RInt_ge_0; [lra|apply I; lra|intros; apply P; lra]). lra.
Qed.
Lemma near_le f g l k : cont01 f -> cont01 g -> (forall x, 0 < x < 1 -> f x <= g x) -> near f l l -> near g k k -> l <= k.
Proof.
  intros Cf Cg L Nf Ng. apply le_epsilon. intros e He. destruct (Nf (e / 2) ltac:(lra)) as [d1 [P1 H1]]. destruct (Ng (e / 2) ltac:(lra)) as [d2 [P2 H2]]. set (d := Rmin d1 d2). assert (M1 : d <= d1) by apply Rmin_l. assert (M2 : d <= d2) by apply Rmin_r. assert (D : 0 < d) by (apply Rmin_pos; lra).
  specialize (H1 (d / 2) (1 - d / 2) ltac:(lra) ltac:(lra)). specialize (H2 (d / 2) (1 - d / 2) ltac:(lra) ltac:(lra)). assert (T : RInt f (d / 2) (1 - d / 2) <= RInt g (d / 2) (1 - d / 2)) by (apply RInt_le; [lra|apply cont_int; auto; lra|apply cont_int; auto; lra|intros; apply L; lra]). lra.
Qed.
Lemma near_unique f l k : near f l l -> near f k k -> l = k.
Proof.
  intros N1 N2. destruct (Req_dec l k) as [E|E]; [exact E|exfalso]. assert (P : 0 < Rabs (l - k)) by (apply Rabs_pos_lt; lra). destruct (N1 (Rabs (l - k) / 2) ltac:(lra)) as [d1 [P1 H1]]. destruct (N2 (Rabs (l - k) / 2) ltac:(lra)) as [d2 [P2 H2]]. set (d := Rmin d1 d2). assert (M1 : d <= d1) by apply Rmin_l. assert (M2 : d <= d2) by apply Rmin_r. assert (D : 0 < d) by (apply Rmin_pos; lra).
  specialize (H1 (d / 2) (1 - d / 2) ltac:(lra) ltac:(lra)). specialize (H2 (d / 2) (1 - d / 2) ltac:(lra) ltac:(lra)). unfold Rabs in *. destruct (Rcase_abs (l - k)); lra.
Qed.
Lemma near_bounded_ex h B : cont01 h -> (forall x, 0 < x < 1 -> 0 <= h x) -> (forall a b, 0 < a -> a < b -> b < 1 -> RInt h a b <= B) -> exists S, near h S S.
Proof.
  intros C P U. destruct (completeness (fun m => exists a b, 0 < a /\ a < b /\ b < 1 /\ m = RInt h a b)) as [S [Up Le]].
  - exists B. intros m (a & b & Ha & Hab & Hb & ->). now apply U.
  - exists (RInt h (1 / 4) (1 / 2)), (1 / 4), (1 / 2). repeat split; lra.
  - exists S. intros e He. assert (X : exists a b, 0 < a /\ a < b /\ b < 1 /\ S - e < RInt h a b).
    { apply Classical_Prop.NNPP. intro N. assert (S <= S - e); [|lra]. apply Le. intros m (a & b & Ha & Hab & Hb & ->). apply Rnot_lt_le. intro Q. apply N. exists a, b. auto. }
    destruct X as (a & b & Ha & Hab & Hb & L). assert (I : forall x y, 0 < x < 1 -> 0 < y < 1 -> ex_RInt h x y) by (intros; now apply cont_int).
    exists (Rmin (1 / 2) (Rmin a (1 - b))). assert (M1 := Rmin_l (1 / 2) (Rmin a (1 - b))). assert (M2 := Rmin_r (1 / 2) (Rmin a (1 - b))). assert (M3 := Rmin_l a (1 - b)). assert (M4 := Rmin_r a (1 - b)). split; [split; [apply Rmin_pos; [lra|apply Rmin_pos; lra]|exact M1]|]. intros u v Hu Hv.
    assert (E : RInt h u v = RInt h u a + (RInt h a b + RInt h b v)). { rewrite <- (RInt_Chasles (V := R_CompleteNormedModule) h u a v) by (apply I; lra). rewrite <- (RInt_Chasles (V := R_CompleteNormedModule) h a b v) by (apply I; lra). reflexivity. }
    assert (0 <= RInt h u a) by (apply RInt_ge_0; [lra|apply I; lra|intros; apply P; lra]). assert (0 <= RInt h b v) by (apply RInt_ge_0; [lra|apply I; lra|intros; apply P; lra]). assert (RInt h u v <= S) by (apply Up; exists u, v; repeat split; lra). lra.
Qed.
Lemma near_strict h S x0 : cont01 h -> (forall x, 0 < x < 1 -> 0 <= h x) -> near h S S -> 0 < x0 < 1 -> 0 < h x0 -> 0 < S.
Proof.
  intros C P N H0 Hp. assert (L := C x0 H0). assert (Q : 0 < h x0 / 2) by lra. apply (proj1 (filterlim_locally h (h x0))) with (eps := mkposreal _ Q) in L. destruct L as [d L].
  set (r := Rmin (d / 2) (Rmin (x0 / 2) ((1 - x0) / 2))). assert (M1 : r <= d / 2) by apply Rmin_l. assert (M2 := Rmin_r (d / 2) (Rmin (x0 / 2) ((1 - x0) / 2))). fold r in M2. assert (M3 := Rmin_l (x0 / 2) ((1 - x0) / 2)). assert (M4 := Rmin_r (x0 / 2) ((1 - x0) / 2)). assert (D := cond_pos d). assert (R0 : 0 < r) by (apply Rmin_pos; [lra|apply Rmin_pos; lra]).
  apply Rlt_le_trans with (RInt h x0 (x0 + r)); [|apply near_pos_le; auto; lra]. apply RInt_gt_0; [lra| |intros; apply C; lra]. intros x Hx. assert (B : ball (h x0) (h x0 / 2) (h x)) by (apply L; change (Rabs (x - x0) < d); apply Rabs_def1; lra). change (Rabs (h x - h x0) < h x0 / 2) in B. apply Rabs_lt_between in B. lra.
Qed.
Lemma cont_lin f g c d : cont01 f -> cont01 g -> cont01 (fun x => c * f x + d * g x).
Proof. intros Cf Cg x Hx. apply (continuous_plus (fun x => c * f x) (fun x => d * g x)); [apply (continuous_scal_r c f)|apply (continuous_scal_r d g)]; auto. Qed.
Lemma cont_ext f g : (forall x, 0 < x < 1 -> f x = g x) -> cont01 f -> cont01 g.
Proof.
  intros E C x Hx. apply (continuous_ext_loc g f x); [|now apply C]. set (r := Rmin x (1 - x)). assert (R0 : 0 < r) by (apply Rmin_pos; lra). assert (M1 : r <= x) by apply Rmin_l. assert (M2 : r <= 1 - x) by apply Rmin_r. exists (mkposreal r R0). intros y Hy. change (Rabs (y - x) < r) in Hy. apply Rabs_lt_between in Hy. apply E. lra.
Qed.
Lemma cont_sumn n (p : nat -> R -> R) : (forall k, (k < n)%nat -> cont01 (p k)) -> cont01 (fun x => sumn n (fun k => p k x)).
Proof.
  induction n as [|n IH]; intros C x Hx; [apply continuous_const|]. cbn [sumn]. apply (continuous_plus (fun x => sumn n (fun k => p k x)) (p n)); [apply IH; auto|apply C; auto].
Qed.
Lemma near_zero : near (fun _ => 0) 0 0.
Proof. intros e He. exists (1 / 2). split; [lra|]. intros u v _ _. rewrite RInt_const. change (scal (v - u) 0) with ((v - u) * 0). lra. Qed.
Lemma near_sumn n (p : nat -> R -> R) c (l : nat -> R) : (forall k, (k < n)%nat -> cont01 (p k)) -> (forall k, (k < n)%nat -> near (p k) (l k) (l k)) ->
  near (fun x => sumn n (fun k => c k * p k x)) (sumn n (fun k => c k * l k)) (sumn n (fun k => c k * l k)).
Proof.
  induction n as [|n IH]; intros C N; [exact near_zero|]. cbn [sumn].
  assert (T := near_add (fun x => sumn n (fun k => c k * p k x)) (p n) 1 (c n) _ _ (cont_sumn n (fun k x => c k * p k x) (fun k Hk => fun x Hx => continuous_scal_r (c k) (p k) x (C k ltac:(lia) x Hx))) (C n ltac:(lia)) (IH (fun k Hk => C k ltac:(lia)) (fun k Hk => N k ltac:(lia))) (N n ltac:(lia))). rewrite Rmult_1_l in T. revert T. apply near_ext. intros x Hx. ring.
Qed.
Lemma total_near f l : cont01 f -> total f l <-> near f l l.
Proof.
  intro C. assert (I : forall u v, 0 < u < 1 -> 0 < v < 1 -> ex_RInt f u v) by (intros; now apply cont_int). split; [|now apply near_total].
  intros T e He. destruct (T (ball l e)) as [Q1 Q2 H1 H2 H]; [exists (mkposreal e He); trivial|]. destruct H1 as [d1 H1]. destruct H2 as [d2 H2]. set (d := Rmin (1 / 2) (Rmin d1 d2)). assert (M1 := Rmin_l (1 / 2) (Rmin d1 d2)). assert (M2 := Rmin_r (1 / 2) (Rmin d1 d2)). assert (M3 := Rmin_l d1 d2). assert (M4 := Rmin_r d1 d2). fold d in M1, M2. assert (D1 := cond_pos d1). assert (D2 := cond_pos d2). assert (D : 0 < d) by (apply Rmin_pos; [lra|apply Rmin_pos; assumption]).
  exists d. split; [lra|]. intros u v Hu Hv. destruct (H u v) as [z [Z B]]; [apply H1; [change (Rabs (u - 0) < d1); apply Rabs_def1; lra|lra]|apply H2; [change (Rabs (v - 1) < d2); apply Rabs_def1; lra|lra]|]. cbn [fst snd] in Z. apply (is_RInt_unique (V := R_CompleteNormedModule)) in Z. rewrite Z. change (Rabs (z - l) < e) in B. apply Rabs_lt_between in B. lra.
Qed.

Lemma sumn_ge_term n (g : nat -> R) i : (forall k, (k < n)%nat -> 0 <= g k) -> (i < n)%nat -> g i <= sumn n g.
Proof.
  induction n as [|n IH]; intros P Hi; [lia|]. cbn [sumn]. destruct (Nat.eq_dec i n) as [-> |E].
  - assert (0 <= sumn n g) by (apply sumn_nonneg; auto). lra.
  - assert (g i <= sumn n g) by (apply IH; [auto|lia]). assert (0 <= g n) by (apply P; lia). lra.
Qed.
(** ---- the expected alignment after an answer with continuous densities ---- *)
Section Asking.
Variables (M : nat) (f : nat -> nat -> R) (p : nat -> R -> R).
Hypotheses (HM : (0 < M)%nat) (Cp : forall k, (k < M)%nat -> cont01 (p k)) (Pp : forall k x, (k < M)%nat -> 0 < x < 1 -> 0 < p k x) (Np : forall k, (k < M)%nat -> near (p k) 1 1).
Definition pbar (x : R) : R := sumn M (fun k => p k x) / INR M.
Definition G (x : R) : R := ratio M f (fun k => p k x).
Lemma PM : 0 < INR M.
Proof. now apply P_Acq.INR_pos. Qed.
Lemma pbar_pos x : 0 < x < 1 -> 0 < pbar x.
Proof. intro H. apply Rdiv_lt_0_compat; [apply sumn_pos; auto|apply PM]. Qed.
Lemma pbar_cont : cont01 pbar.
Proof. apply (cont_ext (fun x => / INR M * sumn M (fun k => p k x) + 0 * 0)); [intros; unfold pbar, Rdiv; ring|]. apply (cont_lin (fun x => sumn M (fun k => p k x)) (fun _ => 0)); [now apply cont_sumn|intros x _; apply continuous_const]. Qed.
Lemma pbar_near : near pbar 1 1.
Proof.
  assert (T := near_sumn M p (fun _ => / INR M) (fun _ => 1) Cp Np). cbn beta in T. rewrite sumn_const in T. assert (P := PM). replace (INR M * (/ INR M * 1)) with 1 in T by (field; lra). revert T. apply near_ext. intros x Hx. unfold pbar, Rdiv. rewrite sumn_scale. ring.
Qed.
Lemma G_cont : cont01 G.
Proof.
  intros x Hx. unfold G, ratio. apply (continuous_mult (K := R_AbsRing) (fun x => qform M f (fun k => p k x) / (INR M * INR M)) (fun x => / (sumn M (fun k => p k x) / INR M))).
  - unfold Rdiv. apply (continuous_mult (K := R_AbsRing) (fun x => qform M f (fun k => p k x)) (fun _ => / (INR M * INR M))); [|apply continuous_const]. unfold qform. apply (cont_sumn M (fun i x => sumn M (fun j => p i x * p j x * f i j))); [|exact Hx]. intros i Hi. apply (cont_sumn M (fun j x => p i x * p j x * f i j)). intros j Hj y Hy.
    apply (continuous_mult (K := R_AbsRing) (fun y => p i y * p j y) (fun _ => f i j)); [|apply continuous_const]. apply (continuous_mult (K := R_AbsRing) (p i) (p j)); now apply Cp.
  - apply (continuous_comp pbar Rinv); [now apply pbar_cont|]. apply (ex_derive_continuous Rinv). apply ex_derive_inv; [apply ex_derive_id|]. apply Rgt_not_eq. now apply pbar_pos.
Qed.
Lemma G_bounds lo hi x : (forall i j, (i < M)%nat -> (j < M)%nat -> lo <= f i j <= hi) -> 0 < x < 1 -> lo * pbar x <= G x <= hi * pbar x.
Proof. intros Hf Hx. apply (ratio_bounds M f lo hi); auto. Qed.
Lemma f_bound : exists B, 0 <= B /\ forall i j, (i < M)%nat -> (j < M)%nat -> - B <= f i j <= B.
Proof.
  exists (sumn M (fun i => sumn M (fun j => Rabs (f i j)))). split; [apply sumn_nonneg; intros; apply sumn_nonneg; intros; apply Rabs_pos|]. intros i j Hi Hj. apply Rabs_le_between. apply Rle_trans with (sumn M (fun j => Rabs (f i j))).
  - apply (sumn_ge_term M (fun j => Rabs (f i j)) j); [intros; apply Rabs_pos|exact Hj].
  - apply (sumn_ge_term M (fun i => sumn M (fun j => Rabs (f i j))) i); [intros; apply sumn_nonneg; intros; apply Rabs_pos|exact Hi].
Qed.
Lemma shifted c B : (forall i j, (i < M)%nat -> (j < M)%nat -> - B <= c * f i j) -> forall x, 0 < x < 1 -> 0 <= c * G x + B * pbar x.
Proof.
  intros Hf x Hx. assert (T := ratio_bounds M (fun i j => c * f i j) (- B) (Rmax (- B) (sumn M (fun i => sumn M (fun j => Rabs (c * f i j))))) (fun k => p k x) HM).
  assert (E : ratio M (fun i j => c * f i j) (fun k => p k x) = c * G x). { unfold G, ratio, qform, Rdiv. rewrite (sumn_ext M (fun i => sumn M (fun j => p i x * p j x * (c * f i j))) (fun i => c * sumn M (fun j => p i x * p j x * f i j))); [rewrite sumn_scale; ring|]. intros i _. rewrite <- sumn_scale. apply sumn_ext. intros; ring. }
  rewrite E in T. fold (pbar x) in T. assert (- B * pbar x <= c * G x); [|lra]. apply T; [|intros; now apply Pp]. intros i j Hi Hj. split; [now apply Hf|]. apply Rle_trans with (2 := Rmax_r _ _). apply Rle_trans with (Rabs (c * f i j)); [apply RRle_abs|]. apply Rle_trans with (sumn M (fun j => Rabs (c * f i j))).
  - apply (sumn_ge_term M (fun j => Rabs (c * f i j)) j); [intros; apply Rabs_pos|exact Hj].
  - apply (sumn_ge_term M (fun i => sumn M (fun j => Rabs (c * f i j))) i); [intros; apply sumn_nonneg; intros; apply Rabs_pos|exact Hi].
Qed.
Lemma G_total : exists l, near G l l.
Proof.
  destruct f_bound as [B [B0 HB]]. set (h := fun x => 1 * G x + B * pbar x). assert (Ch : cont01 h) by (apply cont_lin; [apply G_cont|apply pbar_cont]). assert (Hh : forall x, 0 < x < 1 -> 0 <= h x) by (apply (shifted 1 B); intros i j Hi Hj; specialize (HB i j Hi Hj); lra).
  destruct (near_bounded_ex h (2 * B)) as [S N]; auto.
  - intros a b Ha Hab Hb. apply Rle_trans with (RInt (fun x => 2 * B * pbar x + 0 * 0) a b).
    + apply RInt_le; [lra|apply cont_int; auto; lra|apply cont_int; try lra; apply (cont_lin pbar (fun _ => 0)); [apply pbar_cont|intros x _; apply continuous_const]|]. intros x Hx. destruct (G_bounds (- B) B x HB ltac:(lra)) as [_ U]. unfold h. lra.
    + assert (L := int_lin pbar (fun _ => 0) (2 * B) 0 a b (cont_int pbar a b pbar_cont ltac:(lra) ltac:(lra)) (cont_int (fun _ => 0) a b (fun x _ => continuous_const 0 x) ltac:(lra) ltac:(lra))). apply (is_RInt_unique (V := R_CompleteNormedModule)) in L. rewrite L. assert (T := near_pos_le pbar 1 a b pbar_cont (fun x Hx => Rlt_le _ _ (pbar_pos x Hx)) pbar_near Ha Hab Hb). apply (Rmult_le_compat_l (2 * B)) in T; lra.
  - exists (1 * S + - B * 1). assert (T := near_add h pbar 1 (- B) S 1 Ch pbar_cont N pbar_near). revert T. apply near_ext. intros x Hx. unfold h. ring.
Qed.
Lemma G_total_bounds lo hi l : (forall i j, (i < M)%nat -> (j < M)%nat -> lo <= f i j <= hi) -> near G l l -> lo <= l <= hi.
Proof.
  intros Hf N. split.
  - assert (T := near_scal pbar lo 1 pbar_cont pbar_near). rewrite Rmult_1_r in T. apply (near_le (fun x => lo * pbar x) G); auto; [intros x Hx; apply (continuous_scal_r lo pbar); now apply pbar_cont|apply G_cont|]. intros x Hx. now apply (G_bounds lo hi).
  - assert (T := near_scal pbar hi 1 pbar_cont pbar_near). rewrite Rmult_1_r in T. apply (near_le G (fun x => hi * pbar x)); auto; [apply G_cont|intros x Hx; apply (continuous_scal_r hi pbar); now apply pbar_cont|]. intros x Hx. now apply (G_bounds lo hi).
Qed.
Lemma G_cut B l a b : (forall i j, (i < M)%nat -> (j < M)%nat -> Rabs (f i j) <= B) -> near G l l -> 0 < a -> a < b -> b < 1 -> Rabs (l - RInt G a b) <= B * (1 - RInt pbar a b).
Proof.
  intros Hf N Ha Hab Hb. assert (K : forall c, c = 1 \/ c = -1 -> c * RInt G a b + B * RInt pbar a b <= c * l + B * 1).
  { intros c Hc. assert (L := int_lin G pbar c B a b (cont_int G a b G_cont ltac:(lra) ltac:(lra)) (cont_int pbar a b pbar_cont ltac:(lra) ltac:(lra))). apply (is_RInt_unique (V := R_CompleteNormedModule)) in L. rewrite <- L. apply (near_pos_le (fun x => c * G x + B * pbar x)); auto.
    - apply cont_lin; [apply G_cont|apply pbar_cont].
    - apply shifted. intros i j Hi Hj. specialize (Hf i j Hi Hj). apply Rabs_le_between in Hf. destruct Hc as [-> | ->]; lra.
    - apply near_add; auto; [apply G_cont|apply pbar_cont|apply pbar_near]. }
  assert (K1 := K 1 (or_introl eq_refl)). assert (K2 := K (-1) (or_intror eq_refl)). apply Rabs_le_between. lra.
Qed.
(** the gain of asking *)
Definition lin (x : nat -> R) : R := sumn M (fun i => (sumn M (fun j => f i j + f j i) / (INR M * INR M)) * x i).
Definition spread (x : R) : R := qform M f (fun k => p k x - pbar x) / (INR M * INR M * pbar x).
Lemma lin_one : lin (fun _ => 1) = 2 * mean_entry M f.
Proof.
  unfold lin, mean_entry. assert (P := PM). rewrite (sumn_ext M _ (fun i => / (INR M * INR M) * (sumn M (f i) + sumn M (fun j => f j i)))) by (intros; rewrite sumn_plus; unfold Rdiv; change (fun j => f i j) with (f i); ring). rewrite sumn_scale, sumn_plus. assert (W : sumn M (fun i => sumn M (fun j => f j i)) = sumn M (fun i => sumn M (f i))) by (symmetry; exact (sumn_swap M M f)). rewrite W. unfold Rdiv. ring.
Qed.
Lemma tangent x : 0 < x < 1 -> G x = lin (fun k => p k x) - mean_entry M f * pbar x + spread x.
Proof.
  intro Hx. assert (P := PM). assert (Pb := pbar_pos x Hx). unfold spread, G, ratio. fold (pbar x). set (s := pbar x) in *.
  assert (E : qform M f (fun k => p k x - s) = qform M f (fun k => p k x) - s * (INR M * INR M * lin (fun k => p k x)) + s * s * (INR M * INR M * mean_entry M f)).
  { assert (E1 : INR M * INR M * lin (fun k => p k x) = sumn M (fun i => sumn M (fun j => (p i x + p j x) * f i j))).
    { unfold lin. rewrite <- sumn_scale. rewrite (sumn_ext M (fun i => sumn M (fun j => (p i x + p j x) * f i j)) (fun i => sumn M (fun j => p i x * f i j) + sumn M (fun j => p j x * f i j))) by (intros; rewrite <- sumn_plus; apply sumn_ext; intros; ring). rewrite sumn_plus. rewrite (sumn_swap M M (fun i j => p j x * f i j)). rewrite <- sumn_plus. apply sumn_ext. intros i _. rewrite !sumn_scale, sumn_plus. field. lra. }
    assert (E2 : INR M * INR M * mean_entry M f = sumn M (fun i => sumn M (f i))) by (unfold mean_entry; field; lra). rewrite E1, E2. unfold qform. rewrite <- !sumn_scale.
    rewrite (sumn_ext M (fun i => sumn M (fun j => (p i x - s) * (p j x - s) * f i j)) (fun i => (sumn M (fun j => p i x * p j x * f i j) + (- s) * sumn M (fun j => (p i x + p j x) * f i j)) + s * s * sumn M (f i))).
    - rewrite !sumn_plus. rewrite !sumn_scale. ring.
    - intros i _. rewrite <- !sumn_scale, <- !sumn_plus. apply sumn_ext. intros j _. ring. }
  rewrite E. field. split; lra.
Qed.
Lemma lin_near : near (fun x => lin (fun k => p k x)) (2 * mean_entry M f) (2 * mean_entry M f).
Proof. rewrite <- lin_one. unfold lin. apply (near_sumn M p (fun i => sumn M (fun j => f i j + f j i) / (INR M * INR M)) (fun _ => 1) Cp Np). Qed.
Lemma lin_cont : cont01 (fun x => lin (fun k => p k x)).
Proof. unfold lin. apply (cont_sumn M (fun i x => sumn M (fun j => f i j + f j i) / (INR M * INR M) * p i x)). intros k Hk x Hx. apply (continuous_scal_r (sumn M (fun j => f k j + f j k) / (INR M * INR M)) (p k)). now apply Cp. Qed.
Lemma base_near : near (fun x => lin (fun k => p k x) - mean_entry M f * pbar x) (mean_entry M f) (mean_entry M f).
Proof.
  assert (T := near_add _ _ 1 (- mean_entry M f) _ _ lin_cont pbar_cont lin_near pbar_near). replace (1 * (2 * mean_entry M f) + - mean_entry M f * 1) with (mean_entry M f) in T by ring. revert T. apply near_ext. intros. ring.
Qed.
Lemma base_cont : cont01 (fun x => lin (fun k => p k x) - mean_entry M f * pbar x).
Proof. apply (cont_ext (fun x => 1 * lin (fun k => p k x) + - mean_entry M f * pbar x)); [intros; ring|]. apply cont_lin; [apply lin_cont|apply pbar_cont]. Qed.
Lemma spread_near l : near G l l <-> near spread (l - mean_entry M f) (l - mean_entry M f).
Proof.
  assert (E : forall x, 0 < x < 1 -> spread x = 1 * G x + -1 * (lin (fun k => p k x) - mean_entry M f * pbar x)) by (intros x Hx; rewrite tangent by exact Hx; ring).
  assert (Cs : cont01 spread). { apply (cont_ext (fun x => 1 * G x + -1 * (lin (fun k => p k x) - mean_entry M f * pbar x))); [intros; symmetry; now apply E|]. apply (cont_lin G); [apply G_cont|apply base_cont]. }
  split; intro N.
  - assert (T := near_add _ _ 1 (-1) _ _ G_cont base_cont N base_near). replace (1 * l + -1 * mean_entry M f) with (l - mean_entry M f) in T by ring. revert T. apply near_ext. intros. symmetry. now apply E.
  - assert (T := near_add _ _ 1 1 _ _ Cs base_cont N base_near). replace (1 * (l - mean_entry M f) + 1 * mean_entry M f) with l in T by ring. revert T. apply near_ext. intros x Hx. rewrite E by exact Hx. ring.
Qed.
Lemma gain l : conditionally_psd M f -> near G l l -> mean_entry M f <= l.
Proof.
  intros HF N. apply (near_le (fun x => lin (fun k => p k x) - mean_entry M f * pbar x) G); auto; [apply base_cont|apply G_cont| |apply base_near]. intros x Hx. rewrite (tangent x Hx). assert (P := PM). assert (Pb := pbar_pos x Hx). assert (0 <= spread x); [|lra]. unfold spread. apply Rmult_le_pos.
  - apply HF. rewrite (sumn_ext M _ (fun k => p k x + - pbar x)) by (intros; ring). rewrite sumn_plus, sumn_const. unfold pbar. field. lra.
  - apply Rlt_le, Rinv_0_lt_compat. apply Rmult_lt_0_compat; [apply Rmult_lt_0_compat; exact P|exact Pb].
Qed.
End Asking.
