(** Lemmas for Monte-Carlo sampling of real vectors: the weights of the linear model. *)
From Coquelicot Require Import Coquelicot.
From Coq Require Import Reals Lra Lia List Arith.
From Verif Require Import M_RBase M_Normal M_Util S_MH P_MH S_MHR P_Normal P_Box P_MHR P_MHR2 P_MHR3.
From Verif Require Import M_Acq M_Pairs M_PrefProbit M_Fit.
Import ListNotations.
Local Open Scope R_scope.
Local Arguments RInt {V} f a b : simpl never.

Lemma one_round d std l h x : mean_normal d 1 (fun v u => h (nth 0 (metropolis_hastings (fun x => Some (l x)) (fun i x => moved std x (v i)) u x 1 0) [])) = round d std l h x.
Proof. exact (normal_run d std l h [] 1 0 0 x ltac:(lia)). Qed.
Lemma mh_unique d std l p M : cont d l -> std <> 0 -> density d p -> (forall v, length v = d -> p v <= M * exp (l v)) -> stationary d std l p ->
  exists k, 0 < k /\ forall v, length v = d -> p v = k * exp (l v).
Proof.
  intros Cl Hs [Cp [Pp Tp]] B St. assert (L0 := repeat_length 0 d). set (o := repeat 0 d) in *. assert (HM : 0 <= M) by (assert (A := Pp o L0); assert (A2 := B o L0); assert (E := exp_pos (l o)); nra).
  assert (Pr : forall v, length v = d -> 0 <= p v <= M * exp (l v)) by (intros v Hv; split; auto). assert (Fc := fr_class d l p M Cl Cp Pr).
  assert (Hst : whole_int d (fun x => p x * round d std l (fr l p) x) = whole_int d (fun x => p x * fr l p x)).
  { destruct Fc as [F1 F2]. rewrite <- (St (fr l p) M F1 F2). apply whole_ext. intros x _. f_equal. symmetry. apply one_round. }
  assert (K : forall v, length v = d -> p v = fr l p o * exp (l v)). { intros v Hv. rewrite (fr_p l p v), (fr_const d std l p M Cl HM Cp Pr Tp Hst Hs v o Hv L0). ring. }
  exists (fr l p o). split; [|exact K]. destruct (fr_range d l p M Pr o L0) as [[A|A] _]; [exact A|exfalso].
  assert (Z : is_lim_seq (fun n => box_int (cube d n) p) 0). { apply (is_lim_seq_ext (fun _ => 0)); [|apply is_lim_seq_const]. intro n. rewrite (box_ext _ p (fun _ => 0)); [rewrite (proj2 (good_const 0 (cube d n) (cube_sides d n))); ring|]. intros v Hv. rewrite cube_length in Hv. rewrite (K v Hv), <- A. ring. }
  apply is_lim_seq_unique in Z. apply is_lim_seq_unique in Tp. rewrite Tp in Z. injection Z. lra.
Qed.
Lemma mh_none d std l p B c : cont d l -> std <> 0 -> (forall v, length v = d -> c <= l v) -> ~ finite_mass d l -> density d p -> (forall v, length v = d -> p v <= B) -> ~ stationary d std l p.
Proof.
  intros Cl Hs Lo Inf Dp Bp St. destruct (mh_unique d std l p (Rabs B * exp (- c)) Cl Hs Dp) as [k [Hk E]]; [|exact St|].
  - intros v Hv. apply (Rle_trans _ (Rabs B)); [eapply Rle_trans; [now apply Bp|apply Rle_abs]|]. rewrite Rmult_assoc, <- exp_plus. rewrite <- (Rmult_1_r (Rabs B)) at 1. apply Rmult_le_compat_l; [apply Rabs_pos|]. rewrite <- exp_0. destruct (Lo v Hv) as [H|H]; [left; apply exp_increasing; lra|right; f_equal; lra].
  - apply Inf. destruct Dp as [Cp [_ Tp]]. exists (/ k). apply (is_lim_seq_ext (fun n => / k * box_int (cube d n) p)).
    + intro n. rewrite <- (proj2 (good_scal (/ k) _ p (cube_good d n p Cp))). apply box_ext. intros v Hv. rewrite cube_length in Hv. rewrite (E v Hv). field. lra.
    + replace (Finite (/ k)) with (Rbar_mult (/ k) 1) by (cbn; f_equal; ring). now apply is_lim_seq_scal_l.
Qed.
(** ---- no data ---- *)
Lemma walk_run std z thr : (forall i, thr i < 1) -> forall n i burn x, mh_loop (fun _ => Some 0) (fun i x => moved std x (z i)) thr burn n i (walk std x z i) (Some 0) = map (walk std x z) (filter (fun k => Nat.ltb burn k) (seq (S i) n)).
Proof.
  intro Ht. induction n as [|n IH]; intros i burn x; [reflexivity|]. cbn [mh_loop seq filter]. unfold accept. replace (Rltb (thr i) (exp (0 - 0))) with true by (symmetry; unfold Rltb; rewrite Rminus_0_r, exp_0; destruct (Rlt_dec (thr i) 1); [reflexivity|exfalso; auto]).
  change (moved std (walk std x z i) (z i)) with (walk std x z (S i)). rewrite IH. destruct (Nat.leb_spec burn i), (Nat.ltb_spec burn (S i)); try lia; reflexivity.
Qed.
Lemma filter_tail burn : forall n i, filter (fun k => Nat.ltb burn k) (seq (S i) n) = seq (S (Nat.max burn i)) (n - (burn - i)).
Proof.
  induction n as [|n IH]; intro i; [reflexivity|]. cbn [seq filter]. rewrite IH. destruct (Nat.ltb_spec burn (S i)).
  - replace (S n - (burn - i))%nat with (S (n - (burn - S i)))%nat by lia. cbn [seq]. f_equal; [lia|]. f_equal. lia.
  - f_equal; lia.
Qed.
Lemma mh_walk std z thr x ns nb : (forall i, thr i < 1) -> metropolis_hastings (fun _ => Some 0) (fun i x => moved std x (z i)) thr x ns nb = map (walk std x z) (seq (S nb) ns).
Proof.
  intro Ht. unfold metropolis_hastings. change x with (walk std x z 0) at 1. rewrite (walk_run std z thr Ht (ns + nb) 0 nb x), filter_tail. do 2 f_equal; lia.
Qed.
(** ---- comparisons ---- *)
Lemma cont_entry d i : (i < d)%nat -> cont d (fun w => entries w i).
Proof.
  unfold entries. revert i. induction d as [|d IH]; intros i H; [lia|]. destruct i as [|i].
  - apply (cont_ext (S d) (hd 0)); [intros [|a v] L; [discriminate|reflexivity]|apply cont_hd].
  - apply (cont_ext (S d) (fun v => nth i (tl v) 0)); [intros [|a v] L; [discriminate|reflexivity]|]. apply (cont_tl d (fun v => nth i v 0)). apply IH. lia.
Qed.
Lemma cont_rsum {T} d (g : T -> list R -> R) : forall L, (forall t, In t L -> cont d (g t)) -> cont d (fun w => rsum (map (fun t => g t w) L)).
Proof.
  induction L as [|t L IH]; intro H; cbn; [apply cont_const|]. apply cont_plus; [apply H; now left|]. apply IH. intros s Hs. apply H. now right.
Qed.
Lemma cont_linF d X i : cont d (fun w => lin_F d X (entries w) i).
Proof.
  unfold lin_F, sum_to. apply (cont_rsum d (fun a w => X i a * entries w a)). intros a Ha. apply in_seq in Ha. apply (cont_mult d (fun _ => X i a)); [apply cont_const|]. apply cont_entry. lia.
Qed.
Lemma cont_z d X s q : cont d (fun w => z_of s (lin_F d X (entries w)) q).
Proof. unfold z_of. apply (cont_mult d (fun _ => isqrt2sig s * dk_of q)); [apply cont_const|]. apply cont_minus; apply cont_linF. Qed.
Lemma rclip_cts lo hi t : lo <= hi -> continuity_pt (rclip lo hi) t.
Proof.
  intro H. apply (continuity_pt_ext (fun t => Rmin (Rmax t lo) hi)); [reflexivity|]. assert (Ci := continuity_pt_id t). assert (Cc : forall c, continuity_pt (fun _ => c) t) by (intro c; apply continuity_pt_const; now intros ? ?).
  assert (Cmx : continuity_pt (fun t => Rmax t lo) t). { apply (continuity_pt_ext (fun t => (t + lo + Rabs (t - lo)) * / 2)); [intro x; unfold Rmax, Rabs; destruct (Rle_dec x lo), (Rcase_abs (x - lo)); lra|]. apply continuity_pt_mult; [|apply Cc]. apply continuity_pt_plus; [apply continuity_pt_plus; [exact Ci|apply Cc]|]. apply (continuity_pt_comp (fun t => t - lo) Rabs); [apply continuity_pt_minus; [exact Ci|apply Cc]|apply Rcontinuity_abs]. }
  apply (continuity_pt_ext (fun t => (Rmax t lo + hi - Rabs (Rmax t lo - hi)) * / 2)); [intro x; now rewrite rmin_abs|]. apply continuity_pt_mult; [|apply Cc]. apply continuity_pt_minus; [apply continuity_pt_plus; [exact Cmx|apply Cc]|]. apply (continuity_pt_comp (fun t => Rmax t lo - hi) Rabs); [apply continuity_pt_minus; [exact Cmx|apply Cc]|apply Rcontinuity_abs].
Qed.
Lemma term_cts t : continuity_pt (fun t => log_ndtr (rclip (-30) 100 t)) t.
Proof. apply (continuity_pt_comp (rclip (-30) 100) log_ndtr); [apply rclip_cts; lra|]. apply derivable_continuous_pt. eexists. apply is_derive_Reals. apply log_ndtr_derive. Qed.
Lemma log_ndtr_mono x y : x <= y -> log_ndtr x <= log_ndtr y.
Proof. intro H. unfold log_ndtr. destruct (ndtr_range x) as [P _]. destruct (ndtr_le x y H) as [L|L]; [left; now apply ln_increasing|right; now rewrite L]. Qed.
Definition comp_ll (s : R) (r : list pair) (d : nat) (X : nat -> nat -> R) (w : list R) : R := log_likelihood s r (lin_F d X (entries w)).
Lemma cont_comp_ll s r d X : cont d (comp_ll s r d X).
Proof.
  unfold comp_ll, log_likelihood, z_k. apply (cont_ext d (fun w => rsum (map (fun q => log_ndtr (rclip (-30) 100 (z_of s (lin_F d X (entries w)) q))) r))); [intros w _; now rewrite map_map|].
  apply (cont_rsum d (fun q w => log_ndtr (rclip (-30) 100 (z_of s (lin_F d X (entries w)) q)))). intros q _. apply (cont_comp d (fun t => log_ndtr (rclip (-30) 100 t))); [apply term_cts|apply cont_z].
Qed.
Lemma comp_ll_low s r d X w : INR (length r) * log_ndtr (-30) <= comp_ll s r d X w.
Proof.
  unfold comp_ll, log_likelihood, z_k. rewrite map_map. induction r as [|q r IH]; [cbn; lra|]. cbn [length map rsum]. rewrite S_INR. assert (A : log_ndtr (-30) <= log_ndtr (rclip (-30) 100 (z_of s (lin_F d X (entries w)) q))) by (apply log_ndtr_mono; apply rclip_range; lra). lra.
Qed.
Lemma cube_vol d n : vol (cube d n) = (2 * INR n) ^ d.
Proof. unfold cube. induction d as [|d IH]; [reflexivity|]. cbn [repeat vol pow]. rewrite IH. ring. Qed.
Lemma low_mass d l c n : cont d l -> (forall v, length v = d -> c <= l v) -> exp c * (2 * INR n) ^ d <= box_int (cube d n) (fun x => exp (l x)).
Proof.
  intros Cl Lo. rewrite <- cube_vol, <- (proj2 (good_const (exp c) (cube d n) (cube_sides d n))). apply box_le; [apply good_const, cube_sides|apply cube_good, (cont_pi d l Cl)|]. intros v Hv. apply inside_length in Hv. rewrite cube_length in Hv. destruct (Lo v Hv) as [H|H]; [left; now apply exp_increasing|right; now rewrite H].
Qed.
Lemma low_infinite d l c : (0 < d)%nat -> 0 < c -> (forall n, c * INR n ^ d <= box_int (cube d n) (fun x => exp (l x))) -> ~ finite_mass d l.
Proof.
  intros Hd Hc Lo [L HL]. assert (Le := is_lim_seq_unique _ _ HL). apply is_lim_seq_spec in HL. destruct (HL (mkposreal 1 Rlt_0_1)) as [N HN]. cbn in HN. destruct (above ((L + 1) / c + 1)) as [m Hm]. set (n := (N + m + 1)%nat). specialize (HN n ltac:(unfold n; lia)). specialize (Lo n). apply Rabs_def2 in HN.
  assert (P : INR n <= INR n ^ d). { destruct d as [|k]; [lia|]. assert (H1 : 1 <= INR n) by (unfold n; rewrite plus_INR; cbn; assert (Q := pos_INR (N + m)); lra). cbn [pow]. assert (1 <= INR n ^ k) by now apply pow_R1_Rle. nra. }
  assert (Q : (L + 1) / c < INR n) by (unfold n; rewrite !plus_INR; assert (Q1 := pos_INR N); cbn; lra). apply (Rmult_lt_compat_l c) in Q; [|exact Hc]. replace (c * ((L + 1) / c)) with (L + 1) in Q by (field; lra). assert (c * INR n <= c * INR n ^ d) by (apply Rmult_le_compat_l; lra). lra.
Qed.
Lemma lin_only sp P y n d X w : y_ord y = None -> y_abs y = None -> lin_loss sp P y n d X (entries w) = Ok (Some (comp_ll (p_sigma (ps_p P)) (match y_rel y with Some r => r | None => [] end) d X w)).
Proof. intros H1 H2. unfold lin_loss, log_likelyhood_training. rewrite H1, H2. destruct (y_rel y) as [r|]; cbn; [|reflexivity]. unfold comp_ll. do 2 f_equal. ring. Qed.
(** weights that explain all comparisons strictly: the mass of a cube grows like its volume, whatever the clipping *)
Lemma z_scale s d X q w k : z_of s (lin_F d X (fun i => k * w i)) q = k * z_of s (lin_F d X w) q.
Proof.
  unfold z_of, lin_F, sum_to. assert (E : forall i, rsum (map (fun a => X i a * (k * w a)) (seq 0 d)) = k * rsum (map (fun a => X i a * w a) (seq 0 d))) by (intro i; induction (seq 0 d) as [|a L IH]; cbn; [ring|rewrite IH; ring]). rewrite !E. ring.
Qed.
Lemma cone s r d X w0 : length w0 = d -> (forall q, In q r -> 0 < z_of s (lin_F d X (entries w0)) q) -> exists e, 0 < e <= 1 /\ forall w, Forall2 (fun a b => Rabs (a - b) < e) w0 w -> forall q, In q r -> 0 < z_of s (lin_F d X (entries w)) q.
Proof.
  intros L0. induction r as [|q r IH]; intro H; [exists 1; split; [lra|contradiction]|]. destruct IH as [e [He K]]; [intros t Ht; apply H; now right|].
  destruct (bounded_by w0) as [b [Hb Bb]]. destruct (cont_z d X s q (b + 1) (z_of s (lin_F d X (entries w0)) q) ltac:(lra) (H q (or_introl eq_refl))) as [dl [Hd C]]. exists (Rmin e dl). assert (M1 := Rmin_l e dl). assert (M2 := Rmin_r e dl). split; [split; [apply Rmin_glb_lt; lra|lra]|].
  intros w Hw t [<- |Ht].
  - assert (D : Rabs (z_of s (lin_F d X (entries w0)) q - z_of s (lin_F d X (entries w)) q) < z_of s (lin_F d X (entries w0)) q).
    { apply C; [exact L0|]. clear -Hw Bb M1 M2 He. revert Bb. induction Hw as [|x y u v Hxy _ IH]; intro Bb; constructor; inversion Bb as [|? ? B1 B2]; subst; [|now apply IH]. assert (T := tri y x). rewrite (Rabs_minus_sym y x) in T. repeat split; lra. }
    apply Rabs_def2 in D. lra.
  - apply K; [|exact Ht]. clear -Hw M1. induction Hw; constructor; [lra|assumption].
Qed.
Lemma z_ext s d X q u v : (forall i, (i < d)%nat -> u i = v i) -> z_of s (lin_F d X u) q = z_of s (lin_F d X v) q.
Proof.
  intro H. unfold z_of. assert (E : forall i, lin_F d X u i = lin_F d X v i) by (intro i; unfold lin_F, sum_to; f_equal; apply map_ext_in; intros a Ha; apply in_seq in Ha; rewrite H by lia; reflexivity). now rewrite !E.
Qed.
Lemma pow_half s r d X w : (forall q, In q r -> 0 <= z_of s (lin_F d X (entries w)) q) -> (1 / 2) ^ length r <= exp (comp_ll s r d X w).
Proof.
  unfold comp_ll, log_likelihood, z_k. rewrite map_map. induction r as [|q r IH]; intro H; [cbn; rewrite exp_0; lra|]. cbn [length map rsum pow]. rewrite exp_plus. apply Rmult_le_compat; [lra|apply pow_le; lra| |apply IH; intros t Ht; apply H; now right].
  unfold log_ndtr. rewrite exp_ln by apply ndtr_range. rewrite <- ndtr_0. apply ndtr_le. unfold rclip. apply Rmin_glb; [|lra]. eapply Rle_trans; [apply (H q (or_introl eq_refl))|apply Rmax_l].
Qed.
Lemma separable_mass s r d X w0 : length w0 = d -> (forall q, In q r -> 0 < z_of s (lin_F d X (entries w0)) q) ->
  exists c, 0 < c /\ forall n, (1 / 2) ^ length r * (c * INR n) ^ d <= box_int (cube d n) (fun w => exp (comp_ll s r d X w)).
Proof.
  intros L0 H. destruct (cone s r d X w0 L0 H) as [e [He K]]. destruct (bounded_by w0) as [b [Hb Bb]]. set (c := / (b + 1)). assert (Hc : 0 < c) by (apply Rinv_0_lt_compat; lra). exists (c * e). split; [apply Rmult_lt_0_compat; lra|]. intro n.
  set (k := INR n * c). assert (Pn := pos_INR n). assert (Pk : 0 <= k) by (unfold k; apply Rmult_le_pos; lra). set (B := map (fun t => (k * t - k * e / 2, k * t + k * e / 2)) w0).
  assert (LB : length B = d) by (unfold B; now rewrite map_length). assert (SB : sides B) by (unfold B; clear -Pk He; induction w0; constructor; [cbn; nra|assumption]).
  assert (VB : vol B = (c * e * INR n) ^ d). { unfold B. rewrite <- L0. clear -w0. induction w0 as [|t w IH]; [reflexivity|]. cbn [map vol length pow]. rewrite IH. unfold k. field. }
  assert (Kb : k * (b + 1) = INR n) by (unfold k, c; field; lra).
  assert (WB : within B (cube d n)). { unfold B. rewrite <- L0. unfold cube. clear -Bb Kb Pk He Hb. induction Bb as [|t w Ht _ IH]; [constructor|]. cbn. constructor; [|exact IH]. cbn. apply Rabs_le_between in Ht. assert (k * e <= k * 1) by (apply Rmult_le_compat_l; lra). assert (k * - b <= k * t <= k * b) by (split; apply Rmult_le_compat_l; lra). lra. }
  assert (Cp := cont_pi d _ (cont_comp_ll s r d X)). set (f := pi_ (comp_ll s r d X)) in *. assert (N := nested B (cube d n) WB f f SB). rewrite LB in N. specialize (N Cp Cp ltac:(intros v _; rewrite Rabs_right; [lra|left; apply exp_pos])). assert (P0 := Rabs_pos (box_int (cube d n) f - box_int B f)).
  assert (Lo : (1 / 2) ^ length r * vol B <= box_int B f).
  { destruct (Req_dec k 0) as [Z|Z].
    - (* the box is a point *)
      destruct d as [|d'].
      + destruct w0; [|discriminate]. unfold B, f, pi_. cbn [map vol box_int]. rewrite Rmult_1_r. apply (pow_half s r 0 X []). intros q Hq. left. exact (H q Hq).
      + rewrite VB. assert (Hn : INR n = 0) by (rewrite <- Kb, Z; ring). rewrite Hn. cbn [pow]. replace ((1 / 2) ^ length r * (c * e * 0 * (c * e * 0) ^ d')) with 0 by ring. assert (K0 := proj2 (good_const 0 B SB)). rewrite Rmult_0_l in K0. rewrite <- K0. apply box_le; [now apply good_const|apply good_cont; [exact SB|now rewrite LB]|]. intros v _. left. apply exp_pos.
    - rewrite <- (proj2 (good_const ((1 / 2) ^ length r) B SB)). apply box_le; [now apply good_const|apply good_cont; [exact SB|now rewrite LB]|]. intros v Hv. apply (pow_half s r d X v). intros q Hq. left.
      assert (Lv : length v = d) by (rewrite <- LB; now apply inside_length). assert (Kp : 0 < k) by lra. assert (Q : 0 < z_of s (lin_F d X (entries (map (fun t => / k * t) v))) q).
      { apply K; [|exact Hq]. unfold B in Hv. clear -Hv Kp He Z. revert v Hv. induction w0 as [|t w IH]; intros v Hv; inversion Hv as [|? a ? v' Ha Hv']; subst; cbn; constructor; [|now apply IH]. cbn in Ha. replace (t - / k * a) with ((k * t - a) * / k) by (field; lra). rewrite Rabs_mult, (Rabs_right (/ k)) by (left; now apply Rinv_0_lt_compat). apply (Rmult_lt_reg_r k); [exact Kp|]. rewrite Rmult_assoc, Rinv_l, Rmult_1_r by lra. apply Rabs_def1; nra. }
      rewrite (z_ext s d X q (entries (map (fun t => / k * t) v)) (fun i => / k * entries v i)) in Q.
      + rewrite z_scale in Q. assert (0 < / k) by now apply Rinv_0_lt_compat. apply (Rmult_lt_reg_l (/ k)); [assumption|lra].
      + intros i Hi. unfold entries. rewrite (nth_indep _ 0 (/ k * 0)) by (rewrite map_length; lia). now rewrite (map_nth (fun t => / k * t)). }
  rewrite VB in Lo. change (fun w => exp (comp_ll s r d X w)) with f. lra.
Qed.
Lemma weights_mass sp P y n d X : y_ord y = None -> y_abs y = None -> (0 < d)%nat ->
  exists l, (forall w, lin_loss sp P y n d X (entries w) = Ok (Some (l w))) /\ cont d l /\ ~ finite_mass d l.
Proof.
  intros H1 H2 Hd. set (r := match y_rel y with Some r => r | None => [] end). exists (comp_ll (p_sigma (ps_p P)) r d X). split; [intro w; now apply lin_only|]. split; [apply cont_comp_ll|]. set (c := INR (length r) * log_ndtr (-30)).
  apply (low_infinite d _ (exp c * 2 ^ d) Hd); [apply Rmult_lt_0_compat; [apply exp_pos|apply pow_lt; lra]|]. intro k. eapply Rle_trans; [|apply (low_mass d _ c k (cont_comp_ll _ r d X)); intros v _; apply comp_ll_low]. right. rewrite Rpow_mult_distr. ring.
Qed.
Lemma weights_none sp P y n d X l std p B : y_ord y = None -> y_abs y = None -> (0 < d)%nat -> (forall w, lin_loss sp P y n d X (entries w) = Ok (Some (l w))) ->
  std <> 0 -> density d p -> (forall v, length v = d -> p v <= B) -> ~ stationary d std l p.
Proof.
  intros H1 H2 Hd E Hs Dp Bp. destruct (weights_mass sp P y n d X H1 H2 Hd) as [l' [E' [Cl Inf]]]. assert (EE : forall w, l w = l' w) by (intro w; specialize (E w); rewrite E' in E; now injection E).
  set (r := match y_rel y with Some r => r | None => [] end). apply (mh_none d std l p B (INR (length r) * log_ndtr (-30))); try assumption.
  - apply (cont_ext d l'); [intros; symmetry; apply EE|exact Cl].
  - intros v _. assert (Ev := E v). rewrite (lin_only sp P y n d X v H1 H2) in Ev. injection Ev as <-. apply comp_ll_low.
  - intros [L HL]. apply Inf. exists L. apply (is_lim_seq_ext (fun n => box_int (cube d n) (fun x => exp (l x)))); [|exact HL]. intro k. apply box_ext. intros v _. now rewrite EE.
Qed.
