(** Lemmas for Monte-Carlo sampling of real vectors: no other density is stationary. *)
From Coquelicot Require Import Coquelicot.
From Coq Require Import Reals Lra Lia List Arith.
From Verif Require Import M_RBase M_Normal M_Util S_MH P_MH S_MHR P_Normal P_Box P_MHR P_MHR2.
Import ListNotations.
Local Open Scope R_scope.
Local Arguments RInt {V} f a b : simpl never.

Lemma moved_vadd std : forall x z, moved std x z = vadd x (map (fun t => std * t) z).
Proof. induction x as [|a x IH]; intros [|t z]; try reflexivity. cbn. now rewrite IH. Qed.
Lemma cont_vadd d f c : length c = d -> cont d f -> cont d (fun x => f (vadd x c)).
Proof.
  intros Hc C. apply (cont_ext d (fun x => f (moved 1 x c))); [intros v _; rewrite moved_vadd; do 2 f_equal; rewrite (map_ext _ (fun t => t)) by (intro; ring); apply map_id|].
  apply (cont2_slice d d (fun z x => f (moved 1 x z)) c); [|exact Hc]. now apply (cont2_swap d d), (cont2_moved d 1 f).
Qed.
(** a continuous function that is not negative and whose integral is zero is zero *)
Lemma box_zero A f x : sides A -> cont (length A) f -> (forall v, length v = length A -> 0 <= f v) -> Forall2 (fun ab t => fst ab < t < snd ab) A x -> box_int A f = 0 -> f x = 0.
Proof.
  intros S C P I Z. assert (Lx : length x = length A) by (symmetry; now apply F2_length in I). destruct (Rle_lt_or_eq_dec 0 (f x) (P x Lx)) as [H|H]; [|now symmetry]. exfalso.
  destruct (bounded_by x) as [r [Hr Br]]. destruct (C (r + 1) (f x / 2) ltac:(lra) ltac:(lra)) as [dl [Hd K]].
  assert (D : exists e, 0 < e < Rmin dl 1 /\ within (map (fun t => (t - e, t + e)) x) A).
  { clear -I Hd. assert (Hm : 0 < Rmin dl 1) by (apply Rmin_glb_lt; lra). induction I as [|[a b] t A x [H1 H2] _ [e [E W]]]; [exists (Rmin dl 1 / 2); split; [lra|constructor]|]. cbn in H1, H2. exists (Rmin e (Rmin ((t - a) / 2) ((b - t) / 2))).
    assert (U1 := Rmin_l e (Rmin ((t - a) / 2) ((b - t) / 2))). assert (U2 := Rmin_r e (Rmin ((t - a) / 2) ((b - t) / 2))). assert (U3 := Rmin_l ((t - a) / 2) ((b - t) / 2)). assert (U4 := Rmin_r ((t - a) / 2) ((b - t) / 2)). assert (U5 : 0 < Rmin e (Rmin ((t - a) / 2) ((b - t) / 2))) by (repeat apply Rmin_glb_lt; lra).
    split; [lra|]. constructor; [cbn; lra|]. set (q := Rmin e (Rmin ((t - a) / 2) ((b - t) / 2))) in *. clearbody q. clear -W U1. revert A W. induction x as [|s x IH]; intros A W; inversion W as [|? ? ? ? H W']; subst; constructor; [cbn in *; lra|now apply IH]. }
  destruct D as [e [[He1 He2] W]]. set (B := map (fun t => (t - e, t + e)) x) in *. assert (LB : length B = length A) by now apply F2_length in W.
  assert (SB : sides B) by (unfold B; clear -He1; induction x; constructor; [cbn; lra|assumption]). assert (PB : 0 < vol B) by (unfold B; clear -He1; induction x as [|t x IH]; cbn; [lra|]; apply Rmult_lt_0_compat; [lra|exact IH]).
  assert (N := nested B A W f f SB ltac:(now rewrite LB) ltac:(now rewrite LB) ltac:(intros v Hv; rewrite Rabs_right; [lra|apply Rle_ge, P; congruence])). assert (Pn := Rabs_pos (box_int A f - box_int B f)).
  assert (L : f x / 2 * vol B <= box_int B f).
  { rewrite <- (proj2 (good_const (f x / 2) B SB)). apply box_le; [now apply good_const|apply good_cont; [exact SB|now rewrite LB]|]. intros v Hv. assert (Lv := inside_length _ _ Hv). assert (Q : Rabs (f x - f v) < f x / 2).
    { apply K; [exact Lx|]. assert (M1 := Rmin_l dl 1). assert (M2 := Rmin_r dl 1). unfold B in Hv. clear -Hv He1 He2 M1 M2 Br. revert v Hv. induction Br as [|t x Ht _ IH]; intros v Hv; inversion Hv as [|? s ? v' Hs Hv']; subst; constructor; [|now apply IH]. cbn in Hs. assert (Ab : Rabs (t - s) < dl) by (apply Rabs_def1; lra).
      repeat split; [lra| |exact Ab]. assert (T := tri s t). assert (Rabs (s - t) < 1) by (apply Rabs_def1; lra). lra. }
    apply Rabs_def2 in Q. lra. }
  assert (0 < f x / 2 * vol B) by (apply Rmult_lt_0_compat; lra). lra.
Qed.
Section Unique.
Variables (d : nat) (std : R) (l p : list R -> R) (M : R).
Hypotheses (Hl : cont d l) (HM : 0 <= M) (Cp : cont d p) (Pp : forall v, length v = d -> 0 <= p v <= M * exp (l v)) (Tp : is_lim_seq (fun n => box_int (cube d n) p) 1).
Definition fr (x : list R) : R := p x * exp (- l x).
Lemma fr_p x : p x = exp (l x) * fr x.
Proof. unfold fr. replace (exp (l x) * (p x * exp (- l x))) with (p x * (exp (l x) * exp (- l x))) by ring. rewrite <- exp_plus, Rplus_opp_r, exp_0. ring. Qed.
Lemma fr_range x : length x = d -> 0 <= fr x <= M.
Proof.
  intro Hx. destruct (Pp x Hx) as [A B]. unfold fr. assert (E := exp_pos (- l x)). split; [apply Rmult_le_pos; lra|]. apply (Rmult_le_compat_r (exp (- l x))) in B; [|lra]. replace (M * exp (l x) * exp (- l x)) with (M * (exp (l x) * exp (- l x))) in B by ring. rewrite <- exp_plus, Rplus_opp_r, exp_0 in B. lra.
Qed.
Lemma fr_class : class d M fr.
Proof.
  split; [|intros v Hv; rewrite Rabs_right; [now apply fr_range|apply Rle_ge; now apply fr_range]]. apply (cont_mult d p (fun x => exp (- l x))); [exact Cp|]. apply (cont_comp d (fun t => exp (- t))); [|exact Hl]. intro t. apply (continuity_pt_comp Ropp exp); [apply derivable_continuous_pt, derivable_pt_opp, derivable_pt_id|apply derivable_continuous_pt, derivable_pt_exp].
Qed.
Lemma p_ex : ex_finite_lim_seq (fun n => box_int (cube d n) p).
Proof. now exists 1. Qed.
Lemma p_whole : whole_int d p = 1.
Proof. now apply whole_is. Qed.
Lemma p_nonneg v : length v = d -> 0 <= p v.
Proof. intro Hv. now apply Pp. Qed.
Notation w := (wt std l fr).
Definition gap (x z : list R) : R := w x z * (fr (moved std x z) - fr x).
Lemma gap_nonneg x z : 0 <= gap x z.
Proof. unfold gap, wt. rewrite Rmult_assoc. apply Rmult_le_pos; [left; apply Rmin_glb_lt; apply exp_pos|]. assert (S := Rle_0_sqr (fr (moved std x z) - fr x)). exact S. Qed.
Lemma w_cont : cont2 d d w.
Proof. apply (wt_cont d std l M Hl fr fr_class). Qed.
Lemma frm_cont : cont2 d d (fun x z => fr (moved std x z)).
Proof. apply cont2_moved, fr_class. Qed.
Lemma gap_cont : cont2 d d gap.
Proof. apply cont2_mult; [apply w_cont|]. apply cont2_minus; [apply frm_cont|apply cont2_left, fr_class]. Qed.
Lemma slice1 g z : cont2 d d g -> length z = d -> cont d (fun x => g x z).
Proof. intros C Hz. exact (cont2_slice d d (fun z x => g x z) z (cont2_swap d d g C) Hz). Qed.
Lemma over_bound x z : length x = d -> length z = d -> Rabs (fr (moved std x z) * w x z) <= M * (p x + p (moved std x z)).
Proof.
  intros Hx Hz. assert (Ly : length (moved std x z) = d) by (rewrite moved_length; lia). destruct (fr_range x Hx) as [A1 A2]. destruct (fr_range _ Ly) as [B1 B2]. unfold wt, pi_. rewrite (fr_p x), (fr_p (moved std x z)). set (y := moved std x z) in *.
  assert (Px := exp_pos (l x)). assert (Py := exp_pos (l y)). assert (R0 : 0 < Rmin (exp (l x)) (exp (l y))) by now apply Rmin_glb_lt. assert (R1 := Rmin_l (exp (l x)) (exp (l y))). assert (R2 := Rmin_r (exp (l x)) (exp (l y))). set (r := Rmin _ _) in *.
  rewrite !Rabs_mult, (Rabs_right (fr y)), (Rabs_right r) by lra. assert (T : Rabs (fr y - fr x) <= fr y + fr x) by (apply Rabs_le; lra). apply Rmult_le_compat; [lra|apply Rmult_le_pos; [lra|apply Rabs_pos]|lra|]. apply (Rle_trans _ (r * (fr y + fr x))); [apply Rmult_le_compat_l; lra|]. nra.
Qed.
Lemma pair_sum z n m K : length z = d -> Forall (fun t => Rabs t <= INR m) z -> Rabs std * INR m <= INR K -> (2 * K <= n)%nat ->
  Rabs (box_int (cube d n) (fun x => fr x * w x z) + box_int (cube d n) (fun x => fr x * w x (map Ropp z)) + box_int (cube d n) (fun x => gap x z)) <= 4 * M * (1 - box_int (cube d (n - 2 * K)) p).
Proof.
  intros Hz Bz HK L. set (c := map (fun t => - (std * t)) z). set (c' := map (fun t => std * t) z). assert (Lc : length c = d) by (unfold c; now rewrite map_length). assert (Lc' : length c' = d) by (unfold c'; now rewrite map_length).
  assert (Bc : Forall (fun t => Rabs t <= INR K) c /\ Forall (fun t => Rabs t <= INR K) c').
  { unfold c, c'. clear -Bz HK. assert (P := Rabs_pos std). induction Bz as [|t z Ht _ [I1 I2]]; split; constructor; try assumption; rewrite ?Rabs_Ropp, Rabs_mult; assert (Rabs std * Rabs t <= Rabs std * INR m) by (apply Rmult_le_compat_l; [apply Rabs_pos|exact Ht]); lra. }
  destruct Bc as [Bc Bc']. destruct (shift_within d n K ltac:(lia) c Lc Bc) as [W1 [W2 [SS SL]]].
  set (v := fun x => fr (moved std x z) * w x z). assert (Cv2 : cont2 d d (fun x z => fr (moved std x z) * w x z)) by (apply (cont2_mult d d (fun x z => fr (moved std x z))); [apply frm_cont|apply w_cont]). assert (Cv : cont d v) by exact (slice1 _ z Cv2 Hz).
  assert (Cu2 : cont2 d d (fun x z => fr x * w x z)) by (apply (cont2_mult d d (fun x _ => fr x)); [apply cont2_left, fr_class|apply w_cont]). assert (Cu : cont d (fun x => fr x * w x z)) by exact (slice1 _ z Cu2 Hz). assert (Cg : cont d (fun x => gap x z)) by exact (slice1 _ z gap_cont Hz).
  assert (E : box_int (cube d n) (fun x => fr x * w x (map Ropp z)) = - box_int (shift c (cube d n)) v).
  { rewrite <- (box_shift c (cube d n) v); [|rewrite cube_length; congruence|apply cube_sides|now rewrite Lc].
    replace (- box_int (cube d n) (fun x => v (vadd x c))) with (-1 * box_int (cube d n) (fun x => v (vadd x c))) by ring. rewrite <- (proj2 (good_scal (-1) _ _ (cube_good d n _ (cont_vadd d v c Lc Cv)))). apply box_ext. intros x Hx. rewrite cube_length in Hx. rewrite (wt_back d) by assumption. unfold v, c. rewrite moved_back by congruence. ring. }
  assert (E2 : box_int (cube d n) (fun x => fr x * w x z) + box_int (cube d n) (fun x => gap x z) = box_int (cube d n) v).
  { rewrite <- (proj2 (good_plus _ _ _ (cube_good d n _ Cu) (cube_good d n _ Cg))). apply box_ext. intros x _. unfold v, gap. ring. }
  replace (box_int (cube d n) (fun x => fr x * w x z) + box_int (cube d n) (fun x => fr x * w x (map Ropp z)) + box_int (cube d n) (fun x => gap x z)) with ((box_int (cube d n) v - box_int (cube d (n - K)) v) + - (box_int (shift c (cube d n)) v - box_int (cube d (n - K)) v)) by (rewrite E, <- E2; ring).
  eapply Rle_trans; [apply Rabs_triang|]. rewrite Rabs_Ropp.
  set (pm := fun x => p (moved std x z)). assert (Cpm : cont d pm) by (exact (slice1 (fun x z => p (moved std x z)) z (cont2_moved d std p Cp) Hz)).
  set (F := fun x => M * (p x + pm x)). assert (CF : cont d F) by (apply (cont_mult d (fun _ => M)); [apply cont_const|now apply cont_plus]).
  assert (BF : forall x, length x = d -> Rabs (v x) <= F x) by (intros x Hx; unfold v, F, pm; now apply over_bound).
  assert (N1 := cube_step d v F (n - K) n Cv CF BF ltac:(lia)). assert (N2 := nested _ _ W1 v F (cube_sides d _)). rewrite cube_length in N2. specialize (N2 Cv CF BF).
  assert (GF : forall A, sides A -> length A = d -> box_int A F = M * (box_int A p + box_int A pm)).
  { intros A SA LA. assert (G1 : good A p) by (apply good_cont; [exact SA|now rewrite LA]). assert (G2 : good A pm) by (apply good_cont; [exact SA|now rewrite LA]). destruct (good_plus A p pm G1 G2) as [G3 E3]. unfold F. rewrite (proj2 (good_scal M A _ G3)), E3. reflexivity. }
  rewrite !GF in N1, N2 by (try apply cube_sides; try apply cube_length; assumption).
  assert (Pabs : forall v, length v = d -> Rabs (p v) <= p v) by (intros x Hx; rewrite Rabs_right; [lra|apply Rle_ge; now apply p_nonneg]).
  assert (Up : forall A k, within A (cube d k) -> sides A -> length A = d -> box_int A p <= 1).
  { intros A k WA SA LA. assert (Q := nested _ _ WA p p SA). rewrite LA in Q. specialize (Q Cp Cp Pabs). assert (P0 := Rabs_pos (box_int (cube d k) p - box_int A p)). assert (B := cube_below d p Cp p_nonneg p_ex k). rewrite p_whole in B. lra. }
  assert (Lo : forall A k, within (cube d k) A -> box_int (cube d k) p <= box_int A p).
  { intros A k WA. assert (Q := nested _ _ WA p p (cube_sides d k)). rewrite cube_length in Q. specialize (Q Cp Cp Pabs). assert (P0 := Rabs_pos (box_int A p - box_int (cube d k) p)). lra. }
  assert (Sh : forall k, box_int (cube d k) pm = box_int (shift c' (cube d k)) p). { intro k. rewrite <- (box_shift c' (cube d k) p); [|rewrite cube_length; congruence|apply cube_sides|now rewrite Lc']. apply box_ext. intros x _. unfold pm, c'. now rewrite moved_vadd. }
  assert (Sb : box_int (shift c (cube d n)) pm = box_int (cube d n) p). { rewrite <- (box_shift c (cube d n) pm); [|rewrite cube_length; congruence|apply cube_sides|now rewrite Lc]. apply box_ext. intros x Hx. rewrite cube_length in Hx. unfold pm, c. rewrite moved_back by congruence. reflexivity. }
  destruct (shift_within d n K ltac:(lia) c' Lc' Bc') as [X1 [X2 [X3 X4]]]. destruct (shift_within d (n - K) K ltac:(lia) c' Lc' Bc') as [Y1 [Y2 [Y3 Y4]]]. replace (n - K - K)%nat with (n - 2 * K)%nat in Y1 by lia.
  rewrite (Sh n), (Sh (n - K)%nat) in N1. rewrite Sb, (Sh (n - K)%nat) in N2.
  assert (I1 := Up _ _ (cube_within d n n (le_n n)) (cube_sides d n) (cube_length d n)). assert (I2 := Up _ _ X2 X3 X4). assert (I3 := Up _ _ W2 SS SL). assert (I4 := Lo _ _ Y1). assert (I5 := Lo _ _ (cube_within d (n - 2 * K) (n - K) ltac:(lia))).
  assert (Fin : forall a b a' b' t, a <= 1 -> b <= 1 -> t <= a' -> t <= b' -> M * (a + b) - M * (a' + b') <= 2 * M * (1 - t)).
  { intros a b a' b' t A1 A2 A3 A4. replace (M * (a + b) - M * (a' + b')) with (M * (a + b - a' - b')) by ring. replace (2 * M * (1 - t)) with (M * (2 * (1 - t))) by ring. apply Rmult_le_compat_l; lra. }
  assert (J1 := Fin _ _ _ _ _ I1 I2 I5 I4). assert (J2 := Fin _ _ _ _ _ I3 I1 I5 I4). lra.
Qed.
Notation S_ n := (fun z => box_int (cube d n) (fun x => fr x * w x z)).
Lemma S_cont n : cont d (S_ n).
Proof.
  apply (int_cont d (fun z x => fr x * w x z)); [apply cube_sides|]. rewrite cube_length. apply (cont2_swap d d (fun x z => fr x * w x z)). apply (cont2_mult d d (fun x _ => fr x)); [apply cont2_left, fr_class|apply w_cont].
Qed.
Lemma gaps_cont n : cont d (fun z => box_int (cube d n) (fun x => gap x z)).
Proof. apply (int_cont d (fun z x => gap x z)); [apply cube_sides|]. rewrite cube_length. apply (cont2_swap d d), gap_cont. Qed.
Definition total_gap (n m : nat) : R := box_int (cube d m) (fun z => bell z * box_int (cube d n) (fun x => gap x z)).
Lemma flux n m K : Rabs std * INR m <= INR K -> (2 * K <= n)%nat ->
  Rabs (2 * box_int (cube d n) (fun x => p x * box_int (cube d m) (inc std l fr x)) + total_gap n m) <= 4 * M * (1 - box_int (cube d (n - 2 * K)) p).
Proof.
  intros HK L.
  assert (Cbw : cont2 d d (fun x z => bell z * (fr x * w x z))) by (apply (cont2_mult d d (fun _ z => bell z)); [apply cont2_right, cont_bell|]; apply (cont2_mult d d (fun x _ => fr x)); [apply cont2_left, fr_class|apply w_cont]).
  assert (E : box_int (cube d n) (fun x => p x * box_int (cube d m) (inc std l fr x)) = box_int (cube d m) (fun z => bell z * S_ n z)).
  { transitivity (box_int (cube d n) (fun x => box_int (cube d m) (fun z => bell z * (fr x * w x z)))).
    - apply box_ext. intros x Hx. rewrite cube_length in Hx. rewrite <- (proj2 (good_scal (p x) _ _ (cube_good d m _ (inc_slice d std l M Hl fr x fr_class Hx)))). apply box_ext. intros z _. unfold inc, wt. rewrite <- pi_acc, (fr_p x). unfold pi_. ring.
    - rewrite (fubini (cube d n) (cube d m) (fun x z => bell z * (fr x * w x z))); [|apply cube_sides|apply cube_sides|now rewrite !cube_length]. apply box_ext. intros z Hz. rewrite cube_length in Hz. apply good_scal. apply cube_good. apply (slice1 (fun x z => fr x * w x z) z); [|exact Hz]. apply (cont2_mult d d (fun x _ => fr x)); [apply cont2_left, fr_class|apply w_cont]. }
  rewrite E. set (f := fun z => bell z * S_ n z). assert (Cf : cont d f) by (apply (cont_mult d bell); [apply cont_bell|apply S_cont]). assert (R := box_reflect d m f Cf).
  assert (Cr : cont d (fun z => f (map Ropp z))) by now apply cont_opp. set (t := fun z => bell z * box_int (cube d n) (fun x => gap x z)). assert (Ct : cont d t) by (apply (cont_mult d bell); [apply cont_bell|apply gaps_cont]).
  assert (E1 : 2 * box_int (cube d m) f + total_gap n m = box_int (cube d m) (fun z => f z + f (map Ropp z) + t z)).
  { destruct (good_plus _ _ _ (cube_good d m f Cf) (cube_good d m _ Cr)) as [G1 E1]. rewrite (proj2 (good_plus _ _ _ G1 (cube_good d m t Ct))), E1, R. unfold total_gap. fold t. ring. }
  rewrite E1. set (B := 4 * M * (1 - box_int (cube d (n - 2 * K)) p)). assert (U := cube_below d p Cp p_nonneg p_ex (n - 2 * K)). rewrite p_whole in U. assert (PB : 0 <= B) by (unfold B; apply Rmult_le_pos; lra).
  assert (Cs : cont d (fun z => f z + f (map Ropp z) + t z)) by (apply cont_plus; [now apply cont_plus|exact Ct]). assert (G1 := cube_good d m _ Cs).
  assert (Q : Rabs (box_int (cube d m) (fun z => f z + f (map Ropp z) + t z)) <= B * box_int (cube d m) bell).
  { destruct (good_scal B _ bell (cube_good d m bell (cont_bell d))) as [G2 E2]. destruct (good_scal (- B) _ bell (cube_good d m bell (cont_bell d))) as [G3 E3].
    assert (P : forall z, inside (cube d m) z -> Rabs (f z + f (map Ropp z) + t z) <= B * bell z).
    { intros z Hz. assert (Lz := inside_length _ _ Hz). rewrite cube_length in Lz. unfold f, t. rewrite bell_opp, <- !Rmult_plus_distr_l, Rabs_mult, Rmult_comm. assert (Pb := bell_pos z). rewrite (Rabs_right (bell z)) by lra. apply Rmult_le_compat_r; [lra|]. unfold B. apply (pair_sum z n m K); auto.
      clear -Hz. unfold cube in Hz. remember (repeat (- INR m, INR m) d) as A eqn:EA. revert EA. generalize d as k. induction Hz as [|[a b] t A z H _ IH]; intros k EA; [constructor|]. destruct k as [|k]; [discriminate|]. cbn in EA. injection EA as E1 E2 E3. constructor; [cbn in H; subst; apply Rabs_le; lra|now apply (IH k)]. }
    apply Rabs_le. split.
    - replace (- (B * box_int (cube d m) bell)) with (- B * box_int (cube d m) bell) by ring. rewrite <- E3. apply box_le; [exact G3|exact G1|]. intros z Hz. specialize (P z Hz). apply Rabs_le_between in P. lra.
    - rewrite <- E2. apply box_le; [exact G1|exact G2|]. intros z Hz. specialize (P z Hz). apply Rabs_le_between in P. lra. }
  assert (B1 : box_int (cube d m) bell <= 1) by (rewrite <- (bell_whole d); apply cube_below; [apply cont_bell|intros v _; left; apply bell_pos|apply bell_ex]). nra.
Qed.
Lemma gap_mono n n' m m' : (n <= n')%nat -> (m <= m')%nat -> total_gap n m <= total_gap n' m'.
Proof.
  intros Ln Lm. unfold total_gap. set (t := fun n z => bell z * box_int (cube d n) (fun x => gap x z)). assert (Ct : forall n, cont d (t n)) by (intro k; apply (cont_mult d bell); [apply cont_bell|apply gaps_cont]).
  assert (Inc : forall z, length z = d -> box_int (cube d n) (fun x => gap x z) <= box_int (cube d n') (fun x => gap x z)) by (intros z Hz; apply cube_incr; [apply (slice1 gap z gap_cont Hz)|intros; apply gap_nonneg|exact Ln]).
  assert (P : forall k z, length z = d -> 0 <= t k z).
  { intros k z Hz. unfold t. apply Rmult_le_pos; [left; apply bell_pos|]. assert (K0 := proj2 (good_const 0 (cube d k) (cube_sides d k))). rewrite Rmult_0_l in K0. rewrite <- K0. apply box_le; [apply good_const, cube_sides|apply cube_good, (slice1 gap z gap_cont Hz)|intros; apply gap_nonneg]. }
  apply (Rle_trans _ (box_int (cube d m) (t n'))).
  - apply box_le; [apply cube_good, Ct|apply cube_good, Ct|]. intros z Hz. apply inside_length in Hz. rewrite cube_length in Hz. unfold t. apply Rmult_le_compat_l; [left; apply bell_pos|now apply Inc].
  - apply cube_incr; [apply Ct|intros; now apply P|exact Lm].
Qed.
Hypothesis (Hst : whole_int d (fun x => p x * round d std l fr x) = whole_int d (fun x => p x * fr x)).
Lemma gap_zero n0 m0 : total_gap n0 m0 = 0.
Proof.
  assert (Hr := round_class d std l M Hl HM fr fr_class).
  assert (Dom : forall g, class d M g -> cont d (fun x => p x * g x) /\ ex_finite_lim_seq (fun n => box_int (cube d n) (fun x => p x * g x))).
  { intros g [C B]. assert (CF : cont d (fun x => M * p x)) by (apply (cont_mult d (fun _ => M)); [apply cont_const|exact Cp]). assert (C1 : cont d (fun x => p x * g x)) by now apply (cont_mult d p). split; [exact C1|].
    apply (dominated d _ (fun x => M * p x)); [exact C1|exact CF| |].
    - intros v Hv. assert (P0 := p_nonneg v Hv). rewrite Rabs_mult, (Rabs_right (p v)) by lra. rewrite Rmult_comm. apply Rmult_le_compat_r; [exact P0|now apply B].
    - exists (M * whole_int d p). apply scal_lim; [exact Cp|apply whole_lim, p_ex]. }
  destruct (Dom _ fr_class) as [C1 X1]. destruct (Dom _ Hr) as [C2 X2].
  assert (P0 : 0 <= total_gap n0 m0).
  { unfold total_gap. assert (K0 := proj2 (good_const 0 (cube d m0) (cube_sides d m0))). rewrite Rmult_0_l in K0. rewrite <- K0. apply box_le; [apply good_const, cube_sides|apply cube_good, (cont_mult d bell); [apply cont_bell|apply gaps_cont]|]. intros z Hz. apply inside_length in Hz. rewrite cube_length in Hz. apply Rmult_le_pos; [left; apply bell_pos|].
    assert (K1 := proj2 (good_const 0 (cube d n0) (cube_sides d n0))). rewrite Rmult_0_l in K1. rewrite <- K1. apply box_le; [apply good_const, cube_sides|apply cube_good, (slice1 gap z gap_cont Hz)|intros; apply gap_nonneg]. }
  destruct (Rle_lt_or_eq_dec _ _ P0) as [H|H]; [|now symmetry]. exfalso. set (e := total_gap n0 m0) in *.
  assert (L : is_lim_seq (fun n => box_int (cube d n) (fun x => p x * round d std l fr x) - box_int (cube d n) (fun x => p x * fr x)) 0).
  { replace (Finite 0) with (Finite (whole_int d (fun x => p x * round d std l fr x) - whole_int d (fun x => p x * fr x))) by (f_equal; lra). apply is_lim_seq_minus'; now apply whole_lim. }
  apply is_lim_seq_spec in L. destruct (L (mkposreal (e / 8) ltac:(lra))) as [N1 H1]. cbn in H1.
  set (q := 4 * M + 1). assert (Pq : 0 < q) by (unfold q; lra). assert (Lb := bell_lim d). apply is_lim_seq_spec in Lb. destruct (Lb (mkposreal (e / (4 * q)) ltac:(apply Rdiv_lt_0_compat; lra))) as [m1 Hm]. cbn in Hm. set (m := (m0 + m1)%nat). specialize (Hm m ltac:(unfold m; lia)).
  destruct (above (Rabs std * INR m)) as [K HK]. assert (Lp := Tp). apply is_lim_seq_spec in Lp. destruct (Lp (mkposreal (e / (4 * q)) ltac:(apply Rdiv_lt_0_compat; lra))) as [N2 H2]. cbn in H2.
  set (n := (n0 + N1 + N2 + 2 * K)%nat). specialize (H1 n ltac:(unfold n; lia)). specialize (H2 (n - 2 * K)%nat ltac:(unfold n; lia)). assert (Fl := flux n m K ltac:(lra) ltac:(unfold n; lia)). assert (Mo := gap_mono n0 n m0 m ltac:(unfold n; lia) ltac:(unfold m; lia)). fold e in Mo.
  assert (Ci : cont d (fun x => p x * box_int (cube d m) (inc std l fr x))) by (apply (cont_mult d p); [exact Cp|]; apply int_cont; [apply cube_sides|rewrite cube_length; apply (inc_cont d std l M Hl fr fr_class)]).
  destruct (good_minus _ _ _ (cube_good d n _ C2) (cube_good d n _ C1)) as [G3 E3]. rewrite <- E3 in H1. set (tl_ := 2 * M * (1 - box_int (cube d m) bell)).
  assert (B1 : box_int (cube d m) bell <= 1) by (rewrite <- (bell_whole d); apply cube_below; [apply cont_bell|intros v _; left; apply bell_pos|apply bell_ex]).
  assert (T0 : 0 <= tl_) by (unfold tl_; nra). destruct (good_scal tl_ _ p (cube_good d n _ Cp)) as [G4 E4]. destruct (good_minus _ _ _ G3 (cube_good d n _ Ci)) as [G5 E5]. destruct (good_scal (- tl_) _ p (cube_good d n _ Cp)) as [G6 E6].
  assert (D : Rabs (box_int (cube d n) (fun v => p v * round d std l fr v - p v * fr v) - box_int (cube d n) (fun x => p x * box_int (cube d m) (inc std l fr x))) <= tl_).
  { rewrite <- E5. assert (Un := cube_below d p Cp p_nonneg p_ex n). rewrite p_whole in Un. apply (Rle_trans _ (tl_ * box_int (cube d n) p)); [|rewrite <- (Rmult_1_r tl_) at 2; now apply Rmult_le_compat_l].
    assert (P : forall v, inside (cube d n) v -> Rabs (p v * round d std l fr v - p v * fr v - p v * box_int (cube d m) (inc std l fr v)) <= tl_ * p v).
    { intros v Hv. apply inside_length in Hv. rewrite cube_length in Hv. assert (Pv := p_nonneg v Hv). replace (p v * round d std l fr v - p v * fr v - p v * box_int (cube d m) (inc std l fr v)) with (p v * (round d std l fr v - fr v - box_int (cube d m) (inc std l fr v))) by ring. rewrite Rabs_mult, (Rabs_right (p v)) by lra. rewrite Rmult_comm. apply Rmult_le_compat_r; [exact Pv|]. apply (inc_tail d std l M Hl fr v m fr_class Hv). }
    apply Rabs_le. split.
    - replace (- (tl_ * box_int (cube d n) p)) with (- tl_ * box_int (cube d n) p) by ring. rewrite <- E6. apply box_le; [exact G6|exact G5|]. intros v Hv. specialize (P v Hv). apply Rabs_le_between in P. lra.
    - rewrite <- E4. apply box_le; [exact G5|exact G4|]. intros v Hv. specialize (P v Hv). apply Rabs_le_between in P. lra. }
  rewrite Rminus_0_r in H1. apply Rabs_def2 in H1, H2, Hm. apply Rabs_le_between in D, Fl.
  assert (Q : forall x, x < e / (4 * q) -> 4 * M * x < e / 4 \/ x < 0). { intros x Hx. destruct (Rlt_dec x 0) as [N|N]; [now right|left]. apply (Rle_lt_trans _ (4 * M * (e / (4 * q)))); [apply Rmult_le_compat_l; lra|]. apply (Rmult_lt_reg_r (4 * q)); [lra|]. replace (4 * M * (e / (4 * q)) * (4 * q)) with (4 * M * e) by (field; lra). replace (e / 4 * (4 * q)) with (e * q) by field. unfold q. nra. }
  assert (U := cube_below d p Cp p_nonneg p_ex (n - 2 * K)). rewrite p_whole in U. destruct (Q (1 - box_int (cube d (n - 2 * K)) p) ltac:(lra)) as [Q1|Q1]; [|lra]. destruct (Q (1 - box_int (cube d m) bell) ltac:(lra)) as [Q2|Q2]; [|lra]. unfold tl_ in D. lra.
Qed.
Hypothesis (Hstd : std <> 0).
Lemma fr_const x y : length x = d -> length y = d -> fr x = fr y.
Proof.
  intros Hx Hy.
  assert (Z : exists z, length z = d /\ moved std x z = y).
  { clear -Hx Hy Hstd. revert y Hx Hy. generalize d as k. induction x as [|a x IH]; intros k [|b y] Hx Hy; try (cbn in *; lia); [exists []; split; [exact Hx|reflexivity]|]. destruct k as [|k]; [discriminate|]. injection Hx as Hx. injection Hy as Hy. destruct (IH k y Hx Hy) as [z [Lz E]]. exists ((b - a) / std :: z). split; [cbn; now rewrite Lz|]. cbn. rewrite E. f_equal. field. exact Hstd. }
  destruct Z as [z [Hz E]].
  assert (In : forall v, exists m, length v = d -> Forall2 (fun ab t => fst ab < t < snd ab) (cube d m) v).
  { intro v. destruct (bounded_by v) as [r [_ Br]]. destruct (above r) as [m Hm]. exists m. unfold cube. clear -Br Hm. generalize d as k. induction Br as [|a v Ha _ IH]; intros [|k] L; try discriminate; cbn; constructor; [|apply IH; now injection L]. cbn. apply Rabs_le_between in Ha. lra. }
  destruct (In x) as [n In1]. destruct (In z) as [m In2]. specialize (In1 Hx). specialize (In2 Hz). assert (G := gap_zero n m). unfold total_gap in G.
  assert (Pos : forall k z, length z = d -> 0 <= box_int (cube d k) (fun x => gap x z)). { intros k z0 Hz0. assert (K1 := proj2 (good_const 0 (cube d k) (cube_sides d k))). rewrite Rmult_0_l in K1. rewrite <- K1. apply box_le; [apply good_const, cube_sides|apply cube_good, (slice1 gap z0 gap_cont Hz0)|intros; apply gap_nonneg]. }
  assert (G1 : bell z * box_int (cube d n) (fun x => gap x z) = 0).
  { apply (box_zero (cube d m) (fun z => bell z * box_int (cube d n) (fun x => gap x z))); [apply cube_sides| | |exact In2|exact G].
    - rewrite cube_length. apply (cont_mult d bell); [apply cont_bell|apply gaps_cont].
    - intros v Hv. rewrite cube_length in Hv. apply Rmult_le_pos; [left; apply bell_pos|now apply Pos]. }
  assert (Pb := bell_pos z). assert (G2 : box_int (cube d n) (fun x => gap x z) = 0) by (apply Rmult_integral in G1; destruct G1; lra).
  assert (G3 : gap x z = 0). { apply (box_zero (cube d n) (fun x => gap x z)); [apply cube_sides|rewrite cube_length; apply (slice1 gap z gap_cont Hz)|intros; apply gap_nonneg|exact In1|exact G2]. }
  unfold gap, wt in G3. rewrite E in G3. assert (R0 : 0 < Rmin (pi_ l x) (pi_ l y)) by (apply Rmin_glb_lt; apply exp_pos). apply Rmult_integral in G3. destruct G3 as [G3|G3]; [apply Rmult_integral in G3; destruct G3; lra|lra].
Qed.
End Unique.
