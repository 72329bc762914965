(** Lemmas for Monte-Carlo sampling of real vectors: one round leaves the target distribution unchanged. *)
From Coquelicot Require Import Coquelicot.
From Coq Require Import Reals Lra Lia List Arith.
From Verif Require Import M_RBase M_Normal M_Util S_MH P_MH S_MHR P_Normal P_Box P_MHR.
Import ListNotations.
Local Open Scope R_scope.
Local Arguments RInt {V} f a b : simpl never.

Lemma rmin_abs a b : Rmin a b = (a + b - Rabs (a - b)) / 2.
Proof. unfold Rmin, Rabs. destruct (Rle_dec a b), (Rcase_abs (a - b)); lra. Qed.
Lemma acc_cts t : continuity_pt (fun t => Rmin 1 (exp t)) t.
Proof.
  apply (continuity_pt_ext (fun t => (1 + exp t - Rabs (1 - exp t)) * / 2)); [intro s; now rewrite rmin_abs|].
  assert (C1 : continuity_pt (fun _ => 1) t) by (apply continuity_pt_const; now intros ? ?). assert (C2 : continuity_pt (fun _ => / 2) t) by (apply continuity_pt_const; now intros ? ?). assert (E : continuity_pt exp t) by (apply derivable_continuous_pt, derivable_pt_exp).
  apply continuity_pt_mult; [|exact C2]. apply continuity_pt_minus; [now apply continuity_pt_plus|]. apply (continuity_pt_comp (fun s => 1 - exp s) Rabs); [now apply continuity_pt_minus|apply Rcontinuity_abs].
Qed.
Lemma cont_opp k f : cont k f -> cont k (fun v => f (map Ropp v)).
Proof.
  intros C r e Hr He. destruct (C r e Hr He) as [dl [Hd K]]. exists dl. split; [exact Hd|]. intros u v Hu Huv. apply K; [now rewrite map_length|]. clear -Huv. induction Huv as [|a b u v [H1 [H2 H3]] _ IH]; cbn; constructor; [|exact IH]. repeat split; [now rewrite Rabs_Ropp|now rewrite Rabs_Ropp|]. replace (- a - - b) with (- (a - b)) by ring. now rewrite Rabs_Ropp.
Qed.
Lemma box_reflect d m : forall f, cont d f -> box_int (cube d m) (fun z => f (map Ropp z)) = box_int (cube d m) f.
Proof.
  induction d as [|d IH]; intros f C; [reflexivity|]. unfold cube. cbn [repeat box_int map]. fold (cube d m). set (G := fun t => box_int (cube d m) (fun v => f (t :: v))).
  transitivity (RInt (fun t => G (- t)) (- INR m) (INR m)).
  - apply RInt_ext. intros t _. apply (IH (fun v => f (- t :: v))). now apply cont_tail.
  - assert (CG : forall t, continuous G t) by (apply (cube_good (S d) m f C)). assert (E := RInt_comp_lin (V := R_CompleteNormedModule) G (-1) 0 (- INR m) (INR m) (cts_ex G _ _ CG)).
    rewrite (RInt_ext _ (fun t => -1 * scal (-1) (G (-1 * t + 0)))) by (intros t _; sc; replace (-1 * t + 0) with (- t) by ring; ring).
    rewrite rint_scal. 2:{ intro t. apply (continuous_scal_r (V := R_NormedModule) (-1) (fun t => G (-1 * t + 0))). apply (continuous_comp (fun t => -1 * t + 0) G); [|apply CG]. apply (continuous_plus (V := R_NormedModule) (fun t => -1 * t) (fun _ => 0)); [|apply continuous_const]. apply (continuous_scal_r (V := R_NormedModule) (-1) (fun t => t)). apply continuous_id. }
    replace (-1 * - INR m + 0) with (INR m) in E by ring. replace (-1 * INR m + 0) with (- INR m) in E by ring. etransitivity; [exact (f_equal (Rmult (-1)) E)|]. rewrite <- (opp_RInt_swap (V := R_CompleteNormedModule) G (- INR m) (INR m)) by now apply cts_ex. sc. ring.
Qed.
Lemma bell_opp z : bell (map Ropp z) = bell z.
Proof. induction z as [|t z IH]; [reflexivity|]. cbn [map]. rewrite !bell_cons, IH, npdf_even. reflexivity. Qed.
Lemma moved_opp std : forall x z, moved std x (map Ropp z) = vadd x (map (fun t => - (std * t)) z).
Proof. induction x as [|a x IH]; intros [|t z]; try reflexivity. cbn. rewrite IH. f_equal. ring. Qed.
Lemma moved_back std : forall x z, length x = length z -> moved std (vadd x (map (fun t => - (std * t)) z)) z = x.
Proof. induction x as [|a x IH]; intros [|t z] H; try discriminate; [reflexivity|]. cbn. rewrite IH by (cbn in H; lia). f_equal. ring. Qed.
Lemma vadd_length : forall x c, length x = length c -> length (vadd x c) = length c.
Proof. induction x as [|a x IH]; intros [|t c] H; try discriminate; [reflexivity|]. cbn in *. now rewrite IH by lia. Qed.
Lemma shift_within d n K : (K <= n)%nat -> forall c, length c = d -> Forall (fun t => Rabs t <= INR K) c -> within (cube d (n - K)) (shift c (cube d n)) /\ within (shift c (cube d n)) (cube d (n + K)) /\ sides (shift c (cube d n)) /\ length (shift c (cube d n)) = d.
Proof.
  intro L. induction d as [|d IH]; intros [|t c] Hc H; try discriminate; [repeat split; constructor|]. injection Hc as Hc. inversion H as [|? ? H1 H2]; subst. destruct (IH c eq_refl H2) as [I1 [I2 [I3 I4]]]. apply Rabs_le_between in H1. assert (Pn := pos_INR n).
  unfold cube in *. cbn [repeat shift]. repeat split; [constructor|constructor|constructor|]; try assumption; cbn [fst snd].
  - rewrite minus_INR by exact L. lra.
  - rewrite plus_INR. lra.
  - lra.
  - cbn. now rewrite I4.
Qed.
Section Real.
Variables (d : nat) (std : R) (l : list R -> R) (M : R).
Hypotheses (Hl : cont d l) (HM : 0 <= M) (HZ : finite_mass d l).
Definition pi_ (x : list R) : R := exp (l x).
Definition acc (x y : list R) : R := takes (Some (l y)) (Some (l x)).
Definition class (g : list R -> R) : Prop := cont d g /\ forall v, length v = d -> Rabs (g v) <= M.
Definition kern (g : list R -> R) (x z : list R) : R := bell z * (acc x (moved std x z) * g (moved std x z) + (1 - acc x (moved std x z)) * g x).
Definition round (g : list R -> R) (x : list R) : R := whole_int d (kern g x).
Definition inc (g : list R -> R) (x z : list R) : R := bell z * (acc x (moved std x z) * (g (moved std x z) - g x)).
Definition wt (g : list R -> R) (x z : list R) : R := Rmin (pi_ x) (pi_ (moved std x z)) * (g (moved std x z) - g x).
Lemma cont_pi : cont d pi_.
Proof. apply (cont_comp d exp); [intro t; apply derivable_continuous_pt, derivable_pt_exp|exact Hl]. Qed.
Lemma acc_range x y : 0 <= acc x y <= 1.
Proof. apply takes_range. Qed.
Lemma acc_cont : cont2 d d (fun x z => acc x (moved std x z)).
Proof.
  apply (cont2_comp d d (fun t => Rmin 1 (exp t)) (fun x z => l (moved std x z) - l x)); [apply acc_cts|]. apply cont2_minus; [now apply cont2_moved|now apply cont2_left].
Qed.
Lemma inc_cont g : class g -> cont2 d d (inc g).
Proof.
  intros [C _]. unfold inc. apply (cont2_mult d d (fun _ z => bell z)); [apply cont2_right, cont_bell|]. apply (cont2_mult d d (fun x z => acc x (moved std x z))); [apply acc_cont|]. apply cont2_minus; [now apply cont2_moved|now apply cont2_left].
Qed.
Lemma kern_cont g : class g -> cont2 d d (kern g).
Proof.
  intros [C _]. unfold kern. apply (cont2_mult d d (fun _ z => bell z)); [apply cont2_right, cont_bell|]. apply cont2_plus.
  - apply (cont2_mult d d (fun x z => acc x (moved std x z))); [apply acc_cont|now apply cont2_moved].
  - apply (cont2_mult d d (fun x z => 1 - acc x (moved std x z)) (fun x _ => g x)); [|now apply cont2_left]. apply cont2_minus; [apply cont2_const|apply acc_cont].
Qed.
Lemma scaled_ex c : ex_finite_lim_seq (fun n => box_int (cube d n) (fun z => c * bell z)) /\ whole_int d (fun z => c * bell z) = c.
Proof.
  assert (L := scal_lim d c bell (cont_bell d) (whole_lim d bell (bell_ex d))). rewrite bell_whole, Rmult_1_r in L. split; [now exists c|now apply whole_is].
Qed.
Lemma cont_scaled c : cont d (fun z => c * bell z).
Proof. apply (cont_mult d (fun _ => c)); [apply cont_const|apply cont_bell]. Qed.
Lemma kern_bound g x z : class g -> length x = d -> length z = d -> Rabs (kern g x z) <= M * bell z.
Proof.
  intros [_ B] Hx Hz. unfold kern. assert (A := acc_range x (moved std x z)). assert (By := B (moved std x z) ltac:(rewrite moved_length; lia)). assert (Bx := B x Hx). assert (P := bell_pos z). rewrite Rabs_mult, (Rabs_right (bell z)) by lra. rewrite Rmult_comm. apply Rmult_le_compat_r; [lra|].
  set (a := acc x (moved std x z)) in *. eapply Rle_trans; [apply Rabs_triang|]. rewrite !Rabs_mult, (Rabs_right a), (Rabs_right (1 - a)) by lra. replace M with (a * M + (1 - a) * M) by ring. apply Rplus_le_compat; apply Rmult_le_compat_l; lra.
Qed.
Lemma inc_bound g x z : class g -> length x = d -> length z = d -> Rabs (inc g x z) <= 2 * M * bell z.
Proof.
  intros [_ B] Hx Hz. unfold inc. assert (A := acc_range x (moved std x z)). assert (By := B (moved std x z) ltac:(rewrite moved_length; lia)). assert (Bx := B x Hx). assert (P := bell_pos z). rewrite Rabs_mult, (Rabs_right (bell z)) by lra. rewrite (Rmult_comm (2 * M)). apply Rmult_le_compat_l; [lra|].
  set (a := acc x (moved std x z)) in *. rewrite Rabs_mult, (Rabs_right a) by lra. assert (T := Rabs_triang (g (moved std x z)) (- g x)). rewrite Rabs_Ropp in T. fold (g (moved std x z) - g x) in T. assert (P2 := Rabs_pos (g (moved std x z) - g x)). nra.
Qed.
Lemma kern_slice g x : class g -> length x = d -> cont d (kern g x).
Proof. intros Hg Hx. exact (cont2_slice d d _ x (kern_cont g Hg) Hx). Qed.
Lemma inc_slice g x : class g -> length x = d -> cont d (inc g x).
Proof. intros Hg Hx. exact (cont2_slice d d _ x (inc_cont g Hg) Hx). Qed.
Lemma round_tail g x m : class g -> length x = d -> Rabs (round g x - box_int (cube d m) (kern g x)) <= M * (1 - box_int (cube d m) bell).
Proof.
  intros Hg Hx. destruct (scaled_ex M) as [E W]. destruct (dominated d (kern g x) (fun z => M * bell z) (kern_slice g x Hg Hx) (cont_scaled M) (fun v Hv => kern_bound g x v Hg Hx Hv) E) as [_ T].
  specialize (T m). rewrite W, (proj2 (good_scal M (cube d m) bell (cube_good d m bell (cont_bell d)))) in T. unfold round. lra.
Qed.
Lemma round_class g : class g -> class (round g).
Proof.
  intro Hg. split.
  - intros r e Hr He. assert (L := bell_lim d). apply is_lim_seq_spec in L. destruct (L (mkposreal (e / (3 * (M + 1))) ltac:(apply Rdiv_lt_0_compat; lra))) as [m Hm]. specialize (Hm m (le_n m)). cbn in Hm.
    assert (T : M * (1 - box_int (cube d m) bell) < e / 3).
    { apply Rabs_def2 in Hm. apply (Rle_lt_trans _ (M * (e / (3 * (M + 1))))); [apply Rmult_le_compat_l; lra|]. apply (Rmult_lt_reg_r (3 * (M + 1))); [lra|]. replace (M * (e / (3 * (M + 1))) * (3 * (M + 1))) with (M * e) by (field; lra). nra. }
    assert (C : cont d (fun x => box_int (cube d m) (kern g x))) by (apply int_cont; [apply cube_sides|rewrite cube_length; now apply kern_cont]).
    destruct (C r (e / 3) Hr ltac:(lra)) as [dl [Hd K]]. exists dl. split; [exact Hd|]. intros u v Hu Huv. assert (Hv : length v = d) by (rewrite <- Hu; symmetry; now apply F2_length in Huv).
    specialize (K u v Hu Huv). assert (T1 := round_tail g u m Hg Hu). assert (T2 := round_tail g v m Hg Hv). apply Rabs_def2 in K. apply Rabs_le_between in T1, T2. apply Rabs_def1; lra.
  - intros v Hv. destruct (scaled_ex M) as [E W]. rewrite <- W. apply whole_bound; [now apply kern_slice|apply cont_scaled|intros z Hz; now apply kern_bound|exact E].
Qed.
Lemma round_inc g x : class g -> length x = d -> round g x - g x = whole_int d (inc g x).
Proof.
  intros Hg Hx. symmetry. apply whole_is. destruct (scaled_ex M) as [E W]. destruct (dominated d (kern g x) (fun z => M * bell z) (kern_slice g x Hg Hx) (cont_scaled M) (fun v Hv => kern_bound g x v Hg Hx Hv) E) as [X _].
  apply (is_lim_seq_ext (fun n => box_int (cube d n) (kern g x) - g x * box_int (cube d n) bell)).
  - intro n. destruct (good_scal (g x) (cube d n) bell (cube_good d n bell (cont_bell d))) as [G1 E1]. rewrite <- E1. rewrite <- (proj2 (good_minus _ _ _ (cube_good d n _ (kern_slice g x Hg Hx)) G1)). apply box_ext. intros v _. unfold kern, inc. ring.
  - apply is_lim_seq_minus'; [now apply whole_lim|]. assert (L := scal_lim d (g x) bell (cont_bell d) (whole_lim d bell (bell_ex d))). rewrite bell_whole, Rmult_1_r in L. apply (is_lim_seq_ext (fun n => box_int (cube d n) (fun v => g x * bell v))); [|exact L]. intro n. apply good_scal. apply cube_good, cont_bell.
Qed.
Lemma inc_tail g x m : class g -> length x = d -> Rabs (round g x - g x - box_int (cube d m) (inc g x)) <= 2 * M * (1 - box_int (cube d m) bell).
Proof.
  intros Hg Hx. rewrite (round_inc g x Hg Hx). destruct (scaled_ex (2 * M)) as [E W]. destruct (dominated d (inc g x) (fun z => 2 * M * bell z) (inc_slice g x Hg Hx) (cont_scaled (2 * M)) (fun v Hv => inc_bound g x v Hg Hx Hv) E) as [_ T].
  specialize (T m). rewrite W, (proj2 (good_scal (2 * M) (cube d m) bell (cube_good d m bell (cont_bell d)))) in T. lra.
Qed.
Lemma pi_acc x y : pi_ x * acc x y = Rmin (pi_ x) (pi_ y).
Proof.
  unfold pi_, acc. cbn [takes]. assert (P := exp_pos (l x)). replace (exp (l y)) with (exp (l x) * exp (l y - l x)) by (rewrite <- exp_plus; f_equal; ring). unfold Rmin. destruct (Rle_dec 1 (exp (l y - l x))), (Rle_dec (exp (l x)) (exp (l x) * exp (l y - l x))); try ring; exfalso; nra.
Qed.
Lemma wt_back g x z : length x = d -> length z = d -> wt g x (map Ropp z) = - wt g (vadd x (map (fun t => - (std * t)) z)) z.
Proof.
  intros Hx Hz. unfold wt. rewrite moved_opp, (moved_back std x z) by congruence. rewrite Rmin_comm. ring.
Qed.
Lemma wt_cont g : class g -> cont2 d d (wt g).
Proof.
  intros [C Bd]. assert (K : cont2 d d (fun x z => pi_ x * (acc x (moved std x z) * (g (moved std x z) - g x)))).
  { apply (cont2_mult d d (fun x _ => pi_ x)); [apply cont2_left, cont_pi|]. apply (cont2_mult d d (fun x z => acc x (moved std x z))); [apply acc_cont|]. apply cont2_minus; [now apply cont2_moved|now apply cont2_left]. }
  assert (E : forall x z, pi_ x * (acc x (moved std x z) * (g (moved std x z) - g x)) = wt g x z) by (intros x z; unfold wt; rewrite <- pi_acc; ring).
  intros r e Hr He. destruct (K r e Hr He) as [dl [Hd H]]. exists dl. split; [exact Hd|]. intros. rewrite <- !E. now apply H.
Qed.
Lemma wt_bound g x z : class g -> length x = d -> length z = d -> Rabs (wt g x z) <= 2 * M * pi_ x.
Proof.
  intros [_ B] Hx Hz. unfold wt. assert (By := B (moved std x z) ltac:(rewrite moved_length; lia)). assert (Bx := B x Hx). assert (P1 : 0 < pi_ x) by apply exp_pos. assert (P2 : 0 < pi_ (moved std x z)) by apply exp_pos. rewrite Rabs_mult, (Rabs_right (Rmin _ _)) by (left; now apply Rmin_glb_lt).
  assert (T := Rabs_triang (g (moved std x z)) (- g x)). rewrite Rabs_Ropp in T. fold (g (moved std x z) - g x) in T. rewrite (Rmult_comm (2 * M)). apply Rmult_le_compat; [left; now apply Rmin_glb_lt|apply Rabs_pos|apply Rmin_l|lra].
Qed.
Lemma pi_nonneg v : length v = d -> 0 <= pi_ v.
Proof. intros _. left. apply exp_pos. Qed.
(** moving the box of starting points changes little *)
Lemma wt_shift g z n m K : class g -> length z = d -> Forall (fun t => Rabs t <= INR m) z -> Rabs std * INR m <= INR K -> (K <= n)%nat ->
  Rabs (box_int (cube d n) (fun x => wt g x z) + box_int (cube d n) (fun x => wt g x (map Ropp z))) <= 4 * M * (whole_int d pi_ - box_int (cube d (n - K)) pi_).
Proof.
  intros Hg Hz Bz HK L. set (c := map (fun t => - (std * t)) z). assert (Lc : length c = d) by (unfold c; now rewrite map_length).
  assert (Bc : Forall (fun t => Rabs t <= INR K) c). { unfold c. clear -Bz HK. induction Bz as [|t z Ht _ IH]; constructor; [|exact IH]. rewrite Rabs_Ropp, Rabs_mult. assert (P := Rabs_pos std). assert (Rabs std * Rabs t <= Rabs std * INR m) by now apply Rmult_le_compat_l. lra. }
  destruct (shift_within d n K L c Lc Bc) as [W1 [W2 [SS SL]]]. set (w := fun x => wt g x z).
  assert (Cw : cont d w) by (apply (cont2_slice d d (fun z x => wt g x z) z); [|exact Hz]; apply (cont2_swap d d), (wt_cont g Hg)).
  assert (E : box_int (cube d n) (fun x => wt g x (map Ropp z)) = - box_int (shift c (cube d n)) w).
  { rewrite <- (box_shift c (cube d n) w); [|rewrite cube_length; congruence|apply cube_sides|now rewrite Lc].
    assert (Cs : cont d (fun x => w (vadd x c))). { apply (cont_ext d (fun x => -1 * wt g x (map Ropp z))); [intros v Hv; unfold w, c; rewrite wt_back by assumption; ring|]. apply (cont_mult d (fun _ => -1)); [apply cont_const|]. apply (cont2_slice d d (fun z x => wt g x z) (map Ropp z)); [apply (cont2_swap d d), (wt_cont g Hg)|now rewrite map_length]. }
    replace (- box_int (cube d n) (fun x => w (vadd x c))) with (-1 * box_int (cube d n) (fun x => w (vadd x c))) by ring. rewrite <- (proj2 (good_scal (-1) _ _ (cube_good d n _ Cs))). apply box_ext. intros v Hv. rewrite cube_length in Hv. rewrite wt_back by assumption. unfold w, c. ring. }
  rewrite E. fold w. assert (CF : cont d (fun x => 2 * M * pi_ x)) by (apply (cont_mult d (fun _ => 2 * M)); [apply cont_const|apply cont_pi]).
  assert (Bw : forall v, length v = d -> Rabs (w v) <= 2 * M * pi_ v) by (intros v Hv; now apply wt_bound).
  assert (N1 := cube_step d w _ (n - K) n Cw CF Bw ltac:(lia)).
  assert (N2 := nested _ _ W1 w (fun x => 2 * M * pi_ x) (cube_sides d _)). rewrite cube_length in N2. specialize (N2 Cw CF Bw).
  assert (G : forall A, sides A -> length A = d -> box_int A (fun x => 2 * M * pi_ x) = 2 * M * box_int A pi_) by (intros A SA LA; apply good_scal, good_cont; [exact SA|rewrite LA; apply cont_pi]).
  rewrite !G in N1, N2 by (try apply cube_sides; try apply cube_length; assumption).
  assert (U1 := cube_below d pi_ cont_pi pi_nonneg HZ n). assert (U2 := cube_below d pi_ cont_pi pi_nonneg HZ (n + K)).
  assert (U3 : box_int (shift c (cube d n)) pi_ <= box_int (cube d (n + K)) pi_).
  { assert (Q := nested _ _ W2 pi_ pi_ SS). rewrite SL in Q. specialize (Q cont_pi cont_pi ltac:(intros v Hv; rewrite Rabs_right; [lra|apply Rle_ge; now apply pi_nonneg])). assert (P := Rabs_pos (box_int (cube d (n + K)) pi_ - box_int (shift c (cube d n)) pi_)). lra. }
  replace (box_int (cube d n) w + - box_int (shift c (cube d n)) w) with ((box_int (cube d n) w - box_int (cube d (n - K)) w) + - (box_int (shift c (cube d n)) w - box_int (cube d (n - K)) w)) by ring.
  eapply Rle_trans; [apply Rabs_triang|]. rewrite Rabs_Ropp. nra.
Qed.
Lemma core g n m K : class g -> Rabs std * INR m <= INR K -> (K <= n)%nat ->
  Rabs (box_int (cube d n) (fun x => pi_ x * box_int (cube d m) (inc g x))) <= 2 * M * (whole_int d pi_ - box_int (cube d (n - K)) pi_).
Proof.
  intros Hg HK L. set (S := fun z => box_int (cube d n) (fun x => wt g x z)).
  assert (Cw := wt_cont g Hg). assert (CS : cont d S) by (apply (int_cont d (fun z x => wt g x z)); [apply cube_sides|rewrite cube_length; now apply (cont2_swap d d)]).
  assert (Cbw : cont2 d d (fun x z => bell z * wt g x z)) by (apply (cont2_mult d d (fun _ z => bell z)); [apply cont2_right, cont_bell|exact Cw]).
  assert (E : box_int (cube d n) (fun x => pi_ x * box_int (cube d m) (inc g x)) = box_int (cube d m) (fun z => bell z * S z)).
  { transitivity (box_int (cube d n) (fun x => box_int (cube d m) (fun z => bell z * wt g x z))).
    - apply box_ext. intros x Hx. rewrite cube_length in Hx. rewrite <- (proj2 (good_scal (pi_ x) _ _ (cube_good d m _ (inc_slice g x Hg Hx)))). apply box_ext. intros z _. unfold inc, wt. rewrite <- pi_acc. ring.
    - rewrite (fubini (cube d n) (cube d m) (fun x z => bell z * wt g x z)); [|apply cube_sides|apply cube_sides|now rewrite !cube_length]. apply box_ext. intros z Hz. rewrite cube_length in Hz. unfold S. apply good_scal. apply cube_good. apply (cont2_slice d d (fun z x => wt g x z) z); [now apply (cont2_swap d d)|exact Hz]. }
  rewrite E. set (f := fun z => bell z * S z). assert (Cf : cont d f) by (apply (cont_mult d bell); [apply cont_bell|exact CS]). assert (R := box_reflect d m f Cf).
  assert (Cr : cont d (fun z => f (map Ropp z))) by now apply cont_opp. destruct (good_plus _ _ _ (cube_good d m f Cf) (cube_good d m _ Cr)) as [G1 E1]. rewrite R in E1.
  set (B := 4 * M * (whole_int d pi_ - box_int (cube d (n - K)) pi_)). assert (U := cube_below d pi_ cont_pi pi_nonneg HZ (n - K)). assert (PB : 0 <= B) by (unfold B; apply Rmult_le_pos; lra).
  assert (Q : Rabs (box_int (cube d m) (fun z => f z + f (map Ropp z))) <= B * box_int (cube d m) bell).
  { destruct (good_scal B _ bell (cube_good d m bell (cont_bell d))) as [G2 E2]. destruct (good_scal (- B) _ bell (cube_good d m bell (cont_bell d))) as [G3 E3].
    assert (P : forall z, inside (cube d m) z -> Rabs (f z + f (map Ropp z)) <= B * bell z).
    { intros z Hz. assert (Lz := inside_length _ _ Hz). rewrite cube_length in Lz. unfold f. rewrite bell_opp, <- Rmult_plus_distr_l, Rabs_mult, Rmult_comm. assert (Pb := bell_pos z). rewrite (Rabs_right (bell z)) by lra. apply Rmult_le_compat_r; [lra|]. unfold S, B. apply (wt_shift g z n m K); auto.
      clear -Hz. unfold cube in Hz. remember (repeat (- INR m, INR m) d) as A eqn:EA. revert EA. generalize d as k. induction Hz as [|[a b] t A z H _ IH]; intros k EA; [constructor|]. destruct k as [|k]; [discriminate|]. cbn in EA. injection EA as E1 E2 E3. constructor; [cbn in H; subst; apply Rabs_le; lra|now apply (IH k)]. }
    apply Rabs_le. split.
    - replace (- (B * box_int (cube d m) bell)) with (- B * box_int (cube d m) bell) by ring. rewrite <- E3. apply box_le; [exact G3|exact G1|]. intros z Hz. specialize (P z Hz). apply Rabs_le_between in P. lra.
    - rewrite <- E2. apply box_le; [exact G1|exact G2|]. intros z Hz. specialize (P z Hz). apply Rabs_le_between in P. lra. }
  rewrite E1 in Q. assert (B1 : box_int (cube d m) bell <= 1) by (rewrite <- (bell_whole d); apply cube_below; [apply cont_bell|intros v _; left; apply bell_pos|apply bell_ex]).
  replace (box_int (cube d m) f + box_int (cube d m) f) with (2 * box_int (cube d m) f) in Q by ring. rewrite Rabs_mult, (Rabs_right 2) in Q by lra. unfold B in *. nra.
Qed.
Lemma pi_times g : class g -> cont d (fun x => pi_ x * g x) /\ ex_finite_lim_seq (fun n => box_int (cube d n) (fun x => pi_ x * g x)).
Proof.
  intros [C B]. assert (CF : cont d (fun x => M * pi_ x)) by (apply (cont_mult d (fun _ => M)); [apply cont_const|apply cont_pi]). assert (C1 : cont d (fun x => pi_ x * g x)) by (apply (cont_mult d pi_); [apply cont_pi|exact C]). split; [exact C1|].
  apply (dominated d _ (fun x => M * pi_ x)); [exact C1|exact CF| |].
  - intros v Hv. rewrite Rabs_mult, (Rabs_right (pi_ v)) by (left; apply exp_pos). rewrite Rmult_comm. apply Rmult_le_compat_r; [left; apply exp_pos|now apply B].
  - exists (M * whole_int d pi_). apply scal_lim; [apply cont_pi|apply whole_lim, HZ].
Qed.
Lemma round_invariant g : class g -> whole_int d (fun x => pi_ x * round g x) = whole_int d (fun x => pi_ x * g x).
Proof.
  intros Hg. assert (Hr := round_class g Hg). destruct (pi_times g Hg) as [C1 X1]. destruct (pi_times (round g) Hr) as [C2 X2].
  set (Z := whole_int d pi_). assert (L : is_lim_seq (fun n => box_int (cube d n) (fun x => pi_ x * round g x) - box_int (cube d n) (fun x => pi_ x * g x)) 0).
  { apply is_lim_seq_spec. intros [e He]. cbn. assert (PZ : 0 <= Z) by (unfold Z; eapply Rle_trans; [|apply (cube_below d pi_ cont_pi pi_nonneg HZ 0)]; assert (K0 := proj2 (good_const 0 (cube d 0) (cube_sides d 0))); rewrite Rmult_0_l in K0; rewrite <- K0; apply box_le; [apply good_const, cube_sides|apply cube_good, cont_pi|intros v _; left; apply exp_pos]).
    set (q := 2 * M * Z + 1). assert (Pq : 0 < q) by (unfold q; nra). assert (Lb := bell_lim d). apply is_lim_seq_spec in Lb. destruct (Lb (mkposreal (e / (2 * q)) ltac:(apply Rdiv_lt_0_compat; lra))) as [m Hm]. specialize (Hm m (le_n m)). cbn in Hm.
    destruct (above (Rabs std * INR m)) as [K HK]. assert (Lp := whole_lim d pi_ HZ). apply is_lim_seq_spec in Lp. set (q2 := 2 * M + 1). assert (Pq2 : 0 < q2) by (unfold q2; lra). destruct (Lp (mkposreal (e / (2 * q2)) ltac:(apply Rdiv_lt_0_compat; lra))) as [N HN]. cbn in HN. exists (N + K)%nat. intros n Hn. rewrite Rminus_0_r.
    specialize (HN (n - K)%nat ltac:(lia)). assert (Co := core g n m K Hg ltac:(lra) ltac:(lia)).
    assert (Ci : cont d (fun x => pi_ x * box_int (cube d m) (inc g x))) by (apply (cont_mult d pi_); [apply cont_pi|]; apply int_cont; [apply cube_sides|rewrite cube_length; now apply inc_cont]).
    destruct (good_minus _ _ _ (cube_good d n _ C2) (cube_good d n _ C1)) as [G3 E3]. rewrite <- E3. set (tl_ := 2 * M * (1 - box_int (cube d m) bell)).
    assert (B1 : box_int (cube d m) bell <= 1) by (rewrite <- (bell_whole d); apply cube_below; [apply cont_bell|intros v _; left; apply bell_pos|apply bell_ex]).
    assert (T0 : 0 <= tl_) by (unfold tl_; nra). destruct (good_scal tl_ _ pi_ (cube_good d n _ cont_pi)) as [G4 E4]. destruct (good_minus _ _ _ G3 (cube_good d n _ Ci)) as [G5 E5]. destruct (good_scal (- tl_) _ pi_ (cube_good d n _ cont_pi)) as [G6 E6].
    assert (D : Rabs (box_int (cube d n) (fun v => pi_ v * round g v - pi_ v * g v) - box_int (cube d n) (fun x => pi_ x * box_int (cube d m) (inc g x))) <= tl_ * Z).
    { rewrite <- E5. assert (Un := cube_below d pi_ cont_pi pi_nonneg HZ n). fold Z in Un. apply (Rle_trans _ (tl_ * box_int (cube d n) pi_)); [|now apply Rmult_le_compat_l].
      assert (P : forall v, inside (cube d n) v -> Rabs (pi_ v * round g v - pi_ v * g v - pi_ v * box_int (cube d m) (inc g v)) <= tl_ * pi_ v).
      { intros v Hv. apply inside_length in Hv. rewrite cube_length in Hv. replace (pi_ v * round g v - pi_ v * g v - pi_ v * box_int (cube d m) (inc g v)) with (pi_ v * (round g v - g v - box_int (cube d m) (inc g v))) by ring. rewrite Rabs_mult, (Rabs_right (pi_ v)) by (left; apply exp_pos). rewrite Rmult_comm. apply Rmult_le_compat_r; [left; apply exp_pos|]. now apply inc_tail. }
      apply Rabs_le. split.
      - replace (- (tl_ * box_int (cube d n) pi_)) with (- tl_ * box_int (cube d n) pi_) by ring. rewrite <- E6. apply box_le; [exact G6|exact G5|]. intros v Hv. specialize (P v Hv). apply Rabs_le_between in P. lra.
      - rewrite <- E4. apply box_le; [exact G5|exact G4|]. intros v Hv. specialize (P v Hv). apply Rabs_le_between in P. lra. }
    apply Rabs_def2 in Hm, HN. fold Z in HN, Co.
    assert (H1 : tl_ * Z < e / 2). { unfold tl_. apply (Rle_lt_trans _ (2 * M * (e / (2 * q)) * Z)); [apply Rmult_le_compat_r; [exact PZ|]; apply Rmult_le_compat_l; lra|]. apply (Rmult_lt_reg_r (2 * q)); [lra|]. replace (2 * M * (e / (2 * q)) * Z * (2 * q)) with (2 * M * Z * e) by (field; lra). replace (e / 2 * (2 * q)) with (e * q) by field. unfold q. nra. }
    assert (H2 : 2 * M * (Z - box_int (cube d (n - K)) pi_) < e / 2). { apply (Rle_lt_trans _ (2 * M * (e / (2 * q2)))); [apply Rmult_le_compat_l; lra|]. apply (Rmult_lt_reg_r (2 * q2)); [lra|]. replace (2 * M * (e / (2 * q2)) * (2 * q2)) with (2 * M * e) by (field; lra). replace (e / 2 * (2 * q2)) with (e * q2) by field. unfold q2. nra. }
    match goal with |- Rabs ?a < _ => assert (T := tri a (box_int (cube d n) (fun x => pi_ x * box_int (cube d m) (inc g x)))) end. lra. }
  assert (L2 := is_lim_seq_minus' _ _ _ _ (whole_lim d _ X2) (whole_lim d _ X1)). assert (E := is_lim_seq_unique _ _ L). rewrite (is_lim_seq_unique _ _ L2) in E. injection E as E. lra.
Qed.
(** ---- the loop ---- *)
Fixpoint rounds (n : nat) (g : list R -> R) : list R -> R := match n with O => g | S n' => round (rounds n' g) end.
Lemma rounds_class n g : class g -> class (rounds n g).
Proof. intro Hg. induction n as [|n IH]; [exact Hg|]. now apply round_class. Qed.
Lemma rounds_invariant n g : class g -> whole_int d (fun x => pi_ x * rounds n g x) = whole_int d (fun x => pi_ x * g x).
Proof. intro Hg. induction n as [|n IH]; [reflexivity|]. cbn [rounds]. rewrite round_invariant by now apply rounds_class. exact IH. Qed.
Lemma normal_const n c : mean_normal d n (fun _ _ => c) = c.
Proof.
  induction n as [|n IH]; [reflexivity|]. cbn [mean_normal]. rewrite (whole_ext d _ (fun z => c * bell z)); [apply scaled_ex|]. intros z _. rewrite (RInt_ext _ (fun _ => c)) by (intros x _; exact IH). rewrite RInt_const. sc. ring.
Qed.
Lemma normal_ext n : forall Phi Psi, (forall v u, Phi v u = Psi v u) -> mean_normal d n Phi = mean_normal d n Psi.
Proof. induction n as [|n IH]; intros Phi Psi H; [apply H|]. cbn [mean_normal]. apply whole_ext. intros z _. f_equal. apply RInt_ext. intros u _. apply IH. intros; apply H. Qed.
Definition vrun (burn n : nat) (x : list R) (v : nat -> list R) (u : nat -> R) : list (list R) := mh_loop (fun x => Some (l x)) (fun i x => moved std x (v i)) u burn n 0 x (Some (l x)).
Lemma vrun_S burn n x v0 u0 v u : vrun burn (S n) x (scons v0 v) (scons u0 u) =
  let y := if accept (Some (l (moved std x v0))) (Some (l x)) u0 then moved std x v0 else x in (match burn with O => [y] | _ => [] end) ++ vrun (pred burn) n y v u.
Proof.
  unfold vrun. cbn [mh_loop]. change (scons v0 v 0%nat) with v0. change (scons u0 u 0%nat) with u0. destruct (accept (Some (l (moved std x v0))) (Some (l x)) u0); rewrite mh_shift; cbv zeta; (f_equal; destruct burn; reflexivity).
Qed.
Lemma normal_run (h : list R -> R) df : forall n burn j x, (burn + j < n)%nat -> mean_normal d n (fun v u => h (nth j (vrun burn n x v u) df)) = rounds (S (burn + j)) h x.
Proof.
  induction n as [|n IH]; intros burn j x H; [lia|]. cbn [mean_normal]. change (rounds (S (burn + j)) h x) with (round (rounds (burn + j) h) x). unfold round. apply whole_ext. intros v0 _. unfold kern. f_equal.
  apply is_RInt_unique. eapply is_RInt_ext; [|apply accept_RInt]. intros u0 _. cbv beta. symmetry. transitivity (rounds (burn + j) h (if accept (Some (l (moved std x v0))) (Some (l x)) u0 then moved std x v0 else x)); [|now destruct (accept (Some (l (moved std x v0))) (Some (l x)) u0)].
  set (y := if accept (Some (l (moved std x v0))) (Some (l x)) u0 then moved std x v0 else x). rewrite (normal_ext n _ (fun v u => h (nth j ((match burn with O => [y] | _ => [] end) ++ vrun (pred burn) n y v u) df))) by (intros v u; now rewrite vrun_S).
  destruct burn as [|b].
  - destruct j as [|j].
    + cbn. apply normal_const.
    + rewrite (normal_ext n _ (fun v u => h (nth j (vrun 0 n y v u) df))) by reflexivity. rewrite (IH 0%nat j y) by lia. reflexivity.
  - cbn [app pred]. rewrite (IH b j y) by lia. reflexivity.
Qed.
End Real.
Theorem mh_real : forall d std l h M df ns nb j, cont d l -> finite_mass d l -> cont d h -> (forall v, length v = d -> Rabs (h v) <= M) -> (j < ns)%nat ->
  0 < whole_int d (fun x => exp (l x)) /\
  density_mean d l (fun x => mean_normal d (ns + nb) (fun v u => h (nth j (metropolis_hastings (fun x => Some (l x)) (fun i x => moved std x (v i)) u x ns nb) df))) = density_mean d l h.
Proof.
  intros d std l h M df ns nb j Cl HZ Ch Bh Hj. assert (HM : 0 <= M) by (eapply Rle_trans; [apply Rabs_pos|apply (Bh (repeat 0 d)); apply repeat_length]). assert (Hc : class d M h) by (split; assumption). split.
  - eapply Rlt_le_trans; [|apply (cube_below d (pi_ l) (cont_pi d l Cl) (pi_nonneg d l) HZ 1)]. apply box_pos; [unfold cube; clear; induction d; constructor; [cbn; lra|assumption]|rewrite cube_length; now apply cont_pi|intros v _; apply exp_pos].
  - unfold density_mean. f_equal. etransitivity; [|exact (rounds_invariant d std l M Cl HM HZ (S (nb + j)) h Hc)]. apply whole_ext. intros x Hx. unfold pi_. f_equal. rewrite <- (normal_run d std l h df (ns + nb) nb j x ltac:(lia)). reflexivity.
Qed.
