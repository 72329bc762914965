(** Unlikely labels between the lowest and the highest: the quotient used by the code against the true gradient. *)
From Coquelicot Require Import Coquelicot.
From Coq Require Import Reals Lra Lia.
From Verif Require Import M_OrdProbit S_PrefProbit S_OrdProbit P_Base P_Hyper P_RBase P_Normal P_PrefProbit P_Put P_OrdProbit.
Local Open Scope R_scope.

(** a function that starts at 0 and has a positive derivative is positive *)
Lemma rise (f df : R -> R) a : (forall x, is_derive f x (df x)) -> f a = 0 -> (forall x, a < x -> 0 < df x) -> forall x, a < x -> 0 < f x.
Proof.
  intros D Z P x Hx. destruct (MVT_gen f a x df) as [c [C E]].
  - intros; apply D.
  - intros y _. apply derivable_continuous_pt. exists (df y). apply is_derive_Reals, D.
  - rewrite Rmin_left, Rmax_right in C by lra. destruct (Req_dec c a) as [->|Nc].
    + (* use the middle point *)
      assert (Q : 0 < f ((a + x) / 2) /\ f ((a + x) / 2) < f x).
      { split.
        - destruct (Rle_lt_dec (f ((a + x) / 2)) 0) as [H|H]; auto. exfalso.
          destruct (MVT_cor2 f df a ((a + x) / 2) ltac:(lra)) as [c [E1 E2]]; [intros; apply is_derive_Reals, D|]. rewrite Z in E1. specialize (P c ltac:(lra)). assert (0 < df c * ((a + x) / 2 - a)) by (apply Rmult_lt_0_compat; lra). lra.
        - destruct (MVT_cor2 f df ((a + x) / 2) x ltac:(lra)) as [c [E1 E2]]; [intros; apply is_derive_Reals, D|]. specialize (P c ltac:(lra)). assert (0 < df c * (x - (a + x) / 2)) by (apply Rmult_lt_0_compat; lra). lra. }
      lra.
    + specialize (P c ltac:(lra)). assert (0 < df c * (x - a)) by (apply Rmult_lt_0_compat; lra). lra.
Qed.

(** ---- the normal distribution between two bounds ---- *)
Definition mass a b := ndtr b - ndtr a.
Definition first a b := npdf a - npdf b.
Definition second a b := mass a b + (a * npdf a - b * npdf b).
Lemma mass_d a x : is_derive (mass a) x (npdf x).
Proof. unfold mass. evar_last; [apply (is_derive_minus (K := R_AbsRing) (V := R_NormedModule)); [apply ndtr_derive|apply (is_derive_const (K := R_AbsRing) (V := R_NormedModule))]|]. apply Rminus_0_r. Qed.
Lemma first_d a x : is_derive (first a) x (x * npdf x).
Proof. unfold first. evar_last; [apply (is_derive_minus (K := R_AbsRing) (V := R_NormedModule)); [apply (is_derive_const (K := R_AbsRing) (V := R_NormedModule))|apply npdf_derive]|]. unfold minus, plus, opp, zero. cbn. ring. Qed.
Lemma second_d a x : is_derive (second a) x (x ^ 2 * npdf x).
Proof.
  unfold second. evar_last.
  - apply (is_derive_plus (K := R_AbsRing) (V := R_NormedModule)); [apply mass_d|]. apply (is_derive_minus (K := R_AbsRing) (V := R_NormedModule)); [apply (is_derive_const (K := R_AbsRing) (V := R_NormedModule))|]. apply (is_derive_mult (fun x => x) npdf x 1 (- x * npdf x)); [apply (is_derive_id (K := R_AbsRing))|apply npdf_derive|intros; apply Rmult_comm].
  - unfold minus, plus, opp, zero, mult. cbn. ring.
Qed.
Lemma mass_pos a b : a < b -> 0 < mass a b.
Proof. intro H. unfold mass. assert (K := ndtr_increasing a b H). lra. Qed.
Lemma mass_0 a : mass a a = 0. Proof. unfold mass. ring. Qed.
Lemma first_0 a : first a a = 0. Proof. unfold first. ring. Qed.
Lemma second_0 a : second a a = 0. Proof. unfold second, mass. ring. Qed.
Ltac der := unfold minus, plus, opp, zero, mult; cbn; ring.
(** the mean lies between the bounds *)
Lemma mean_below a b : a < b -> 0 < b * mass a b - first a b.
Proof.
  apply (rise (fun x => x * mass a x - first a x) (fun x => mass a x)).
  - intro x. evar_last; [apply (is_derive_minus (K := R_AbsRing) (V := R_NormedModule)); [apply (is_derive_mult (fun x => x) (mass a) x 1 (npdf x)); [apply (is_derive_id (K := R_AbsRing))|apply mass_d|intros; apply Rmult_comm]|apply first_d]|]. der.
  - rewrite mass_0, first_0. ring.
  - intros. now apply mass_pos.
Qed.
Lemma mean_above a b : a < b -> 0 < first a b - a * mass a b.
Proof.
  apply (rise (fun x => first a x - a * mass a x) (fun x => (x - a) * npdf x)).
  - intro x. evar_last; [apply (is_derive_minus (K := R_AbsRing) (V := R_NormedModule)); [apply first_d|apply (is_derive_scal (mass a) x a); apply mass_d]|]. der.
  - rewrite mass_0, first_0. ring.
  - intros x H. apply Rmult_lt_0_compat; [lra|apply npdf_pos].
Qed.
(** the variance is positive ... *)
Lemma spread_about a b : a < b -> 0 < second a b - 2 * (b * first a b) + b ^ 2 * mass a b.
Proof.
  apply (rise (fun x => second a x - 2 * (x * first a x) + x ^ 2 * mass a x) (fun x => 2 * (x * mass a x - first a x))).
  - intro x. evar_last; [apply (is_derive_plus (K := R_AbsRing) (V := R_NormedModule)); [apply (is_derive_minus (K := R_AbsRing) (V := R_NormedModule)); [apply second_d|]|]|].
    + apply (is_derive_scal (fun x => x * first a x) x 2). apply (is_derive_mult (fun x => x) (first a) x 1 (x * npdf x)); [apply (is_derive_id (K := R_AbsRing))|apply first_d|intros; apply Rmult_comm].
    + apply (is_derive_mult (fun x => x ^ 2) (mass a) x (2 * x) (npdf x)); [auto_derive; auto; ring|apply mass_d|intros; apply Rmult_comm].
    + der.
  - rewrite mass_0, first_0, second_0. ring.
  - intros x H. assert (K := mean_below a x H). lra.
Qed.
Lemma variance_pos a b : a < b -> 0 < mass a b * second a b - first a b * first a b.
Proof.
  apply (rise (fun x => mass a x * second a x - first a x * first a x) (fun x => npdf x * (second a x - 2 * (x * first a x) + x ^ 2 * mass a x))).
  - intro x. evar_last; [apply (is_derive_minus (K := R_AbsRing) (V := R_NormedModule)); [apply (is_derive_mult (mass a) (second a) x (npdf x) (x ^ 2 * npdf x)); [apply mass_d|apply second_d|intros; apply Rmult_comm]|apply (is_derive_mult (first a) (first a) x (x * npdf x) (x * npdf x)); [apply first_d|apply first_d|intros; apply Rmult_comm]]|]. der.
  - rewrite mass_0, first_0. ring.
  - intros x H. apply Rmult_lt_0_compat; [apply npdf_pos|]. now apply spread_about.
Qed.
(** ... and below 1 *)
Lemma variance_part a b : first a b * first a b - mass a b * (second a b - mass a b) = (b * mass a b - first a b) * npdf b + (first a b - a * mass a b) * npdf a.
Proof. unfold second, first. ring. Qed.
Definition lack a b := (first a b * first a b - mass a b * (second a b - mass a b)) / (mass a b * mass a b).
Lemma lack_range a b : a < b -> 0 < lack a b < 1.
Proof.
  intro H. assert (M := mass_pos a b H). assert (0 < mass a b * mass a b) by (now apply Rmult_lt_0_compat). unfold lack. split.
  - apply Rdiv_lt_0_compat; auto. rewrite variance_part. apply Rplus_lt_0_compat; apply Rmult_lt_0_compat; try apply npdf_pos; [now apply mean_below|now apply mean_above].
  - apply Rmult_lt_reg_r with (mass a b * mass a b); auto. unfold Rdiv. rewrite Rmult_assoc, Rinv_l by lra. assert (K := variance_pos a b H). lra.
Qed.

(** ---- a label in the middle ---- *)
Definition zlo (o : ord_probit) (k : nat) (f : R) : R := (nth (k - 2) (o_b o) 0 - f) / o_sigma o.
Definition zhi (o : ord_probit) (k : nat) (f : R) : R := (nth (k - 1) (o_b o) 0 - f) / o_sigma o.
Lemma middle_prob o k f : (1 < k < o_n o)%nat -> label_prob (o_n o) (o_sigma o) (o_b o) k f = mass (zlo o k f) (zhi o k f).
Proof.
  intro K. unfold label_prob, cumulative, mass, zlo, zhi. destruct (Nat.eqb_spec k 0); [lia|]. destruct (Nat.eqb_spec (k - 1) 0); [lia|]. destruct (Nat.ltb_spec k (o_n o)); [|lia]. destruct (Nat.ltb_spec (k - 1) (o_n o)); [|lia]. replace (k - 1 - 1)%nat with (k - 2)%nat by lia. reflexivity.
Qed.
Lemma middle_slope o k f : (1 < k < o_n o)%nat -> dlab o k f = / o_sigma o * (first (zlo o k f) (zhi o k f) / mass (zlo o k f) (zhi o k f)).
Proof.
  intro K. unfold dlab. rewrite middle_prob by auto. unfold norm_pdf. destruct (Nat.eqb_spec k 0); [lia|]. destruct (Nat.eqb_spec (k - 1) 0); [lia|]. destruct (Nat.eqb_spec k (o_n o)); [lia|]. destruct (Nat.eqb_spec (k - 1) (o_n o)); [lia|]. cbn [orb].
  rewrite !oz_div. replace (k - 1 - 1)%nat with (k - 2)%nat by lia. fold (zlo o k f) (zhi o k f). unfold first, isigma, Rdiv. ring.
Qed.
Lemma npdf_ratio a b : exp (- (1 / 2) * (b ^ 2 - a ^ 2)) = npdf b / npdf a.
Proof.
  assert (P := s2pi_pos). unfold npdf. replace (- (1 / 2) * (b ^ 2 - a ^ 2)) with (- (b ^ 2) / 2 + - (- (a ^ 2) / 2)) by field. rewrite exp_plus, exp_Ropp. assert (0 < exp (- (a ^ 2) / 2)) by apply exp_pos. field. split; apply Rgt_not_eq; lra.
Qed.
Lemma npdf_less a b : a ^ 2 < b ^ 2 -> npdf b < npdf a.
Proof. intro H. assert (P := s2pi_pos). unfold npdf, Rdiv. apply Rmult_lt_compat_r; [now apply Rinv_0_lt_compat|]. apply exp_increasing. lra. Qed.
Lemma npdf_same a b : npdf a = npdf b -> a ^ 2 = b ^ 2.
Proof. intro E. destruct (Rtotal_order (a ^ 2) (b ^ 2)) as [H|[H|H]]; auto; apply npdf_less in H; lra. Qed.
Definition guess a b := (b * (npdf b / npdf a) - a) / (npdf b / npdf a - 1).
Lemma guess_lack a b : a < b -> a + b <> 0 -> (first a b / mass a b) * (first a b / mass a b - guess a b) = lack a b.
Proof.
  intros H N. assert (M := mass_pos a b H). assert (Pa := npdf_pos a). assert (D : npdf b - npdf a <> 0).
  { intro E. assert (Q := npdf_same b a ltac:(lra)). assert (E2 : (b - a) * (a + b) = 0) by lra. apply Rmult_integral in E2. lra. }
  unfold lack, guess, second, first. field. split; [apply Rgt_not_eq; lra|]. split; [|exact D]. apply Rgt_not_eq. lra.
Qed.
Lemma first_nonzero a b : a < b -> a + b <> 0 -> first a b <> 0.
Proof. intros H N E. unfold first in E. assert (Q := npdf_same b a ltac:(lra)). assert (E2 : (b - a) * (a + b) = 0) by lra. apply Rmult_integral in E2. lra. Qed.
Lemma middle_single o eps k u F : (1 < k < o_n o)%nat -> 0 < o_sigma o -> nth (k - 2) (o_b o) 0 < nth (k - 1) (o_b o) 0 ->
  label_unclipped (o_n o) (o_sigma o) (o_b o) k (F u) -> label_prob (o_n o) (o_sigma o) (o_b o) k (F u) < eps ->
  exists W g p, ord_derivatives o eps ((k, u) :: nil) F = Ok (W, g, p) /\ has_partial (LLo o ((k, u) :: nil)) u F (dlab o k (F u)) /\
    zlo o k (F u) < zhi o k (F u) /\ g u = / o_sigma o * guess (zlo o k (F u)) (zhi o k (F u)).
Proof.
  intros K Hs B U L. assert (Z : zlo o k (F u) < zhi o k (F u)) by (unfold zlo, zhi, Rdiv; apply Rmult_lt_compat_r; [now apply Rinv_0_lt_compat|lra]).
  assert (P : 0 < label_prob (o_n o) (o_sigma o) (o_b o) k (F u)) by (rewrite middle_prob by auto; now apply mass_pos).
  assert (El := unclipped_lik o k (F u) ltac:(lia) U). destruct (single_gradient o eps k u F _ _ ltac:(lia) El eq_refl) as [W [p E]].
  exists W. eexists. exists p. split; [exact E|]. split; [|split; [exact Z|]].
  - unfold has_partial, LLo. apply (is_derive_ext (fun t : R => ln (label_prob (o_n o) (o_sigma o) (o_b o) k t))).
    + intro t. cbn [map rsum fst snd]. rewrite upd_at. symmetry. apply Rplus_0_r.
    + apply log_label_derive; [lia|exact P].
  - rewrite put_single. unfold ord_derv. replace (Rltb _ eps) with true by (symmetry; now apply Rltb_true). unfold ord_eps_branch. destruct (Nat.eqb_spec k 1); [lia|]. destruct (Nat.eqb_spec k (o_n o)); [lia|]. cbn [fst].
    rewrite !oz_div. replace (k - 1 - 1)%nat with (k - 2)%nat by lia. fold (zlo o k (F u)) (zhi o k (F u)). rewrite npdf_ratio. unfold guess, isigma, Rdiv. ring.
Qed.
Lemma middle_gradient o eps k u F : (1 < k < o_n o)%nat -> 0 < o_sigma o -> nth (k - 2) (o_b o) 0 < nth (k - 1) (o_b o) 0 ->
  label_unclipped (o_n o) (o_sigma o) (o_b o) k (F u) -> label_prob (o_n o) (o_sigma o) (o_b o) k (F u) < eps -> 2 * F u <> nth (k - 2) (o_b o) 0 + nth (k - 1) (o_b o) 0 ->
  exists W g p D, ord_derivatives o eps ((k, u) :: nil) F = Ok (W, g, p) /\ has_partial (LLo o ((k, u) :: nil)) u F D /\ 0 < o_sigma o ^ 2 * (D * (D - g u)) < 1 /\
    (F u < nth (k - 2) (o_b o) 0 -> Rabs (g u - D) < / (nth (k - 2) (o_b o) 0 - F u)) /\ (nth (k - 1) (o_b o) 0 < F u -> Rabs (g u - D) < / (F u - nth (k - 1) (o_b o) 0)).
Proof.
  intros K Hs B U L N. destruct (middle_single o eps k u F K Hs B U L) as [W [g [p [E [D [Z G]]]]]]. exists W, g, p, (dlab o k (F u)). split; [exact E|]. split; [exact D|].
  rewrite G, (middle_slope o k (F u) K). assert (N' : zlo o k (F u) + zhi o k (F u) <> 0).
  { unfold zlo, zhi. intro Q. apply N. assert (Q2 : (nth (k - 2) (o_b o) 0 - F u + (nth (k - 1) (o_b o) 0 - F u)) / o_sigma o = 0) by (unfold Rdiv in *; lra). apply (f_equal (fun t => t * o_sigma o)) in Q2. unfold Rdiv in Q2. rewrite Rmult_assoc, Rinv_l in Q2 by lra. lra. }
  assert (Q := guess_lack _ _ Z N'). assert (R0 := lack_range _ _ Z). assert (MB := mean_below _ _ Z). assert (MA := mean_above _ _ Z). assert (M := mass_pos _ _ Z).
  assert (Elo : nth (k - 2) (o_b o) 0 - F u = o_sigma o * zlo o k (F u)) by (unfold zlo; field; lra). assert (Ehi : F u - nth (k - 1) (o_b o) 0 = o_sigma o * - zhi o k (F u)) by (unfold zhi; field; lra).
  rewrite Elo, Ehi. set (a := zlo o k (F u)) in *. set (b := zhi o k (F u)) in *. set (mu := first a b / mass a b) in *. set (gs := guess a b) in *. assert (Hi : 0 < / o_sigma o) by now apply Rinv_0_lt_compat.
  assert (Mb : mu < b) by (unfold mu; apply Rmult_lt_reg_r with (mass a b); auto; unfold Rdiv; rewrite Rmult_assoc, Rinv_l by lra; lra). assert (Ma : a < mu) by (unfold mu; apply Rmult_lt_reg_r with (mass a b); auto; unfold Rdiv; rewrite Rmult_assoc, Rinv_l by lra; lra).
  split; [|split].
  - replace (o_sigma o ^ 2 * (/ o_sigma o * mu * (/ o_sigma o * mu - / o_sigma o * gs))) with (mu * (mu - gs)) by (field; lra). rewrite Q. exact R0.
  - intro H. assert (Pa : 0 < a) by (unfold a, zlo; apply Rdiv_lt_0_compat; lra). replace (/ o_sigma o * gs - / o_sigma o * mu) with (- (/ o_sigma o * (mu - gs))) by ring. rewrite Rabs_Ropp, Rabs_mult, (Rabs_right (/ o_sigma o)) by lra. rewrite Rinv_mult. apply Rmult_lt_compat_l; auto.
    assert (mu - gs = lack a b / mu) by (rewrite <- Q; field; lra). rewrite H0. rewrite Rabs_right by (apply Rle_ge, Rlt_le, Rdiv_lt_0_compat; lra). apply Rlt_trans with (/ mu).
    + unfold Rdiv. rewrite <- (Rmult_1_l (/ mu)) at 2. apply Rmult_lt_compat_r; [apply Rinv_0_lt_compat; lra|apply R0].
    + apply Rinv_lt_contravar; [apply Rmult_lt_0_compat; lra|exact Ma].
  - intro H. assert (Pb : b < 0). { assert (0 < o_sigma o * - b) by (rewrite <- Ehi; lra). assert (0 < - b) by (apply Rmult_lt_reg_l with (o_sigma o); lra). lra. }
    replace (/ o_sigma o * gs - / o_sigma o * mu) with (- (/ o_sigma o * (mu - gs))) by ring. rewrite Rabs_Ropp, Rabs_mult, (Rabs_right (/ o_sigma o)) by lra. rewrite Rinv_mult. apply Rmult_lt_compat_l; auto.
    assert (E1 : mu - gs = - (lack a b / - mu)) by (rewrite <- Q; field; lra). rewrite E1, Rabs_Ropp. rewrite Rabs_right by (apply Rle_ge, Rlt_le, Rdiv_lt_0_compat; lra). apply Rlt_trans with (/ - mu).
    + unfold Rdiv. rewrite <- (Rmult_1_l (/ - mu)) at 2. apply Rmult_lt_compat_r; [apply Rinv_0_lt_compat; lra|apply R0].
    + apply Rinv_lt_contravar; [apply Rmult_lt_0_compat; lra|lra].
Qed.

(** ---- a narrow label: near the middle the quotient is without bound ---- *)
Lemma npdf_floor x : -1 <= x <= 1 -> npdf 1 <= npdf x.
Proof. intro H. destruct (Req_dec (x ^ 2) (1 ^ 2)) as [E|N]; [unfold npdf; rewrite E; lra|]. apply Rlt_le, npdf_less. assert (x ^ 2 <= 1 ^ 2) by nra. lra. Qed.
Lemma mass_mean a b : a < b -> exists c, a < c < b /\ mass a b = npdf c * (b - a).
Proof. intro H. destruct (MVT_cor2 ndtr npdf a b H) as [c [E C]]; [intros; apply is_derive_Reals, ndtr_derive|]. exists c. split; [exact C|exact E]. Qed.
Lemma npdf_top x : npdf x < 1 / 2.
Proof. assert (K := npdf_0_bounds). destruct (Req_dec x 0) as [->|N]; [lra|]. assert (npdf x < npdf 0) by (apply npdf_less; nra). lra. Qed.
Lemma narrow_guess h d : 0 < h <= 1 -> 0 < d <= h / 4 -> let a := - (h / 2) - d in let b := h / 2 - d in
  0 < mass a b < h / 2 /\ 2 * npdf 1 ^ 2 * h / d <= Rabs (guess a b - first a b / mass a b).
Proof.
  intros Hh Hd a b. assert (H : a < b) by (unfold a, b; lra). assert (N : a + b <> 0) by (unfold a, b; lra). assert (M := mass_pos a b H). destruct (mass_mean a b H) as [c [C E]]. assert (Q1 := npdf_pos 1).
  assert (Eh : b - a = h) by (unfold a, b; field). rewrite Eh in E. assert (T := npdf_top c). assert (Fl := npdf_floor c ltac:(unfold a, b in C; lra)).
  assert (Mh : mass a b < h / 2) by (rewrite E; apply Rle_lt_trans with (npdf c * h); [lra|]; assert (0 < (1 / 2 - npdf c) * h) by (apply Rmult_lt_0_compat; lra); lra).
  assert (Ml : npdf 1 * h <= mass a b) by (rewrite E; apply Rmult_le_compat_r; lra).
  split; [lra|].
  assert (A1 : - d <= first a b < 0).
  { unfold first. destruct (MVT_cor2 npdf (fun x => - x * npdf x) b (- a) ltac:(unfold a, b; lra)) as [x [Ex Cx]]; [intros; apply is_derive_Reals, npdf_derive|]. rewrite npdf_even in Ex. assert (Tx := npdf_top x). assert (Px := npdf_pos x).
    assert (Bx : 0 < x < 1) by (unfold a, b in Cx; lra). assert (X1 : 0 < x * npdf x <= 1 / 2) by (split; [apply Rmult_lt_0_compat; lra|]; apply Rle_trans with (1 * npdf x); [apply Rmult_le_compat_r; lra|lra]).
    replace (- a - b) with (2 * d) in Ex by (unfold a, b; field). rewrite Ex. split; [|assert (0 < x * npdf x * (2 * d)) by (apply Rmult_lt_0_compat; lra); lra]. assert (x * npdf x * (2 * d) <= 1 / 2 * (2 * d)) by (apply Rmult_le_compat_r; lra). lra. }
  set (mu := first a b / mass a b). assert (Mu : mu < 0) by (unfold mu, Rdiv; assert (0 < / mass a b) by (now apply Rinv_0_lt_compat); assert (0 < - first a b * / mass a b) by (apply Rmult_lt_0_compat; lra); lra).
  assert (La : 2 * npdf 1 <= lack a b).
  { unfold lack. rewrite variance_part. apply Rmult_le_reg_r with (mass a b * mass a b); [now apply Rmult_lt_0_compat|]. unfold Rdiv. rewrite (Rmult_assoc _ (/ _)), Rinv_l, Rmult_1_r by (apply Rgt_not_eq, Rmult_lt_0_compat; auto).
    assert (MB := mean_below a b H). assert (MA := mean_above a b H). assert (Fa := npdf_floor a ltac:(unfold a; lra)). assert (Fb := npdf_floor b ltac:(unfold b; lra)).
    apply Rle_trans with ((b * mass a b - first a b) * npdf 1 + (first a b - a * mass a b) * npdf 1); [|apply Rplus_le_compat; apply Rmult_le_compat_l; lra].
    replace ((b * mass a b - first a b) * npdf 1 + (first a b - a * mass a b) * npdf 1) with (npdf 1 * mass a b * (b - a)) by ring. rewrite Eh.
    replace (2 * npdf 1 * (mass a b * mass a b)) with (npdf 1 * mass a b * (2 * mass a b)) by ring. apply Rmult_le_compat_l; [apply Rlt_le, Rmult_lt_0_compat; auto|lra]. }
  assert (G := guess_lack a b H N). fold mu in G. replace (guess a b - mu) with (lack a b / - mu) by (rewrite <- G; field; lra). rewrite Rabs_right by (apply Rle_ge, Rlt_le, Rdiv_lt_0_compat; lra).
  assert (Nm : - mu <= d / (npdf 1 * h)).
  { unfold mu. replace (- (first a b / mass a b)) with (- first a b / mass a b) by (field; lra). apply Rle_trans with (d / mass a b).
    - unfold Rdiv. apply Rmult_le_compat_r; [apply Rlt_le, Rinv_0_lt_compat; lra|lra].
    - unfold Rdiv. apply Rmult_le_compat_l; [lra|]. apply Rinv_le_contravar; [apply Rmult_lt_0_compat; lra|exact Ml]. }
  apply Rle_trans with (2 * npdf 1 / - mu).
  - replace (2 * npdf 1 ^ 2 * h / d) with (2 * npdf 1 * / (d / (npdf 1 * h))) by (field; repeat split; lra). unfold Rdiv at 2. apply Rmult_le_compat_l; [lra|]. apply Rinv_le_contravar; [lra|exact Nm].
  - unfold Rdiv. apply Rmult_le_compat_r; [apply Rlt_le, Rinv_0_lt_compat; lra|exact La].
Qed.
Lemma narrow_gradient s eps M : 0 < s -> 0 < eps -> 0 < M -> exists w f W g p D, 0 < f < w /\ w <= s /\
  ord_derivatives (mkOrd 3 s (0 :: w :: nil)) eps ((2%nat, 0%nat) :: nil) (fun _ => f) = Ok (W, g, p) /\ has_partial (LLo (mkOrd 3 s (0 :: w :: nil)) ((2%nat, 0%nat) :: nil)) 0 (fun _ => f) D /\ M < Rabs (g 0%nat - D).
Proof.
  intros Hs He HM. set (h := Rmin 1 eps). assert (Hh : 0 < h <= 1) by (unfold h; split; [apply Rmin_pos; lra|apply Rmin_l]). assert (Hhe : h <= eps) by apply Rmin_r. assert (Q1 := npdf_pos 1).
  assert (Qp : 0 < npdf 1 ^ 2 * h / (s * M)) by (apply Rdiv_lt_0_compat; [apply Rmult_lt_0_compat; [apply pow_lt; auto|lra]|now apply Rmult_lt_0_compat]).
  set (d := Rmin (h / 4) (npdf 1 ^ 2 * h / (s * M))). assert (Hd : 0 < d <= h / 4) by (unfold d; split; [apply Rmin_pos; lra|apply Rmin_l]). assert (Hd2 : d <= npdf 1 ^ 2 * h / (s * M)) by apply Rmin_r.
  set (w := s * h). set (f := s * (h / 2 + d)). set (o := mkOrd 3 s (0 :: w :: nil)). destruct (narrow_guess h d Hh Hd) as [N1 N2]. set (a := - (h / 2) - d) in *. set (b := h / 2 - d) in *.
  assert (Za : zlo o 2 f = a) by (unfold zlo, o, f, a; cbn; field; lra). assert (Zb : zhi o 2 f = b) by (unfold zhi, o, f, b, w; cbn; field; lra).
  destruct (middle_single o eps 2 0 (fun _ => f)) as [W [g [p [E [D [Z G]]]]]].
  - cbn. lia.
  - exact Hs.
  - cbn. unfold w. apply Rmult_lt_0_compat; lra.
  - unfold label_unclipped. split; intros _; [change (-30 < zhi o 2 f < 100); rewrite Zb; unfold b; lra|change (-30 < zlo o 2 f < 100); rewrite Za; unfold a; lra].
  - rewrite middle_prob by (cbn; lia). rewrite Za, Zb. lra.
  - exists w, f, W, g, p, (dlab o 2 f). split; [unfold f, w; split; [apply Rmult_lt_0_compat; lra|apply Rmult_lt_compat_l; lra]|]. split; [unfold w; rewrite <- (Rmult_1_r s) at 2; apply Rmult_le_compat_l; lra|]. split; [exact E|]. split; [exact D|].
    rewrite G, middle_slope by (cbn; lia). rewrite Za, Zb. change (o_sigma o) with s. rewrite <- Rmult_minus_distr_l, Rabs_mult, (Rabs_right (/ s)) by (apply Rle_ge, Rlt_le, Rinv_0_lt_compat; lra).
    apply Rlt_le_trans with (/ s * (2 * npdf 1 ^ 2 * h / d)); [|apply Rmult_le_compat_l; [apply Rlt_le, Rinv_0_lt_compat; lra|exact N2]].
    apply Rlt_le_trans with (/ s * (2 * (s * M))).
    + replace (/ s * (2 * (s * M))) with (2 * M) by (field; lra). lra.
    + apply Rmult_le_compat_l; [apply Rlt_le, Rinv_0_lt_compat; lra|]. apply Rmult_le_reg_r with d; [lra|]. replace (2 * npdf 1 ^ 2 * h / d * d) with (2 * (npdf 1 ^ 2 * h)) by (field; lra).
      assert (X := Rmult_le_compat_l (s * M) _ _ ltac:(apply Rlt_le, Rmult_lt_0_compat; lra) Hd2). replace (s * M * (npdf 1 ^ 2 * h / (s * M))) with (npdf 1 ^ 2 * h) in X by (field; split; lra). lra.
Qed.
