(** The log likelihood of comparisons and ordinal labels is continuous, concave and not positive. *)
From Coquelicot Require Import Coquelicot.
From Coq Require Import Reals Lra Lia List.
From Verif Require Import M_RBase M_Normal M_PrefProbit M_OrdProbit M_AbsProbit M_Acq M_GP M_Fit S_PrefProbit S_OrdProbit S_AbsProbit S_GP S_Fit S_Mode P_RBase P_Normal P_PrefProbit P_Put P_OrdProbit P_AbsProbit P_Fit P_Fit2 P_Fit3 P_Fit4 P_Mode.
From Verif Require Import S_Psd P_Psd.
Local Open Scope R_scope.

(** ---- one ordinal label ---- *)
Lemma mono_derive (h dh : R -> R) a b : a <= b -> (forall x, is_derive h x (dh x)) -> (forall x, a <= x <= b -> 0 <= dh x) -> h a <= h b.
Proof.
  intros H D Pd. destruct (MVT_gen h a b dh) as [c [Hc E]]; auto.
  - intros t _. apply derivable_continuous_pt. eexists. apply is_derive_Reals. apply D.
  - rewrite Rmin_left, Rmax_right in Hc by auto. specialize (Pd c Hc). assert (0 <= dh c * (b - a)) by (apply Rmult_le_pos; lra). lra.
Qed.
(** the mean of a normal variable restricted to [A, B] lies between A and B *)
Lemma mean_above A B : A <= B -> A * (ndtr B - ndtr A) <= npdf A - npdf B.
Proof.
  intro H. assert (T := mono_derive (fun x => npdf A - npdf x - A * (ndtr x - ndtr A)) (fun x => (x - A) * npdf x) A B H). cbn in T. assert (K : npdf A - npdf A - A * (ndtr A - ndtr A) <= npdf A - npdf B - A * (ndtr B - ndtr A)); [|lra].
  apply T.
  - intro x. evar_last. { apply (rminus_derive (fun x => npdf A - npdf x) (fun x => A * (ndtr x - ndtr A)) x (0 - - x * npdf x) (A * (npdf x - 0))).
      - apply (rminus_derive (fun _ => npdf A) npdf x 0 (- x * npdf x)); [apply rconst_derive|apply npdf_derive].
      - apply (is_derive_scal (fun x => ndtr x - ndtr A) x A (npdf x - 0)). apply (rminus_derive ndtr (fun _ => ndtr A) x (npdf x) 0); [apply ndtr_derive|apply rconst_derive]. }
    cbn. ring.
  - intros x Hx. apply Rmult_le_pos; [lra|]. left. apply npdf_pos.
Qed.
Lemma mean_below A B : A <= B -> npdf A - npdf B <= B * (ndtr B - ndtr A).
Proof.
  intro H. assert (T := mean_above (- B) (- A) ltac:(lra)). rewrite !npdf_even, !ndtr_sym in T. lra.
Qed.
Lemma cumulative_range o k f : 0 <= cumulative (o_n o) (o_sigma o) (o_b o) k f <= 1.
Proof. unfold cumulative. destruct (Nat.eqb k 0); [lra|]. destruct (Nat.ltb k (o_n o)); [|lra]. assert (T := ndtr_range ((nth (k - 1) (o_b o) 0 - f) / o_sigma o)). lra. Qed.
Lemma scaled_lt o i j f : separated o -> (i < j)%nat -> (j < length (o_b o))%nat -> (nth i (o_b o) 0 - f) / o_sigma o < (nth j (o_b o) 0 - f) / o_sigma o.
Proof. intros [S [_ H]] Hi Hj. specialize (H i j Hi Hj). apply Rmult_lt_compat_r; [now apply Rinv_0_lt_compat|lra]. Qed.
Lemma label_range o k f : separated o -> (1 <= k <= o_n o)%nat -> 0 < label_prob (o_n o) (o_sigma o) (o_b o) k f <= 1.
Proof.
  intros S K. split.
  - unfold label_prob, cumulative. destruct (Nat.eqb_spec k 0); [lia|]. destruct (Nat.eqb_spec (k - 1) 0) as [E|E].
    + destruct (Nat.ltb k (o_n o)); [|lra]. assert (T := ndtr_range ((nth (k - 1) (o_b o) 0 - f) / o_sigma o)). lra.
    + destruct (Nat.ltb_spec (k - 1) (o_n o)); [|lia]. destruct (Nat.ltb_spec k (o_n o)).
      * assert (L := proj1 (proj2 S)). assert (T := ndtr_increasing _ _ (scaled_lt o (k - 1 - 1) (k - 1) f S ltac:(lia) ltac:(lia))). lra.
      * assert (T := ndtr_range ((nth (k - 1 - 1) (o_b o) 0 - f) / o_sigma o)). lra.
  - unfold label_prob. assert (A := cumulative_range o k f). assert (B := cumulative_range o (k - 1) f). lra.
Qed.
Lemma ddlab_neg o k f : separated o -> (1 <= k <= o_n o)%nat -> ddlab o k f <= 0.
Proof.
  intros S K. assert (R := label_range o k f S K). unfold ddlab, dlab. set (q := label_prob (o_n o) (o_sigma o) (o_b o) k f) in *. set (a := norm_pdf o k f - norm_pdf o (k - 1) f). set (z := zpdf o k f - zpdf o (k - 1) f).
  replace (- ((- isigma o * a / q) ^ 2 + ivar o * z / q)) with (- (ivar o / q ^ 2 * (a ^ 2 + z * q))) by (unfold ivar; field; lra).
  assert (H : 0 <= a ^ 2 + z * q).
  { unfold a, z, norm_pdf, zpdf. destruct (Nat.eqb_spec k 0); [lia|]. unfold q, label_prob, cumulative. destruct (Nat.eqb_spec k 0); [lia|]. rewrite <- !oz_div. cbn [orb].
    destruct (Nat.eqb_spec (k - 1) (o_n o)); [lia|]. rewrite Bool.orb_false_r. destruct (Nat.ltb_spec (k - 1) (o_n o)); [|lia].
    destruct (Nat.eqb_spec (k - 1) 0); destruct (Nat.eqb_spec k (o_n o)); destruct (Nat.ltb_spec k (o_n o)); try lia.
    - rewrite !Rminus_0_r. right. ring.
    - rewrite !Rminus_0_r. set (B := oz o k f). replace (npdf B ^ 2 + B * npdf B * ndtr B) with (npdf B * (npdf B + B * ndtr B)) by ring. apply Rmult_le_pos; left; [apply npdf_pos|apply mills].
    - set (A := oz o (k - 1) f). assert (M := mills (- A)). rewrite npdf_even, ndtr_sym in M. replace ((0 - npdf A) ^ 2 + (0 - A * npdf A) * (1 - ndtr A)) with (npdf A * (npdf A + - A * (1 - ndtr A))) by ring.
      apply Rmult_le_pos; left; [apply npdf_pos|exact M].
    - assert (Lab := scaled_lt o (k - 1 - 1) (k - 1) f S ltac:(lia) ltac:(rewrite (proj1 (proj2 S)); lia)). rewrite <- !oz_div in Lab. set (A := oz o (k - 1) f) in *. set (B := oz o k f) in *.
      assert (M1 := mean_above A B ltac:(lra)). assert (M2 := mean_below A B ltac:(lra)). assert (PA := npdf_pos A). assert (PB := npdf_pos B).
      replace ((npdf B - npdf A) ^ 2 + (B * npdf B - A * npdf A) * (ndtr B - ndtr A)) with (npdf B * (B * (ndtr B - ndtr A) - (npdf A - npdf B)) + npdf A * (npdf A - npdf B - A * (ndtr B - ndtr A))) by ring.
      apply Rplus_le_le_0_compat; apply Rmult_le_pos; lra. }
  assert (I : 0 <= ivar o / q ^ 2). { apply Rmult_le_pos; [unfold ivar; apply pow2_ge_0|]. left. apply Rinv_0_lt_compat, pow_lt. lra. }
  assert (0 <= ivar o / q ^ 2 * (a ^ 2 + z * q)) by (now apply Rmult_le_pos). lra.
Qed.
Lemma log_label_concave o k x y t : separated o -> (1 <= k <= o_n o)%nat -> 0 <= t <= 1 ->
  t * ln (label_prob (o_n o) (o_sigma o) (o_b o) k x) + (1 - t) * ln (label_prob (o_n o) (o_sigma o) (o_b o) k y) <= ln (label_prob (o_n o) (o_sigma o) (o_b o) k (t * x + (1 - t) * y)).
Proof.
  intros S K Ht. apply (decreasing_derive_concave (fun f => ln (label_prob (o_n o) (o_sigma o) (o_b o) k f)) (dlab o k)); auto.
  - intro f. apply log_label_derive; [lia|]. now apply label_range.
  - intros a b L. assert (T := mono_derive (fun f => - dlab o k f) (fun f => - ddlab o k f) a b ltac:(lra)). cbn in T. assert (- dlab o k a <= - dlab o k b); [|lra]. apply T.
    + intro f. apply (is_derive_opp (K := R_AbsRing) (V := R_NormedModule) (dlab o k) f (ddlab o k f)). apply dlab_derive; [lia|]. now apply label_range.
    + intros f _. assert (D := ddlab_neg o k f S K). lra.
Qed.

(** ---- all labels ---- *)
Lemma LLp_seg s y F G t : s <> 0 -> 0 <= t <= 1 -> (1 - t) * LLp s y F + t * LLp s y G <= LLp s y (along F (fun i => G i - F i) t).
Proof.
  intros S Ht. rewrite !LLp_z by auto. induction y as [|p y IH]; cbn [map rsum]; [lra|]. rewrite z_along.
  assert (C := log_ndtr_concave (z_of s G p) (z_of s F p) t Ht). replace (z_of s F p + t * dz s p (fun i => G i - F i)) with (t * z_of s G p + (1 - t) * z_of s F p) by (unfold z_of, dz, isqrt2sig; ring). lra.
Qed.
Lemma LLo_seg o y F G t : separated o -> valid o y -> 0 <= t <= 1 -> (1 - t) * LLo o y F + t * LLo o y G <= LLo o y (along F (fun i => G i - F i) t).
Proof.
  intros S V Ht. unfold LLo. induction y as [|p y IH]; cbn [map rsum]; [lra|].
  assert (C := log_label_concave o (fst p) (G (snd p)) (F (snd p)) t S (V p (or_introl eq_refl)) Ht). specialize (IH (fun q Hq => V q (or_intror Hq))).
  replace (along F (fun i => G i - F i) t (snd p)) with (t * G (snd p) + (1 - t) * F (snd p)) by (unfold along; ring). lra.
Qed.
Section Discrete.
Variables (sp : special) (P : probit_set) (n : nat) (y : labels).
Hypothesis GP : good_probits sp P.
Hypothesis GL : good_labels P n y.
Hypothesis DY : discrete P y.
Lemma LL_seg F G t : 0 <= t <= 1 -> (1 - t) * LL sp P y F + t * LL sp P y G <= LL sp P y (along F (fun i => G i - F i) t).
Proof.
  intro Ht. destruct DY as [NA SO]. destruct GL as [_ [GO _]]. unfold LL. rewrite NA. cbn [part].
  assert (A : (1 - t) * part (y_rel y) (fun r => LLp (p_sigma (ps_p P)) r F) + t * part (y_rel y) (fun r => LLp (p_sigma (ps_p P)) r G) <= part (y_rel y) (fun r => LLp (p_sigma (ps_p P)) r (along F (fun i => G i - F i) t))).
  { destruct (y_rel y) as [r|]; cbn [part]; [|lra]. apply LLp_seg; auto. apply GP. }
  assert (B : (1 - t) * part (y_ord y) (fun r => LLo (ps_o P) r F) + t * part (y_ord y) (fun r => LLo (ps_o P) r G) <= part (y_ord y) (fun r => LLo (ps_o P) r (along F (fun i => G i - F i) t))).
  { destruct (y_ord y) as [o|]; cbn [part]; [|lra]. apply LLo_seg; auto; [apply SO; discriminate|apply (GO o eq_refl)]. }
  lra.
Qed.
Lemma rsum_nonpos {A} (f : A -> R) l : (forall x, In x l -> f x <= 0) -> rsum (map f l) <= 0.
Proof. induction l as [|a l IH]; intro H; cbn [map rsum]; [lra|]. assert (T := H a (or_introl eq_refl)). specialize (IH (fun x Hx => H x (or_intror Hx))). lra. Qed.
Lemma LL_nonpos F : LL sp P y F <= 0.
Proof.
  destruct DY as [NA SO]. destruct GL as [_ [GO _]]. unfold LL. rewrite NA. cbn [part].
  assert (A : part (y_rel y) (fun r => LLp (p_sigma (ps_p P)) r F) <= 0).
  { destruct (y_rel y) as [r|]; cbn [part]; [|lra]. rewrite LLp_z by apply GP. apply rsum_nonpos. intros p _. left. apply log_ndtr_neg. }
  assert (B : part (y_ord y) (fun r => LLo (ps_o P) r F) <= 0).
  { destruct (y_ord y) as [o|]; cbn [part]; [|lra]. apply rsum_nonpos. intros p Hp. assert (R := label_range (ps_o P) (fst p) (F (snd p)) (SO ltac:(discriminate)) (proj1 (proj2 (GO o eq_refl)) p Hp)). rewrite <- ln_1. destruct (Req_dec (label_prob (o_n (ps_o P)) (o_sigma (ps_o P)) (o_b (ps_o P)) (fst p) (F (snd p))) 1) as [-> |N]; [lra|]. left. apply ln_increasing; lra. }
  lra.
Qed.
Lemma cont_pt_derive (f : R -> R) x d : is_derive f x d -> continuity_pt f x.
Proof. intro D. apply derivable_continuous_pt. eexists. apply is_derive_Reals. exact D. Qed.
Lemma rsum_lim {A} (f : nat -> A -> R) (g : A -> R) l : (forall x, In x l -> is_lim_seq (fun k => f k x) (g x)) -> is_lim_seq (fun k => rsum (map (f k) l)) (rsum (map g l)).
Proof.
  induction l as [|a l IH]; intro H; cbn [map rsum]; [apply is_lim_seq_const|]. apply (is_lim_seq_plus' (fun k => f k a) (fun k => rsum (map (f k) l))); [apply H; now left|]. apply IH. intros x Hx. apply H. now right.
Qed.
Lemma LL_cont : seq_continuous n (LL sp P y).
Proof.
  intros x l L. destruct DY as [NA SO]. destruct GL as [GR [GO _]]. unfold LL. rewrite NA. cbn [part].
  apply (is_lim_seq_plus' (fun k => part (y_rel y) (fun r => LLp (p_sigma (ps_p P)) r (x k)) + part (y_ord y) (fun o => LLo (ps_o P) o (x k))) (fun _ => 0)); [|apply is_lim_seq_const].
  apply (is_lim_seq_plus' (fun k => part (y_rel y) (fun r => LLp (p_sigma (ps_p P)) r (x k))) (fun k => part (y_ord y) (fun o => LLo (ps_o P) o (x k)))).
  - destruct (y_rel y) as [r|]; cbn [part]; [|apply is_lim_seq_const]. rewrite LLp_z by apply GP. apply (is_lim_seq_ext (fun k => rsum (map (fun p => log_ndtr (z_of (p_sigma (ps_p P)) (x k) p)) r))); [intro k; symmetry; apply LLp_z, GP|].
    apply (rsum_lim (fun k p => log_ndtr (z_of (p_sigma (ps_p P)) (x k) p))). intros p Hp. destruct (GR r eq_refl p Hp) as [Hu [Hv _]].
    apply (is_lim_seq_continuous log_ndtr (fun k => z_of (p_sigma (ps_p P)) (x k) p)); [eapply cont_pt_derive, log_ndtr_derive|]. unfold z_of.
    apply (is_lim_seq_scal_l (fun k => x k (v_of p) - x k (u_of p)) _ (Finite (l (v_of p) - l (u_of p)))). apply is_lim_seq_minus'; now apply L.
  - destruct (y_ord y) as [o|]; cbn [part]; [|apply is_lim_seq_const]. destruct (GO o eq_refl) as [_ [V B]]. unfold LLo.
    apply (rsum_lim (fun k p => ln (label_prob (o_n (ps_o P)) (o_sigma (ps_o P)) (o_b (ps_o P)) (fst p) (x k (snd p))))). intros p Hp.
    apply (is_lim_seq_continuous (fun f => ln (label_prob (o_n (ps_o P)) (o_sigma (ps_o P)) (o_b (ps_o P)) (fst p) f)) (fun k => x k (snd p))); [|apply L, B, Hp].
    eapply cont_pt_derive. apply log_label_derive; [apply V, Hp|]. apply label_range; [apply SO; discriminate|apply V, Hp].
Qed.
End Discrete.
