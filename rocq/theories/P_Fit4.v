(** Newton steps of [find_mode]: ascent direction, fixed points, unique mode. *)
From Coquelicot Require Import Coquelicot.
From Coq Require Import Reals Lra Lia List.
From Verif Require Import M_RBase M_Normal M_PrefProbit M_OrdProbit M_AbsProbit M_Acq M_GP M_Search M_Fit S_PrefProbit S_OrdProbit S_AbsProbit S_GP S_Fit P_RBase P_Acq P_Normal P_PrefProbit P_Put P_OrdProbit P_AbsProbit P_Chol P_GP P_GP2 P_GP3 P_Search P_Fit P_Fit2 P_Fit3.
From Verif Require Import S_Psd P_Psd.
Local Open Scope R_scope.

(** the objective of the code is the log posterior up to a constant *)
Lemma likli_value sp P n y K L B : good_probits sp P -> good_labels P n y -> symmetric n K -> chol n K = Some L -> right_inverse n K B ->
  exists c, forall F, ordinary P y F -> likli_f sp P y n L F = Ok (Some (log_post sp P y n B F - c)).
Proof.
  intros GP GL HS HL HB. exists (sumn n (fun i => ln (L i i)) + 5 / 10 * INR n * ln (2 * PI)). intros F O.
  destruct (total_derivatives sp P n y F GP GL O) as [W [g [_ [_ T]]]]. unfold likli_f. rewrite T. cbn [bind option_map]. do 2 f_equal. unfold log_post. rewrite !sum_to_sumn.
  rewrite (sumn_ext n (fun i => F i * cho_solve n L F i) (fun i => sumn n (fun j => F i * B i j * F j))).
  - change (sumn n (fun i => sumn n (fun j => F i * B i j * F j))) with (bform n B F F). rewrite bform_qform. field.
  - intros i Hi. rewrite (inverse_solves n K L F HS HL i Hi), <- sumn_scale. apply sumn_ext. intros j Hj. rewrite (inverse_unique n K B (k_inv n L) HS (chol_pd n K L HS HL) HB (k_inv_inverse n K L HS HL) i j Hi Hj). ring.
Qed.
Lemma mode_gradient_right sp P n y K L B F : good_probits sp P -> good_labels P n y -> ordinary P y F -> symmetric n K -> chol n K = Some L -> right_inverse n K B ->
  exists W g, derivatives sp P y F = Ok (W, g, Some (LL sp P y F)) /\ forall e, has_direction (log_post sp P y n B) F e (dotn n (mode_gradient n L g F) e).
Proof.
  intros GP GL O HS HL HB. destruct (post_gradient sp P n y F B GP GL O (inverse_sym n K B HS HB)) as [W [g [E D]]]. exists W, g. split; auto. intro e.
  rewrite (dotn_ext n _ (fun i => g i - sumn n (fun j => B i j * F j))); auto. intros i Hi. unfold mode_gradient. f_equal. rewrite (inverse_solves n K L F HS HL i Hi). apply sumn_ext. intros j Hj.
  now rewrite (inverse_unique n K B (k_inv n L) HS (chol_pd n K L HS HL) HB (k_inv_inverse n K L HS HL) i j Hi Hj).
Qed.
Lemma mode_hess_right sp P n y K L B F : good_probits sp P -> good_labels P n y -> ordinary P y F -> y_ord y = None -> symmetric n K -> chol n K = Some L -> right_inverse n K B ->
  exists W g v, derivatives sp P y F = Ok (W, g, v) /\ forall e e', has_direction (direction (log_post sp P y n B) e) F e' (bform n (mode_hess n L W) e e').
Proof.
  intros GP GL O NO HS HL HB. destruct (post_second sp P n y F B GP GL O NO (inverse_sym n K B HS HB)) as [W [g [v [E D]]]]. exists W, g, v. split; auto. intros e e'.
  rewrite (bform_ext n _ (fun i j => - W i j - B i j)); auto. intros i j Hi Hj. unfold mode_hess. now rewrite (inverse_unique n K B (k_inv n L) HS (chol_pd n K L HS HL) HB (k_inv_inverse n K L HS HL) i j Hi Hj).
Qed.

(** ---- Newton directions ---- *)
Lemma opp_inverse n M C : right_inverse n M C -> right_inverse n (fun i j => - M i j) (fun i j => - C i j).
Proof. intros H i j Hi Hj. rewrite <- (H i j Hi Hj). apply sumn_ext. intros; ring. Qed.
Lemma descent_spec inv n g H : inverts_all inv -> symmetric n H -> pd n (fun i j => - H i j) -> exists x, descent inv n g H = map x (seq 0 n) /\ solves n H g x.
Proof.
  intros I1 HS HP. set (M := fun i j => - H i j). assert (MS : symmetric n M) by (intros i j Hi Hj; unfold M; now rewrite (HS i j)).
  destruct (pd_inverse n M MS HP) as [C0 HC0].
  assert (HC1 : right_inverse n H (fun i j => - C0 i j)).
  { intros i j Hi Hj. rewrite <- (HC0 i j Hi Hj). apply sumn_ext. intros. unfold M. ring. }
  destruct (I1 n H _ HC1) as [C [EC HC]]. assert (CS : symmetric n C) by (now apply (inverse_sym n H)).
  exists (fun j => sum_to n (fun i => g i * C i j)). unfold descent. rewrite EC. split; [reflexivity|]. intros i Hi.
  rewrite (sumn_ext n _ (fun j => sumn n (fun a => H i j * C j a * g a))).
  - rewrite sumn_swap. rewrite (sumn_ext n _ (fun a => unitv a i * g a)); [now apply sumn_unit'|]. intros a Ha. rewrite sumn_scale_r. f_equal. exact (HC i a Hi Ha).
  - intros j Hj. rewrite sum_to_sumn, <- sumn_scale. apply sumn_ext. intros a Ha. rewrite (CS a j) by auto. ring.
Qed.
Lemma descent_rise n H g x : solves n H g x -> dotn n g (fun i => - x i) = qform n (fun i j => - H i j) x.
Proof.
  intro S. transitivity (- qform n H x).
  - rewrite (solves_qform n H g x S). unfold dotn. rewrite <- (Rmult_1_l (sumn n (fun i => g i * x i))), Ropp_mult_distr_l, <- sumn_scale. apply sumn_ext. intros; ring.
  - rewrite <- (Rmult_1_l (qform n H x)), Ropp_mult_distr_l, <- qform_scale. apply qform_ext; auto. intros; ring.
Qed.
Lemma step_from_map F x n lam : length F = n -> step_from F (map x (seq 0 n)) lam = map (fun i => entries F i - lam * x i) (seq 0 n).
Proof.
  intros <-. apply nth_eq_list.
  - unfold step_from. rewrite !map_length, combine_length, map_length, seq_length. lia.
  - intros i Hi. unfold step_from in *. rewrite map_length, combine_length, map_length, seq_length in Hi. rewrite nth_map_seq by lia.
    set (f := fun fd : R * R => _). rewrite (nth_indep _ 0 (f (0, 0))) by (rewrite map_length, combine_length, map_length, seq_length; lia).
    rewrite (map_nth f), combine_nth by (rewrite map_length, seq_length; lia). unfold f. cbn [fst snd]. unfold entries. rewrite nth_map_seq by lia. reflexivity.
Qed.
Lemma entries_map x n i : (i < n)%nat -> entries (map x (seq 0 n)) i = x i.
Proof. intro H. unfold entries. now rewrite nth_map_seq. Qed.

Lemma along_zero F e : along F e 0 = F.
Proof. apply FunctionalExtensionality.functional_extensionality. intro i. unfold along. ring. Qed.
Lemma derive_raises (h : R -> R) (l : R) : is_derive h 0 l -> 0 < l -> exists d, 0 < d /\ forall t, 0 < t < d -> h 0 < h t.
Proof.
  intros D Hl. assert (Q := proj2 D (0 : R) (fun P H => H) (mkposreal (l / 2) ltac:(lra))). destruct Q as [d Hd]. exists (pos d). split; [apply cond_pos|]. intros t Ht.
  assert (T := Hd t). assert (Bt : ball (0 : R) d t). { unfold ball; cbn; unfold AbsRing_ball, abs, minus, plus, opp; cbn. rewrite Ropp_0, Rplus_0_r. apply Rabs_def1; lra. }
  specialize (T Bt). unfold norm, minus, plus, opp, scal in T; cbn in T. unfold abs, mult in T; cbn in T. rewrite Ropp_0, Rplus_0_r in T. rewrite (Rabs_right t) in T by lra. apply Rabs_le_between in T. nra.
Qed.
Lemma dir_raises f F e l : has_direction f F e l -> 0 < l -> exists d, 0 < d /\ forall t, 0 < t < d -> f F < f (along F e t).
Proof. intros D Hl. destruct (derive_raises _ l D Hl) as [d [Hd K]]. exists d. split; auto. intros t Ht. specialize (K t Ht). now rewrite along_zero in K. Qed.
Lemma concave_tangent (h : R -> R) (a b l : R) : h 0 = a -> is_derive h 0 l -> (forall t, 0 <= t <= 1 -> (1 - t) * a + t * b <= h t) -> b - a <= l.
Proof.
  intros E D C. destruct (Rle_or_lt (b - a) l) as [|Hl]; auto. exfalso.
  assert (D' : is_derive (fun t : R => (b - a) * t - h t) 0 (b - a - l)).
  { apply (is_derive_minus (fun t : R => (b - a) * t) h 0 (b - a) l); auto. auto_derive; auto; ring. }
  destruct (derive_raises _ _ D' ltac:(lra)) as [d [Hd K]]. pose (t := Rmin (d / 2) 1). assert (Ht : 0 < t < d /\ t <= 1) by (unfold t, Rmin; destruct Rle_dec; lra). specialize (K t (proj1 Ht)). specialize (C t ltac:(lra)). rewrite E in K. lra.
Qed.

(** ---- preferences only ---- *)
Lemma rel_facts sp P n r F : good_probits sp P -> good_labels P n (mkLabels (Some r) None None) -> ordinary P (mkLabels (Some r) None None) F ->
  p_sigma (ps_p P) <> 0 /\ well_formed n r /\ unclipped (p_sigma (ps_p P)) r F.
Proof. intros [A _] [B _] [C _]. split; [auto|]. split; [exact (B r eq_refl)|exact (C r eq_refl)]. Qed.
Lemma rel_W sp P n r F : good_probits sp P -> good_labels P n (mkLabels (Some r) None None) -> ordinary P (mkLabels (Some r) None None) F ->
  exists W g v, derivatives sp P (mkLabels (Some r) None None) F = Ok (W, g, v) /\ symmetric n W /\ psd n W /\ (forall i j, W i j = calc_W (p_sigma (ps_p P)) r F i j).
Proof.
  intros GP GL O. destruct (rel_facts sp P n r F GP GL O) as [S [WF U]]. unfold derivatives. cbn [y_rel y_ord y_abs bind derivs_add fst snd oplus].
  exists (fun i j => 0 + calc_W (p_sigma (ps_p P)) r F i j). eexists. eexists. split; [reflexivity|]. assert (E : forall i j, 0 + calc_W (p_sigma (ps_p P)) r F i j = calc_W (p_sigma (ps_p P)) r F i j) by (intros; ring). split; [|split]; auto.
  - intros i j _ _. rewrite !E. apply W_symmetric.
  - apply (psd_ext n (calc_W (p_sigma (ps_p P)) r F)); [intros; now rewrite E|]. apply W_psd; auto. intros p Hp. specialize (U p Hp). lra.
Qed.
Lemma hess_neg n K L W : symmetric n K -> chol n K = Some L -> symmetric n W -> psd n W -> symmetric n (mode_hess n L W) /\ pd n (fun i j => - mode_hess n L W i j).
Proof.
  intros HS HL WS WP. assert (HI := k_inv_inverse n K L HS HL). assert (IS := inverse_sym n K _ HS HI). split.
  - intros i j Hi Hj. unfold mode_hess. now rewrite (WS i j), (IS i j).
  - apply (pd_ext n (fun i j => W i j + k_inv n L i j)); [intros; unfold mode_hess; ring|]. intros c Hc. apply newton_pd; auto. intros c' Hc'. apply (inverse_pd n K _ HS (chol_pd n K L HS HL) HI c' Hc').
Qed.
Lemma map_entries F n : length F = n -> map (entries F) (seq 0 n) = F.
Proof. intros <-. apply nth_eq_list; [now rewrite map_length, seq_length|]. intros i Hi. rewrite map_length, seq_length in Hi. now rewrite nth_map_seq. Qed.

Section Step.
Variables (sp : special) (P : probit_set) (n : nat) (r : list pair) (K L B : nat -> nat -> R) (inv : nat -> (nat -> nat -> R) -> option (nat -> nat -> R)).
Hypothesis GP : good_probits sp P.
Hypothesis GL : good_labels P n (only r).
Hypothesis HS : symmetric n K.
Hypothesis HL : chol n K = Some L.
Hypothesis HB : right_inverse n K B.
Hypothesis HI : inverts_all inv.
Lemma step_shape F : length F = n -> ordinary P (only r) (entries F) -> exists g x lam H, 0 < lam < 15 / 10 /\
  mode_step sp P (only r) n L inv F = Ok (map (fun i => entries F i - lam * x i) (seq 0 n)) /\ solves n H g x /\ pd n (fun i j => - H i j) /\
  (forall e, has_direction (log_post sp P (only r) n B) (entries F) e (dotn n g e)).
Proof.
  intros HF O. destruct (mode_gradient_right sp P n (only r) K L B (entries F) GP GL O HS HL HB) as [W [g [E D]]].
  destruct (rel_W sp P n r (entries F) GP GL O) as [W' [g' [v' [E' [WS [WP _]]]]]]. fold (only r) in E'. rewrite E in E'. injection E' as <- <- <-.
  destruct (hess_neg n K L W HS HL WS WP) as [MS MP]. destruct (descent_spec inv n (mode_gradient n L g (entries F)) (mode_hess n L W) HI MS MP) as [x [Ex Sx]].
  unfold mode_step. rewrite E. cbn [bind fst snd]. rewrite Ex. destruct (newton_binary F (map x (seq 0 n)) (objective (likli_f sp P (only r) n L)) 3) as [lam [Hl EL]]. rewrite EL.
  exists (mode_gradient n L g (entries F)), x, lam, (mode_hess n L W). split; auto. split; [now rewrite step_from_map|]. auto.
Qed.
Lemma zero_solution g x H : solves n H g x -> (forall i, (i < n)%nat -> x i = 0) -> forall e, dotn n g e = 0.
Proof.
  intros Sx Z e. apply sumn_zero. intros i Hi. rewrite <- (Sx i Hi), sumn_zero; [ring|]. intros j Hj. rewrite (Z j Hj). ring.
Qed.
Lemma step_ascent F : length F = n -> ordinary P (only r) (entries F) -> exists e lam, 0 < lam < 15 / 10 /\
  mode_step sp P (only r) n L inv F = Ok (map (along (entries F) e lam) (seq 0 n)) /\
  ((exists l d, has_direction (log_post sp P (only r) n B) (entries F) e l /\ 0 < l /\ 0 < d /\ forall t, 0 < t < d -> log_post sp P (only r) n B (entries F) < log_post sp P (only r) n B (along (entries F) e t)) \/
   ((forall e', has_direction (log_post sp P (only r) n B) (entries F) e' 0) /\ mode_step sp P (only r) n L inv F = Ok F)).
Proof.
  intros HF O. destruct (step_shape F HF O) as [g [x [lam [H [Hl [E [Sx [MP D]]]]]]]]. exists (fun i => - x i), lam. split; auto. split.
  - rewrite E. f_equal. apply map_ext. intro i. unfold along. ring.
  - destruct (zero_or_not n x) as [Z|Z].
    + left. assert (Lp : 0 < dotn n g (fun i => - x i)) by (rewrite (descent_rise n H g x Sx); now apply MP). destruct (dir_raises _ _ _ _ (D (fun i => - x i)) Lp) as [d [Hd Kd]]. exists (dotn n g (fun i => - x i)), d. auto.
    + right. split.
      * intro e'. rewrite <- (zero_solution g x H Sx Z e'). apply D.
      * rewrite E. f_equal. transitivity (map (entries F) (seq 0 n)); [|now apply map_entries]. apply map_ext_in. intros i Hi. apply in_seq in Hi. rewrite Z by lia. ring.
Qed.
Lemma step_fixed F : length F = n -> ordinary P (only r) (entries F) ->
  (mode_step sp P (only r) n L inv F = Ok F <-> forall e, has_direction (log_post sp P (only r) n B) (entries F) e 0).
Proof.
  intros HF O. destruct (step_shape F HF O) as [g [x [lam [H [Hl [E [Sx [MP D]]]]]]]]. split; intro Q.
  - assert (Z : forall i, (i < n)%nat -> x i = 0).
    { intros i Hi. rewrite E in Q. injection Q as Q. assert (T := f_equal (fun l => nth i l 0) Q). cbn in T. rewrite nth_map_seq in T by auto. unfold entries in T. nra. }
    intro e. rewrite <- (zero_solution g x H Sx Z e). apply D.
  - assert (Z : forall i, (i < n)%nat -> x i = 0).
    { destruct (zero_or_not n x) as [Z|Z]; auto. exfalso. assert (R1 := descent_rise n H g x Sx). assert (R2 := MP x Z).
      assert (U := is_derive_unique _ _ _ (D (fun i => - x i))). rewrite (is_derive_unique _ _ _ (Q (fun i => - x i))) in U. cbn in R1. lra. }
    rewrite E. f_equal. transitivity (map (entries F) (seq 0 n)); [|now apply map_entries]. apply map_ext_in. intros i Hi. apply in_seq in Hi. rewrite Z by lia. ring.
Qed.
End Step.

(** ---- the mode ---- *)
Lemma LLp_tangent s y F G l : s <> 0 -> has_direction (LLp s y) F (fun i => G i - F i) l -> LLp s y G - LLp s y F <= l.
Proof.
  intros S D. apply (concave_tangent (fun t => LLp s y (along F (fun i => G i - F i) t))); auto; [now rewrite along_zero|]. intros t Ht.
  rewrite !LLp_z by auto. clear D. induction y as [|p y IH]; cbn [map rsum]; [lra|]. rewrite z_along.
  assert (C := log_ndtr_concave (z_of s G p) (z_of s F p) t Ht). replace (z_of s F p + t * dz s p (fun i => G i - F i)) with (t * z_of s G p + (1 - t) * z_of s F p) by (unfold z_of, dz, isqrt2sig; ring). lra.
Qed.
Lemma along_diff F G : along F (fun i => G i - F i) 1 = G.
Proof. apply FunctionalExtensionality.functional_extensionality. intro i. unfold along. ring. Qed.
Lemma mode_max sp P n r B F G : good_probits sp P -> good_labels P n (only r) -> ordinary P (only r) F -> symmetric n B ->
  (forall e, has_direction (log_post sp P (only r) n B) F e 0) ->
  log_post sp P (only r) n B G <= log_post sp P (only r) n B F - 1 / 2 * qform n B (fun i => G i - F i).
Proof.
  intros GP GL O BS Z. destruct (rel_facts sp P n r F GP GL O) as [S [WF U]]. set (e := fun i => G i - F i).
  assert (D1 := LLp_direction (p_sigma (ps_p P)) r F e S U). assert (D2 := qform_direction n B F e BS). assert (D3 := dir_minus _ _ F e _ _ D1 D2).
  assert (E : forall H, log_post sp P (only r) n B H = LLp (p_sigma (ps_p P)) r H - 1 / 2 * qform n B H) by (intro H; unfold log_post, LL, part; cbn; ring).
  assert (D4 := Z e). unfold has_direction in D3, D4. assert (D5 : is_derive (fun t : R => log_post sp P (only r) n B (along F e t)) 0 (dLLp (p_sigma (ps_p P)) r F e - bform n B e F)).
  { eapply is_derive_ext; [|exact D3]. intro t. cbn. now rewrite E. }
  apply is_derive_unique in D4, D5. rewrite D4 in D5. assert (T := LLp_tangent _ r F G _ S D1). assert (Q := qform_along n B F e 1 BS). unfold e in Q at 1. rewrite along_diff in Q. rewrite !E. lra.
Qed.
Lemma mode_unique sp P n r B F G : good_probits sp P -> good_labels P n (only r) -> ordinary P (only r) F -> ordinary P (only r) G -> symmetric n B -> pd n B ->
  (forall e, has_direction (log_post sp P (only r) n B) F e 0) -> (forall e, has_direction (log_post sp P (only r) n B) G e 0) -> forall i, (i < n)%nat -> F i = G i.
Proof.
  intros GP GL OF OG BS BP ZF ZG i Hi. assert (A := mode_max sp P n r B F G GP GL OF BS ZF). assert (C := mode_max sp P n r B G F GP GL OG BS ZG).
  destruct (zero_or_not n (fun i => G i - F i)) as [K|K]; [|specialize (K i Hi); lra]. assert (Q := BP _ K). assert (Q2 : 0 <= qform n B (fun i => F i - G i)) by (now apply pd_psd). lra.
Qed.
