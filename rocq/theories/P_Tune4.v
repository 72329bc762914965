(** Noisy ratings: what the objective of sigma measures; the divergence objective. *)
From Coquelicot Require Import Coquelicot.
From Coq Require Import Reals Lra Lia List Bool.
From Verif Require Import M_Base M_RBase M_Normal M_Util M_Select M_PrefProbit M_User M_Tune S_Util S_User S_Tune P_RBase P_Normal P_Util P_User P_Tune P_Tune2 P_Tune3.
Import ListNotations.
Local Open Scope R_scope.

Lemma first_max_unique v i j : first_max v i -> first_max v j -> i = j.
Proof.
  intros [m [E [U F]]] [m' [E' [U' F']]]. destruct (Nat.lt_trichotomy i j) as [L|[L|L]]; auto.
  - assert (A := F' i m L E). assert (B := U j m' E'). lra.
  - assert (A := F j m' L E'). assert (B := U' i m E). lra.
Qed.
Definition correct (s : R) (row z : list R) : bool :=
  match argmax Rltb (noisy s row z), argmax Rltb row with Ok i, Ok j => Nat.eqb i j | _, _ => false end.
Lemma noisy_length s row z : length z = length row -> length (noisy s row z) = length row.
Proof. intro L. unfold noisy. rewrite map_length, combine_length. lia. Qed.
Lemma correct_codes s row z : row <> [] -> length z = length row -> exists i j, argmax Rltb (noisy s row z) = Ok i /\ argmax Rltb row = Ok j /\ correct s row z = Nat.eqb i j /\ (i = j <-> picks_best s row z).
Proof.
  intros N L. assert (N' : noisy s row z <> []) by (intro E; apply (f_equal (@length R)) in E; rewrite noisy_length in E by auto; destruct row; [congruence|discriminate]).
  destruct (argmax_first _ N') as [i [E1 F1]]. destruct (argmax_first _ N) as [j [E2 F2]]. exists i, j. repeat split; auto.
  - unfold correct. now rewrite E1, E2.
  - intros ->. exists j. auto.
  - intros [k [K1 K2]]. rewrite (first_max_unique _ _ _ F1 K2). symmetry. eapply first_max_unique; eauto.
Qed.
Lemma correct_indicates s row I q : row <> [] -> length row = q -> indicates q (picks_best s row) I -> forall z, length z = q -> I z = ind (correct s row z).
Proof.
  intros N L H z Lz. destruct (correct_codes s row z N ltac:(congruence)) as [i [j [_ [_ [E F]]]]]. rewrite E. destruct (H z Lz) as [H1 H0]. destruct (Nat.eqb_spec i j) as [X|X]; cbn; [apply H1, F, X|apply H0; intro; apply X, F; auto].
Qed.
Lemma rate_code q s p y z : queries q y -> length z = length y -> Forall (fun r => length r = q) z ->
  rate_sampled_objective s p y z = Ok ((num_true (map (fun p => fst p (snd p)) (combine (map (correct s) y) z)) / INR (length y) - p) ^ 2).
Proof.
  intros [N [Q L]] Lz F. unfold rate_sampled_objective.
  assert (K : exists best right, mapM (argmax Rltb) (map (fun yz => map (fun p => fst p + s * snd p) (combine (fst yz) (snd yz))) (combine y z)) = Ok best /\ mapM (argmax Rltb) y = Ok right /\
     map (fun p => Nat.eqb (fst p) (snd p)) (combine best right) = map (fun p => fst p (snd p)) (combine (map (correct s) y) z)).
  { clear N. revert z Lz F. induction y as [|row y IH]; intros [|r z] Lz F; try discriminate; [exists [], []; auto|]. inversion F; subst. destruct (IH (fun r Hr => L r (or_intror Hr)) z ltac:(cbn in Lz; congruence) H2) as [best [right [E1 [E2 E3]]]].
    assert (Lr := L row (or_introl eq_refl)). destruct (correct_codes s row r) as [i [j [A [B [C _]]]]]; [intro; subst row; cbn in Lr; lia|congruence|]. exists (i :: best), (j :: right). cbn [combine map mapM fst snd]. unfold noisy in A. rewrite A, B. cbn [bind]. rewrite E1, E2. cbn [bind]. repeat split; auto. cbn [combine map fst snd]. now rewrite E3, C. }
  destruct K as [best [right [E1 [E2 E3]]]]. rewrite E1. cbn [bind]. rewrite E2. cbn [bind]. now rewrite E3.
Qed.
Lemma ind_range q : forall (Phi : list R -> R) l, (forall z, length z = q -> 0 <= Phi z <= 1) -> normal_mean q Phi l -> 0 <= l <= 1.
Proof.
  induction q as [|q IH]; intros Phi l B M; cbn in M; [rewrite M; apply B; reflexivity|]. destruct M as [g [Hg HI]].
  assert (G : forall z, 0 <= g z <= 1) by (intro z; apply (IH (fun zs => Phi (z :: zs))); [intros zs Lz; apply B; cbn; now rewrite Lz|apply Hg]).
  assert (U : is_RInt_gen (fun z => npdf z * (1 - g z)) (Rbar_locally m_infty) (Rbar_locally p_infty) (1 - l)).
  { apply (is_RInt_gen_ext (fun z => minus (npdf z) (npdf z * g z))); [apply (Filter_prod _ _ _ (fun _ => True) (fun _ => True)); [now exists 0|now exists 0|]; intros x y _ _ t _; cbn; unfold minus, plus, opp; cbn; ring|]. apply (is_RInt_gen_minus (V := R_NormedModule)); [apply npdf_total|exact HI]. }
  assert (P : forall (f : R -> R) m, (forall z, 0 <= f z) -> is_RInt_gen f (Rbar_locally m_infty) (Rbar_locally p_infty) m -> 0 <= m).
  { intros f m Pf Hf. destruct (Rle_lt_dec 0 m) as [|Neg]; auto. exfalso. assert (Lc : locally m (fun x : R => x < 0)) by (exists (mkposreal (- m) ltac:(lra)); intros x Hx; change (Rabs (x - m) < - m) in Hx; apply Rabs_lt_between in Hx; lra).
    specialize (Hf _ Lc). destruct Hf as [Q1 Q2 [M1 HM1] [M2 HM2] HH]. destruct (HH (Rmin (M1 - 1) 0) (Rmax (M2 + 1) 0)) as [x [Hx Hneg]]; [apply HM1; eapply Rle_lt_trans; [apply Rmin_l|lra]|apply HM2; eapply Rlt_le_trans; [|apply Rmax_l]; lra|]. cbn in Hx.
    assert (0 <= x); [|lra]. apply (is_RInt_ge_0 f (Rmin (M1 - 1) 0) (Rmax (M2 + 1) 0)); auto. eapply Rle_trans; [apply Rmin_r|apply Rmax_r]. }
  assert (0 <= l) by (apply (P _ _ (fun z => Rmult_le_pos _ _ (Rlt_le _ _ (npdf_pos z)) (proj1 (G z))) HI)).
  assert (0 <= 1 - l); [|lra]. apply (P (fun z => npdf z * (1 - g z))); [|exact U]. intro z. apply Rmult_le_pos; [apply Rlt_le, npdf_pos|]. destruct (G z). lra.
Qed.
Lemma chances_correct q s y cs : queries q y -> Forall2 (fun row c => normal_chance q (picks_best s row) c) y cs -> Forall2 (fun (I : list R -> bool) c => normal_mean q (fun z => ind (I z)) c) (map (correct s) y) cs.
Proof.
  intros [_ [Q L]] F. induction F as [|row c y cs [I [HI HM]] F IH]; cbn; constructor; [|apply IH; intros; apply L; now right]. assert (Lr := L row (or_introl eq_refl)). apply (normal_mean_ext q I); [|exact HM]. apply (correct_indicates s row I q); auto. intro; subst row; cbn in Lr; lia.
Qed.
Lemma ind_chances q Is cs : Forall2 (fun (I : list R -> bool) c => normal_mean q (fun z => ind (I z)) c) Is cs -> chance_list cs.
Proof.
  induction 1 as [|I c Is cs H F IH]; intros x Hx; [destruct Hx|]. destruct Hx as [<- |Hx]; [|now apply IH]. apply (ind_range q _ _) in H; auto. intros z _. destruct (I z); cbn; lra.
Qed.
Lemma F2_len {A B} (P : A -> B -> Prop) l m : Forall2 P l m -> length l = length m.
Proof. induction 1; cbn; congruence. Qed.
Lemma rate_mean_value q s p y cs : queries q y -> Forall2 (fun row c => normal_chance q (picks_best s row) c) y cs ->
  exists Phi, (forall z, length z = length y -> Forall (fun r => length r = q) z -> rate_sampled_objective s p y z = Ok (Phi z)) /\
    rows_mean (length y) q Phi ((average cs - p) ^ 2 + spread cs) /\ 0 <= spread cs <= / (4 * INR (length y)).
Proof.
  intros H F. assert (LE := F2_len _ _ _ F). assert (C := chances_correct q s y cs H F). assert (CL := ind_chances q _ _ C). assert (NE : cs <> []) by (destruct H as [N _]; destruct y; [congruence|]; destruct cs; discriminate).
  eexists. split; [intros z Lz Fz; now apply (rate_code q)|]. split.
  - rewrite <- (bern_fraction cs p NE), LE. exact (rows_bern q _ cs C (fun l => (num_true l / INR (length cs) - p) ^ 2)).
  - rewrite LE. now apply spread_bound.
Qed.
Lemma rate_accept q s p y cs r t : queries q y -> Forall2 (fun row c => normal_chance q (picks_best s row) c) y cs -> 0 < r -> 0 < t -> r + t <= Rabs (average cs - p) ->
  exists Phi c, (forall z, length z = length y -> Forall (fun r => length r = q) z -> rate_sampled_objective s p y z = Ok (Phi z)) /\
    rows_mean (length y) q (fun z => if Rltb (Phi z) (r ^ 2) then 1 else 0) c /\ c <= / (4 * INR (length y) * t ^ 2).
Proof.
  intros H F Hr Ht G. assert (LE := F2_len _ _ _ F). assert (C := chances_correct q s y cs H F). assert (CL := ind_chances q _ _ C). assert (NE : cs <> []) by (destruct H as [N _]; destruct y; [congruence|]; destruct cs; discriminate).
  eexists. eexists. split; [intros z Lz Fz; now apply (rate_code q)|]. split.
  - rewrite LE. exact (rows_bern q _ cs C (fun l => accepted (r ^ 2) ((num_true l / INR (length cs) - p) ^ 2))).
  - rewrite LE. now apply bern_accept.
Qed.
(** two options *)
Lemma sqrt2_div c s : 0 < s -> c / s / sqrt 2 = c / (s * sqrt 2).
Proof. intro. assert (K := sqrt2_pos). field. lra. Qed.
Lemma pair_correct s a b z0 z1 : correct s [a; b] [z0; z1] = Bool.eqb (Rltb (a + s * z0) (b + s * z1)) (Rltb a b).
Proof. unfold correct, noisy. cbn. destruct (Rltb (a + s * z0) (b + s * z1)), (Rltb a b); reflexivity. Qed.
Lemma pair_chance s a b I : 0 < s -> indicates 2 (picks_best s [a; b]) I -> normal_mean 2 I (ndtr (Rabs (a - b) / (s * sqrt 2))).
Proof.
  intros Hs H. assert (K := correct_indicates s [a; b] I 2 ltac:(discriminate) eq_refl H). assert (S2 := sqrt2_pos). assert (X : forall c, s * (c / s) = c) by (intro; field; lra). destruct (Rlt_le_dec a b) as [L|L].
  - replace (ndtr (Rabs (a - b) / (s * sqrt 2))) with (0 * ndtr ((a - b) / s / sqrt 2) + 1 * (1 - ndtr ((a - b) / s / sqrt 2))).
    2:{ rewrite sqrt2_div, Rabs_left by lra. replace (- (a - b) / (s * sqrt 2)) with (- ((a - b) / (s * sqrt 2))) by (unfold Rdiv; ring). rewrite ndtr_sym. ring. }
    apply pair_mean; intros x y Hxy; rewrite K, pair_correct, (proj2 (Rltb_true a b) L) by reflexivity.
    + rewrite (proj2 (Rltb_false _ _)); [reflexivity|]. specialize (X (a - b)). assert (s * y < s * (x + (a - b) / s)) by (apply Rmult_lt_compat_l; lra). lra.
    + rewrite (proj2 (Rltb_true _ _)); [reflexivity|]. specialize (X (a - b)). assert (s * (x + (a - b) / s) < s * y) by (apply Rmult_lt_compat_l; lra). lra.
  - replace (ndtr (Rabs (a - b) / (s * sqrt 2))) with (1 * ndtr ((a - b) / s / sqrt 2) + 0 * (1 - ndtr ((a - b) / s / sqrt 2))).
    2:{ rewrite sqrt2_div, Rabs_right by lra. ring. }
    apply pair_mean; intros x y Hxy; rewrite K, pair_correct, (proj2 (Rltb_false a b) L) by reflexivity.
    + rewrite (proj2 (Rltb_false _ _)); [reflexivity|]. specialize (X (a - b)). assert (s * y < s * (x + (a - b) / s)) by (apply Rmult_lt_compat_l; lra). lra.
    + rewrite (proj2 (Rltb_true _ _)); [reflexivity|]. specialize (X (a - b)). assert (s * (x + (a - b) / s) < s * y) by (apply Rmult_lt_compat_l; lra). lra.
Qed.
Lemma pair_chances s y : 0 < s -> queries 2 y -> Forall2 (fun row c => normal_chance 2 (picks_best s row) c) y (map (fun row => ndtr (Rabs (nth 0 row 0 - nth 1 row 0) / (s * sqrt 2))) y).
Proof.
  intros Hs [_ [_ L]]. induction y as [|row y IH]; cbn [map]; constructor; [|apply IH; intros; apply L; now right]. assert (Lr := L row (or_introl eq_refl)). destruct row as [|a [|b [|? ?]]]; try discriminate. cbn [nth].
  assert (J : indicates 2 (picks_best s [a; b]) (fun z => ind (correct s [a; b] z))).
  { intros z E. destruct (correct_codes s [a; b] z ltac:(discriminate) E) as [i [j [_ [_ [C F]]]]]. rewrite C. destruct (Nat.eqb_spec i j) as [X|X]; split; intro Q; cbn; auto; exfalso; [apply Q, F, X|apply X, F, Q]. }
  eexists. split; [exact J|]. now apply pair_chance.
Qed.

Lemma pair_range s y : 0 < s -> queries 2 y -> 1 / 2 <= pair_accuracy s y < 1.
Proof.
  intros Hs [N [_ L]]. assert (S2 := sqrt2_pos). assert (P : 0 < s * sqrt 2) by nra. unfold pair_accuracy. set (f := fun row : list R => ndtr (Rabs (nth 0 row 0 - nth 1 row 0) / (s * sqrt 2))).
  assert (B : forall row, 1 / 2 <= f row < 1).
  { intro row. unfold f. split; [rewrite <- ndtr_0; apply ndtr_le; apply Rdiv_le_0_compat; [apply Rabs_pos|lra]|apply ndtr_range]. }
  assert (Pn : 0 < INR (length (map f y))) by (rewrite map_length; apply lt_0_INR; destruct y; [congruence|cbn; lia]). unfold average. split.
  - apply Rmult_le_reg_r with (INR (length (map f y))); [lra|]. unfold Rdiv at 2. rewrite Rmult_assoc, Rinv_l, Rmult_1_r by lra. rewrite map_length. clear -B. induction y as [|row y IH]; cbn [map length]; [cbn; lra|]. rewrite S_INR. change (rsum (f row :: ?l)) with (f row + rsum l). destruct (B row). lra.
  - apply Rmult_lt_reg_r with (INR (length (map f y))); [lra|]. unfold Rdiv. rewrite Rmult_assoc, Rinv_l, Rmult_1_r by lra. rewrite map_length. clear -B N. destruct y as [|row y]; [congruence|]. clear N. revert row. induction y as [|row' y IH]; intro row.
    + cbn. destruct (B row). lra.
    + specialize (IH row'). remember (row' :: y) as l. cbn [map length]. rewrite S_INR. change (rsum (f row :: ?l)) with (f row + rsum l). destruct (B row). lra.
Qed.
Lemma pair_mono s t y : 0 < s <= t -> queries 2 y -> pair_accuracy t y <= pair_accuracy s y.
Proof.
  intros H [N _]. assert (S2 := sqrt2_pos). unfold pair_accuracy, average. rewrite !map_length. apply Rmult_le_compat_r; [apply Rlt_le, Rinv_0_lt_compat, lt_0_INR; destruct y; [congruence|cbn; lia]|]. apply rsum_le_map. intros row _. apply ndtr_le. apply Rmult_le_compat_l; [apply Rabs_pos|]. apply Rinv_le_contravar; nra.
Qed.
Lemma pair_strict s t y row : 0 < s < t -> queries 2 y -> In row y -> nth 0 row 0 <> nth 1 row 0 -> pair_accuracy t y < pair_accuracy s y.
Proof.
  intros H [N _] Hin D. assert (S2 := sqrt2_pos). unfold pair_accuracy, average. rewrite !map_length. apply Rmult_lt_compat_r; [apply Rinv_0_lt_compat, lt_0_INR; destruct y; [congruence|cbn; lia]|]. apply (rsum_lt_map _ _ _ row); auto.
  - intros r _. apply ndtr_le. apply Rmult_le_compat_l; [apply Rabs_pos|]. apply Rinv_le_contravar; nra.
  - apply ndtr_increasing. apply Rmult_lt_compat_l; [apply Rabs_pos_lt; lra|]. apply Rinv_lt_contravar; [|nra]. apply Rmult_lt_0_compat; nra.
Qed.
(** what a comparison label means to the probit *)
Lemma probit_chance s F (d : Z) u v : 0 < s -> d = 1%Z \/ d = (-1)%Z ->
  exists c c', likelihood s [(d, u, v)] F = [c'] /\ normal_chance 2 (fun z => 0 < IZR d * (F v + s * nth 0 z 0 - (F u + s * nth 1 z 0))) c /\ Rabs (c' - c) < exp (-450) /\
    (-30 <= isqrt2sig s * (IZR d * (F v - F u)) <= 100 -> c' = c).
Proof.
  intros Hs Hd. assert (S2 := sqrt2_pos). set (w := isqrt2sig s * (IZR d * (F v - F u))). exists (ndtr w), (std_norm_cdf w). split; [|split; [|split]].
  - unfold likelihood, z_k, z_of, dk_of, v_of, u_of, w. cbn. rewrite Rmult_assoc. reflexivity.
  - exists (fun z => ind (Rltb 0 (IZR d * (F v + s * nth 0 z 0 - (F u + s * nth 1 z 0))))). split.
    + intros z _. destruct (Rltb _ _) eqn:E; cbn; [apply Rltb_true in E|apply Rltb_false in E]; split; intro Q; auto; exfalso; [contradiction|lra].
    + assert (X : forall c, s * (c / s) = c) by (intro; field; lra). assert (W : w = IZR d * (F v - F u) / s / sqrt 2) by (unfold w, isqrt2sig; field; lra). destruct Hd as [-> | ->].
      * replace (ndtr w) with (1 * ndtr ((F v - F u) / s / sqrt 2) + 0 * (1 - ndtr ((F v - F u) / s / sqrt 2))) by (assert (W1 : w = (F v - F u) / s / sqrt 2) by (rewrite W; unfold Rdiv; ring); rewrite W1; ring).
        apply pair_mean; intros x y Hxy; cbn [nth]; specialize (X (F v - F u)).
        -- rewrite (proj2 (Rltb_true _ _)); [reflexivity|]. assert (s * y < s * (x + (F v - F u) / s)) by (apply Rmult_lt_compat_l; lra). lra.
        -- rewrite (proj2 (Rltb_false _ _)); [reflexivity|]. assert (s * (x + (F v - F u) / s) < s * y) by (apply Rmult_lt_compat_l; lra). lra.
      * replace (ndtr w) with (0 * ndtr ((F v - F u) / s / sqrt 2) + 1 * (1 - ndtr ((F v - F u) / s / sqrt 2))) by (assert (W1 : w = - ((F v - F u) / s / sqrt 2)) by (rewrite W; unfold Rdiv; ring); rewrite W1, ndtr_sym; ring).
        apply pair_mean; intros x y Hxy; cbn [nth]; specialize (X (F v - F u)).
        -- rewrite (proj2 (Rltb_false _ _)); [reflexivity|]. assert (s * y < s * (x + (F v - F u) / s)) by (apply Rmult_lt_compat_l; lra). lra.
        -- rewrite (proj2 (Rltb_true _ _)); [reflexivity|]. assert (s * (x + (F v - F u) / s) < s * y) by (apply Rmult_lt_compat_l; lra). lra.
  - apply std_norm_cdf_error.
  - intro B. now apply std_norm_cdf_id.
Qed.

(** ---- the divergence objective ---- *)
Lemma where_clip_range p : 1 / 1000000 <= where_clip p <= 999999 / 1000000.
Proof. unfold where_clip. destruct (Rltb (999999 / 1000000) p) eqn:E; [apply Rltb_true in E|apply Rltb_false in E]; destruct (Rltb _ (1 / 1000000)) eqn:E2; [apply Rltb_true in E2|apply Rltb_false in E2|apply Rltb_true in E2|apply Rltb_false in E2]; lra. Qed.
Lemma where_clip_id p : 1 / 1000000 <= p <= 999999 / 1000000 -> where_clip p = p.
Proof. intro H. unfold where_clip. rewrite (proj2 (Rltb_false (999999 / 1000000) p)) by lra. rewrite (proj2 (Rltb_false p (1 / 1000000))) by lra. reflexivity. Qed.
Lemma ln_div a b : 0 < a -> 0 < b -> ln (a / b) = ln a - ln b.
Proof. intros. unfold Rdiv. rewrite ln_mult by (auto; now apply Rinv_0_lt_compat). rewrite ln_Rinv by auto. ring. Qed.
Lemma kl_sym p q : 0 < p < 1 -> 0 < q < 1 -> kl p q + kl q p = divergence p q.
Proof. intros. unfold kl, divergence. rewrite !ln_div by lra. ring. Qed.
Lemma divergence_pos p q : 0 < p < 1 -> 0 < q < 1 -> p <> q -> 0 < divergence p q.
Proof.
  intros Hp Hq D. assert (M : forall a b, 0 < a < 1 -> 0 < b < 1 -> a < b -> 0 < divergence a b).
  { intros a b Ha Hb L. unfold divergence. rewrite !ln_div by lra. assert (A := ln_increasing a b ltac:(lra) L). assert (B := ln_increasing (1 - b) (1 - a) ltac:(lra) ltac:(lra)). nra. }
  destruct (Rtotal_order p q) as [L|[L|L]]; [now apply M|contradiction|]. replace (divergence p q) with (divergence q p) by (unfold divergence; ring). apply M; auto; lra.
Qed.
Lemma divergence_self p : divergence p p = 0.
Proof. unfold divergence. ring. Qed.
Lemma kl_code q b p y : queries q y -> 0 <= b -> 0 < p < 1 -> kl_objective b p y = Ok (average (map (fun row => divergence (where_clip (best_chance b row)) p) y)).
Proof.
  intros H Hb Hp. destruct (pmax_code q b y H Hb) as [pr [E1 E2]]. unfold kl_objective. rewrite E1. cbn [bind]. rewrite E2. cbn [bind]. f_equal. unfold average. rewrite !map_map.
  assert (E : map (fun x => kl (where_clip (best_chance b x)) p + kl p (where_clip (best_chance b x))) y = map (fun row => divergence (where_clip (best_chance b row)) p) y); [|now rewrite E].
  apply map_ext. intro row. apply kl_sym; auto. assert (K := where_clip_range (best_chance b row)). lra.
Qed.
Lemma kl_zero q b p y v : queries q y -> 0 <= b -> 0 < p < 1 -> kl_objective b p y = Ok v -> 0 <= v /\ (v = 0 <-> forall row, In row y -> where_clip (best_chance b row) = p).
Proof.
  intros H Hb Hp E. rewrite (kl_code q) in E by auto. injection E as <-. set (f := fun row => divergence (where_clip (best_chance b row)) p).
  assert (Z : forall row, 0 <= f row /\ (f row = 0 <-> where_clip (best_chance b row) = p)).
  { intro row. unfold f. assert (K := where_clip_range (best_chance b row)). destruct (Req_dec (where_clip (best_chance b row)) p) as [Q|Q]; [rewrite Q, divergence_self; split; [lra|tauto]|]. assert (D := divergence_pos (where_clip (best_chance b row)) p ltac:(lra) Hp Q). split; [lra|]. split; intro; [lra|contradiction]. }
  assert (S0 : 0 <= rsum (map f y) /\ (rsum (map f y) = 0 <-> forall row, In row y -> f row = 0)).
  { clear -Z. induction y as [|row y [IH1 IH2]]; cbn [map]; [cbn; split; [lra|split; [intros _ r []|auto]]|]. change (rsum (f row :: ?l)) with (f row + rsum l). destruct (Z row) as [P _]. split; [lra|]. split.
    - intros Sm r [<- |Hr]; [lra|]. apply IH2; [lra|exact Hr].
    - intro A. rewrite (A row) by now left. rewrite (proj2 IH2); [ring|]. intros r Hr. apply A. now right. }
  destruct H as [N _]. assert (Pn : 0 < INR (length (map f y))) by (rewrite map_length; apply lt_0_INR; destruct y; [congruence|cbn; lia]). destruct S0 as [S1 S2]. split; [apply Rdiv_le_0_compat; lra|]. split.
  - intros A row Hr. apply Z. apply S2; [|exact Hr]. unfold average in A. apply (Rmult_eq_compat_r (INR (length (map f y)))) in A. unfold Rdiv in A. rewrite Rmult_assoc, Rinv_l, Rmult_1_r, Rmult_0_l in A by lra. exact A.
  - intro A. unfold average. rewrite (proj2 S2); [unfold Rdiv; ring|]. intros row Hr. apply Z. now apply A.
Qed.

(** ---- few queries ---- *)
Lemma single_query q b p row pf v : (0 < q)%nat -> length row = q -> 0 <= b -> 15 / 100 <= p <= 85 / 100 -> sampled_objective b p [row] pf = Ok v -> 2 / 100 < v.
Proof.
  intros Q L Hb Hp E. rewrite (sampled_code q) in E; [|split; [discriminate|split; [auto|]]; intros r [<- |[]]; auto|auto]. injection E as <-. cbn [map length INR]. destruct pf as [|u pf]; cbn [combine map]; [unfold num_true; cbn; nra|]. destruct pf; cbn [combine map fst snd]; unfold num_true; cbn [map]; destruct (Rleb u _); cbn; nra.
Qed.
Lemma single_tune q p row (pf : nat -> list R) (res : nat -> R * R) : (0 < q)%nat -> length row = q -> 15 / 100 <= p <= 85 / 100 ->
  (forall i, 0 <= fst (res i) /\ sampled_objective (fst (res i)) p [row] (pf i) = Ok (snd (res i))) -> M_User.tune res = Raise GenericException.
Proof.
  intros Q L Hp H. assert (B : forall i, 2 / 100 < snd (res i)) by (intro i; destruct (H i) as [Hb E]; exact (single_query q _ p row _ _ Q L Hb Hp E)).
  unfold M_User.tune. assert (T : forall n i, exists j, M_User.tune_loop res n i = res j). { induction n as [|n IH]; intro i; cbn; [now exists i|]. destruct (Rltb _ _); [now exists i|apply IH]. }
  destruct (T 9%nat 0%nat) as [j ->]. now rewrite (proj2 (Rltb_true _ _) (B j)).
Qed.
Lemma stored_far : exists y p b pf v, queries 2 y /\ 1 / 100 <= b <= 150 /\ Forall (fun u => 0 <= u < 1) pf /\ length pf = length y /\
  sampled_objective b p y pf = Ok v /\ tune (fun _ => (b, v)) = Ok b /\ 2 / 100 < (accuracy b y - p) ^ 2.
Proof.
  assert (Q : queries 2 [[0; 1]]) by (split; [discriminate|split; [lia|intros r [<- |[]]; reflexivity]]).
  exists [[0; 1]], 1, (1 / 2), [0], 0. assert (R0 := best_range (1 / 2) [0; 1] ltac:(discriminate) ltac:(lra)). cbn [length INR] in R0.
  split; [exact Q|]. split; [lra|]. split; [repeat constructor; lra|]. split; [reflexivity|]. split; [|split].
  - rewrite (sampled_code 2) by (auto; lra). cbn [combine map fst snd]. rewrite (proj2 (Rleb_true _ _)) by lra. unfold num_true. cbn. f_equal. field.
  - unfold tune. cbn [tune_loop snd fst]. rewrite (proj2 (Rltb_true 0 (2 / 100))) by lra. cbn [snd fst]. rewrite (proj2 (Rltb_false (2 / 100) 0)) by lra. reflexivity.
  - unfold accuracy, average. cbn [map length INR]. change (rsum [best_chance (1 / 2) [0; 1]]) with (best_chance (1 / 2) [0; 1] + 0). unfold best_chance. cbn [hd fold_right map]. rewrite (Rmax_left 1 0) by lra. rewrite (Rmax_right 0 1) by lra. change (rsum [?a; ?b]) with (a + (b + 0)). rewrite Rmult_0_r, exp_0, Rmult_1_r.
    assert (E1 : 0 < exp (1 / 2)) by apply exp_pos. assert (E2 : exp (1 / 2) < 2). { assert (K : exp (1 / 2) * exp (1 / 2) < 4). { rewrite <- exp_plus. replace (1 / 2 + 1 / 2) with 1 by field. assert (T := exp_le_3). lra. } nra. }
    set (x := exp (1 / 2)) in *. replace ((x / (1 + (x + 0)) + 0) / 1 - 1) with (- / (1 + x)) by (field; lra). assert (/ 3 < / (1 + x)) by (apply Rinv_lt_contravar; nra). nra.
Qed.
Lemma rate_pairs s p y : 0 < s -> queries 2 y ->
  exists Phi sp, (forall z, length z = length y -> Forall (fun r => length r = 2%nat) z -> rate_sampled_objective s p y z = Ok (Phi z)) /\
    rows_mean (length y) 2 Phi ((pair_accuracy s y - p) ^ 2 + sp) /\ 0 <= sp <= / (4 * INR (length y)).
Proof.
  intros Hs Q. destruct (rate_mean_value 2 s p y _ Q (pair_chances s y Hs Q)) as [Phi [H1 [H2 H3]]]. exists Phi. eexists. split; [exact H1|]. split; [exact H2|exact H3].
Qed.
Lemma chance_unique q P c c' : normal_chance q P c -> normal_chance q P c' -> c = c'.
Proof.
  intros [I [HI M]] [J [HJ N]]. assert (E : forall z, length z = q -> I z = J z).
  { intros z L. destruct (HI z L) as [A B]. destruct (HJ z L) as [A' B']. destruct (Req_dec (I z) 1) as [E|E].
    - destruct (Req_dec (J z) 1) as [E'|E']; [congruence|]. exfalso. assert (NN : ~ ~ P z) by (intro X; apply B in X; lra). apply NN. intro X. apply E', A', X.
    - assert (NP : ~ P z) by (intro X; apply E, A, X). now rewrite B, B'. }
  apply (normal_mean_unique q J); [|exact N]. now apply (normal_mean_ext q I).
Qed.
