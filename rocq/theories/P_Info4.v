(** Concrete scores of BayesInfoGain. *)
From Coq Require Import Lra.
From Verif Require Import M_RBase P_RBase M_Util S_Util P_Util M_Select P_Select S_User M_Fake S_Fake P_Fake2 P_User M_OrdProbit M_Info S_Info P_Info P_Info2 P_Info3.
Local Open Scope R_scope.

Definition pB4 : list R := [1/2; 1/2; 0; 0].
Definition P4 : list (list R) := [[1/2; 1/2; 1/2; 1/2]; [1/2; 1/2; 1/2; 1/2]; [1/2; 1/2; 1/2; 1/2]; [1/2; 1/2; 1/2; 1/2]].
Lemma plogp_0 x : x = 0 -> plogp x = 0.
Proof. intros ->. unfold plogp. destruct (Rltb 0 (/ 10 ^ 17)) eqn:E; [reflexivity|]. ring. Qed.
Lemma plogp_big x : 1 / 100000 <= x -> plogp x = x * ln x.
Proof.
  intro H. unfold plogp. replace (Rltb x (/ 10 ^ 17)) with false; [reflexivity|]. symmetry. apply Rltb_false.
  apply Rle_trans with (1 / 100000); [|auto]. lra.
Qed.
Definition bin_entropy (p : R) : R := - (p * ln p + (1 - p) * ln (1 - p)).
Lemma bin_entropy_lt p : 0 < p < 1 -> p <> 1/2 -> bin_entropy p < ln 2.
Proof.
  intros Hp Hn. unfold bin_entropy.
  assert (K : 0 <= rsum (map (fun x => x * ln (x / (1/2))) [p; 1 - p])).
  { apply (kl_nonneg (fun x => x) (fun _ => 1/2) [p; 1 - p]); [intros x [<- | [<- | []]]; lra|cbn; lra]. }
  destruct K as [K | K].
  - cbn in K. replace (p / (1/2)) with (p * 2) in K by field. replace ((1 - p) / (1/2)) with ((1 - p) * 2) in K by field.
    rewrite !ln_mult in K by lra. lra.
  - exfalso. apply Hn. apply (kl_zero (fun x => x) (fun _ => 1/2) [p; 1 - p]); [intros x [<- | [<- | []]]; lra|cbn; lra|lra|now left].
Qed.
Lemma entropy_pB4 : code_entropy pB4 = ln 2.
Proof.
  unfold code_entropy, pB4. cbn [map rsum]. rewrite !plogp_big by lra. rewrite !plogp_0 by reflexivity.
  replace (1/2) with (/ 2) by lra. rewrite ln_Rinv by lra. field.
Qed.
Lemma four_form p q a b x1 x2 x3 x4 y1 y2 y3 y4 :
  1/100000 <= p <= 1 - 1/100000 -> 1/100000 <= q <= 1 - 1/100000 ->
  a = 1/2 -> b = 1/2 -> x1 = p -> x2 = 1 - p -> x3 = 0 -> x4 = 0 -> y1 = q -> y2 = 1 - q -> y3 = 0 -> y4 = 0 ->
  a * - (plogp x1 + (plogp x2 + (plogp x3 + (plogp x4 + 0)))) + (b * - (plogp y1 + (plogp y2 + (plogp y3 + (plogp y4 + 0)))) + 0) =
  1/2 * bin_entropy p + 1/2 * bin_entropy q.
Proof.
  intros Hp Hq -> -> -> -> Hx3 Hx4 -> -> Hy3 Hy4. rewrite (plogp_0 _ Hx3), (plogp_0 _ Hx4), (plogp_0 _ Hy3), (plogp_0 _ Hy4).
  rewrite !plogp_big by lra. unfold bin_entropy. ring.
Qed.
Lemma H_20 : calc_H_B_Q Method999 [2; 0]%nat pB4 P4 = Ok (1/2 * bin_entropy (1000/2499) + 1/2 * bin_entropy (1998/3497)).
Proof.
  match goal with |- ?x = Ok ?v => assert (H : exists h, x = Ok h /\ h = v); [|destruct H as (h & -> & ->); reflexivity] end.
  eexists. split; [cbn; reflexivity|]. unfold where_best, code_entropy. cbn [map rsum rprod fold_right zipw Nat.eqb].
  apply four_form; try lra; field; lra.
Qed.
Lemma H_23 : calc_H_B_Q Method999 [2; 3]%nat pB4 P4 = Ok (1/2 * bin_entropy (1/2) + 1/2 * bin_entropy (1/2)).
Proof.
  match goal with |- ?x = Ok ?v => assert (H : exists h, x = Ok h /\ h = v); [|destruct H as (h & -> & ->); reflexivity] end.
  eexists. split; [cbn; reflexivity|]. unfold where_best, code_entropy. cbn [map rsum rprod fold_right zipw Nat.eqb].
  apply four_form; try lra; field; lra.
Qed.
Lemma bin_half : bin_entropy (1/2) = ln 2.
Proof. unfold bin_entropy. replace (1 - 1/2) with (/2) by field. replace (1/2) with (/2) by field. rewrite ln_Rinv by lra. field. Qed.
(** with the method '999' the second alternative is chosen by its information *)
Lemma bayes_999_chooses d : exists g, bayes_greedy Method999 pB4 P4 [3; 0]%nat [2]%nat d = Ok (0%nat, Some g) /\ 0 < g.
Proof.
  set (g := ln 2 - (1/2 * bin_entropy (1000/2499) + 1/2 * bin_entropy (1998/3497))).
  assert (B1 : bin_entropy (1000/2499) < ln 2) by (apply bin_entropy_lt; lra).
  assert (B2 : bin_entropy (1998/3497) < ln 2) by (apply bin_entropy_lt; lra).
  assert (Hg : 0 < g) by (unfold g; lra). exists g. split; [|exact Hg].
  unfold bayes_greedy. cbn [mapM app]. rewrite H_20, H_23. cbn [bind]. rewrite entropy_pB4, bin_half. fold g.
  replace (ln 2 - (1/2 * ln 2 + 1/2 * ln 2)) with 0 by lra.
  unfold argmax. cbn [argmax_from]. replace (Rltb 0 g) with true by (symmetry; now apply Rltb_true). reflexivity.
Qed.

(** pair scores *)
Lemma enumerate_map {B} (h : nat * R -> B) : forall l s, map h (enumerate_from s l) = map (fun c => h (c, nth (c - s) l 0)) (seq s (length l)).
Proof.
  induction l as [|x l IH]; intro s; [reflexivity|]. cbn [enumerate_from map length seq]. rewrite Nat.sub_diag. f_equal.
  rewrite IH. apply map_ext_in. intros c Hc. apply in_seq in Hc. replace (c - s)%nat with (S (c - S s)) by lia. reflexivity.
Qed.
Lemma posterior_seq m p_B p_q a b :
  let row := map (fun c => pair_q_B m p_q a b c * nth c p_B 0 / p_q a b) (seq 0 (length p_B)) in
  pair_posterior m p_B p_q a b = map (fun x => x / rsum row) row.
Proof.
  cbn zeta. unfold pair_posterior, enumerate. rewrite enumerate_map. 
  assert (E : map (fun c => pair_q_B m p_q a b (fst (c, nth (c - 0) p_B 0)) * snd (c, nth (c - 0) p_B 0) / p_q a b) (seq 0 (length p_B)) =
              map (fun c => pair_q_B m p_q a b c * nth c p_B 0 / p_q a b) (seq 0 (length p_B))).
  { apply map_ext. intro c. cbn [fst snd]. now rewrite Nat.sub_0_r. }
  now rewrite E.
Qed.
Lemma plogp_ok x : / 10 ^ 17 <= x -> plogp x = x * ln x.
Proof. intro H. unfold plogp. now replace (Rltb x (/ 10 ^ 17)) with false by (symmetry; now apply Rltb_false). Qed.
Lemma code_entropy_seq (f : nat -> R) n : (forall c, (c < n)%nat -> / 10 ^ 17 <= f c) ->
  code_entropy (map f (seq 0 n)) = - rsum (map (fun c => f c * ln (f c)) (seq 0 n)).
Proof. intro H. unfold code_entropy. rewrite map_map. f_equal. apply rsum_ext. intros c Hc. apply plogp_ok, H. now apply in_seq0. Qed.
Lemma pair_gain_nonneg m p_B p_q i j : 
  let n := length p_B in let w c := nth c p_B 0 in
  let post a b c := pair_q_B m p_q a b c * w c / p_q a b in
  rsum p_B = 1 -> 0 < p_q i j -> 0 < p_q j i -> p_q i j + p_q j i = 1 ->
  (forall c, (c < n)%nat -> / 10 ^ 17 <= w c /\ / 10 ^ 17 <= post i j c /\ / 10 ^ 17 <= post j i c /\ pair_q_B m p_q i j c + pair_q_B m p_q j i c = 1) ->
  rsum (map (fun c => pair_q_B m p_q i j c * w c) (seq 0 n)) = p_q i j ->
  0 <= pair_info_gain m p_B p_q i j.
Proof.
  cbn zeta. intros Hs Hij Hji H1 Hc Ht. unfold pair_info_gain.
  set (n := length p_B) in *. set (w := fun c => nth c p_B 0) in *.
  set (f := fun c => pair_q_B m p_q i j c * w c / p_q i j). set (g := fun c => pair_q_B m p_q j i c * w c / p_q j i).
  assert (Ew : p_B = map w (seq 0 n)).
  { apply nth_ext with (d := 0) (d' := 0); [now rewrite map_length, seq_length|]. intros k Hk. now rewrite nth_map_seq. }
  assert (Hs' : rsum (map w (seq 0 n)) = 1) by now rewrite <- Ew.
  assert (Sf : rsum (map f (seq 0 n)) = 1).
  { rewrite <- (map_map (fun c => pair_q_B m p_q i j c * w c) (fun x => x / p_q i j)), rsum_div, Ht. field. lra. }
  assert (Sg : rsum (map g (seq 0 n)) = 1).
  { rewrite <- (map_map (fun c => pair_q_B m p_q j i c * w c) (fun x => x / p_q j i)), rsum_div.
    assert (E : rsum (map (fun c => pair_q_B m p_q j i c * w c) (seq 0 n)) = rsum (map (fun c => w c - pair_q_B m p_q i j c * w c) (seq 0 n))).
    { apply rsum_ext. intros c Hin. apply in_seq0 in Hin. destruct (Hc c Hin) as (_ & _ & _ & E). replace (pair_q_B m p_q j i c) with (1 - pair_q_B m p_q i j c) by lra. ring. }
    rewrite E, rsum_minus, Ht, Hs'. replace (1 - p_q i j) with (p_q j i) by lra. field. lra. }
  assert (Pf : pair_posterior m p_B p_q i j = map f (seq 0 n)).
  { rewrite posterior_seq. cbn zeta. fold n. change (map (fun c => pair_q_B m p_q i j c * nth c p_B 0 / p_q i j) (seq 0 n)) with (map f (seq 0 n)).
    rewrite Sf. rewrite map_map. apply map_ext. intro. field. }
  assert (Pg : pair_posterior m p_B p_q j i = map g (seq 0 n)).
  { rewrite posterior_seq. cbn zeta. fold n. change (map (fun c => pair_q_B m p_q j i c * nth c p_B 0 / p_q j i) (seq 0 n)) with (map g (seq 0 n)).
    rewrite Sg. rewrite map_map. apply map_ext. intro. field. }
  rewrite Pf, Pg. replace (code_entropy p_B) with (code_entropy (map w (seq 0 n))) by now rewrite <- Ew.
  assert (T : 0 < / 10 ^ 17) by (apply Rinv_0_lt_compat, pow_lt; lra).
  rewrite !code_entropy_seq by (intros c Hin; now apply Hc).
  assert (Kf := kl_nonneg f w (seq 0 n)). assert (Kg := kl_nonneg g w (seq 0 n)).
  rewrite Hs', Sf in Kf. rewrite Hs', Sg in Kg.
  assert (Kf' : 0 <= rsum (map (fun c => f c * ln (f c) - f c * ln (w c)) (seq 0 n))).
  { erewrite rsum_ext; [apply Kf; [|lra]|].
    - intros c Hin. apply in_seq0 in Hin. destruct (Hc c Hin) as (A1 & A2 & _). fold (f c) in A2. lra.
    - intros c Hin. apply in_seq0 in Hin. destruct (Hc c Hin) as (A1 & A2 & _). fold (f c) in A2. cbn beta. unfold Rdiv at 1.
      rewrite ln_mult, ln_Rinv by (try apply Rinv_0_lt_compat; lra). ring. }
  assert (Kg' : 0 <= rsum (map (fun c => g c * ln (g c) - g c * ln (w c)) (seq 0 n))).
  { erewrite rsum_ext; [apply Kg; [|lra]|].
    - intros c Hin. apply in_seq0 in Hin. destruct (Hc c Hin) as (A1 & _ & A2 & _). fold (g c) in A2. lra.
    - intros c Hin. apply in_seq0 in Hin. destruct (Hc c Hin) as (A1 & _ & A2 & _). fold (g c) in A2. cbn beta. unfold Rdiv at 1.
      rewrite ln_mult, ln_Rinv by (try apply Rinv_0_lt_compat; lra). ring. }
  rewrite rsum_minus in Kf', Kg'.
  assert (Mix : rsum (map (fun c => w c * ln (w c)) (seq 0 n)) =
    p_q i j * rsum (map (fun c => f c * ln (w c)) (seq 0 n)) + p_q j i * rsum (map (fun c => g c * ln (w c)) (seq 0 n))).
  { rewrite <- !rsum_map_scale, <- rsum_plus. apply rsum_ext. intros c Hin. apply in_seq0 in Hin. destruct (Hc c Hin) as (_ & _ & _ & E).
    unfold f, g. replace (pair_q_B m p_q j i c) with (1 - pair_q_B m p_q i j c) by lra. field. lra. }
  apply (Rmult_le_compat_l (p_q i j)) in Kf'; [|lra]. apply (Rmult_le_compat_l (p_q j i)) in Kg'; [|lra]. lra.
Qed.

(** the pair score can be negative *)
Definition p_q2 (c : R) (a b : nat) : R := match a, b with 0%nat, 1%nat => c | 1%nat, 0%nat => 1 - c | _, _ => 1/2 end.
Lemma xlnx_pos c : 0 < c <= 1 -> - (c * ln c) <= 1 - c.
Proof.
  intros [H H1]. assert (K := ln_le_sub1 (/ c) (Rinv_0_lt_compat _ H)). rewrite ln_Rinv in K by auto.
  apply (Rmult_le_compat_l c) in K; [|lra]. replace (c * (/ c - 1)) with (1 - c) in K by (field; lra). lra.
Qed.
Lemma ln_pow2 x k : 0 < x -> x < 2 ^ k -> ln x < INR k * ln 2.
Proof. intros H K. rewrite <- ln_pow by lra. now apply ln_increasing. Qed.
Lemma ln2_half : 1/2 < ln 2.
Proof.
  assert (K : exp (1/2) * exp (1/2) < 2 * 2).
  { rewrite <- exp_plus. replace (1/2 + 1/2) with 1 by field. assert (exp 1 <= 3) by apply exp_le_3. lra. }
  assert (P := exp_pos (1/2)). rewrite <- (ln_exp (1/2)). apply ln_increasing; auto. nra.
Qed.
Lemma entropy2_nonneg x y : 0 < x -> 0 < y -> 0 <= code_entropy [x / (x + (y + 0)); y / (x + (y + 0))].
Proof.
  intros Hx Hy. unfold code_entropy. cbn [map rsum]. 
  assert (K : forall z, 0 < z -> z <= 1 -> plogp z <= 0).
  { intros z A B. unfold plogp. destruct (Rltb z (/ 10 ^ 17)); [lra|]. now apply xlnx_le0. }
  assert (D : 0 < x + (y + 0)) by lra.
  assert (K1 : plogp (x / (x + (y + 0))) <= 0). { apply K; [now apply Rdiv_lt_0_compat|]. apply (Rmult_le_reg_r (x + (y + 0))); auto. unfold Rdiv. rewrite Rmult_assoc, Rinv_l by lra. lra. }
  assert (K2 : plogp (y / (x + (y + 0))) <= 0). { apply K; [now apply Rdiv_lt_0_compat|]. apply (Rmult_le_reg_r (x + (y + 0))); auto. unfold Rdiv. rewrite Rmult_assoc, Rinv_l by lra. lra. }
  lra.
Qed.
Lemma negative_pair m c : (m = MethodProbit \/ m = Method99) /\ c = 99/100 \/ m = Method999 /\ c = 999/1000 ->
  pair_info_gain m [1 - c; c] (p_q2 c) 0 1 < 0.
Proof.
  intro Hm.
  assert (Hc : 99/100 <= c <= 999/1000) by (destruct Hm as [[_ ->] | [_ ->]]; lra).
  assert (Q010 : pair_q_B m (p_q2 c) 0 1 0 = c). { destruct Hm as [[[-> | ->] ->] | [-> ->]]; cbn; try reflexivity. apply Rmax_left. lra. }
  assert (Q011 : pair_q_B m (p_q2 c) 0 1 1 = 1 - c). { destruct Hm as [[[-> | ->] ->] | [-> ->]]; cbn; try lra. apply Rmin_left. lra. }
  assert (Q100 : pair_q_B m (p_q2 c) 1 0 0 = 1 - c). { destruct Hm as [[[-> | ->] ->] | [-> ->]]; cbn; try lra. apply Rmin_right. lra. }
  assert (Q101 : pair_q_B m (p_q2 c) 1 0 1 = c). { destruct Hm as [[[-> | ->] ->] | [-> ->]]; cbn; try reflexivity. apply Rmax_right. lra. }
  unfold pair_info_gain, pair_posterior, enumerate. cbn [enumerate_from map fst snd rsum]. rewrite Q010, Q011, Q100, Q101.
  change (p_q2 c 0 1) with c. change (p_q2 c 1 0) with (1 - c).
  assert (H0 : code_entropy [c * (1 - c) / c / (c * (1 - c) / c + ((1 - c) * c / c + 0)); (1 - c) * c / c / (c * (1 - c) / c + ((1 - c) * c / c + 0))] = ln 2).
  { replace (c * (1 - c) / c / (c * (1 - c) / c + ((1 - c) * c / c + 0))) with (/2) by (field; lra).
    replace ((1 - c) * c / c / (c * (1 - c) / c + ((1 - c) * c / c + 0))) with (/2) by (field; lra).
    unfold code_entropy. cbn [map rsum]. rewrite !plogp_big by lra. rewrite ln_Rinv by lra. field. }
  rewrite H0.
  assert (H1 : 0 <= code_entropy [(1 - c) * (1 - c) / (1 - c) / ((1 - c) * (1 - c) / (1 - c) + (c * c / (1 - c) + 0)); c * c / (1 - c) / ((1 - c) * (1 - c) / (1 - c) + (c * c / (1 - c) + 0))]).
  { apply entropy2_nonneg; apply Rdiv_lt_0_compat; nra. }
  set (h := code_entropy _) in H1 |- * at 2. 
  assert (H1' : 0 <= (1 - c) * h) by (apply Rmult_le_pos; lra).
  assert (HB : code_entropy [1 - c; c] < 1/2 * ln 2).
  { unfold code_entropy. cbn [map rsum]. rewrite !plogp_big by lra. assert (K1 := xlnx_pos c ltac:(lra)). assert (L2 := ln2_half).
    assert (K2 : - ((1 - c) * ln (1 - c)) < 8/100 * ln 2).
    { replace (- ((1 - c) * ln (1 - c))) with ((1 - c) * ln (/ (1 - c))) by (rewrite ln_Rinv by lra; ring).
      destruct Hm as [[_ ->] | [_ ->]].
      - assert (K := ln_pow2 (/ (1 - 99/100)) 8 ltac:(lra) ltac:(lra)). cbn [INR] in K. lra.
      - assert (K := ln_pow2 (/ (1 - 999/1000)) 10 ltac:(lra) ltac:(lra)). cbn [INR] in K. lra. }
    lra. }
  assert (c * ln 2 >= 99/100 * ln 2) by (assert (L2 := ln2_half); nra). assert (L2 := ln2_half). lra.
Qed.
Lemma untrained_repeated i ls : exists d1 d2, bayes_pair_untrained (i :: ls) d1 d2 = Ok (i, i).
Proof. exists 0%nat, 0%nat. unfold bayes_pair_untrained. rewrite Nat.mod_0_l by discriminate. reflexivity. Qed.
Lemma untrained_in ls d1 d2 : ls <> [] -> exists a b, bayes_pair_untrained ls d1 d2 = Ok (a, b) /\ In a ls /\ In b ls /\
  (NoDup ls -> (a = b <-> d1 mod length ls = d2 mod length ls)).
Proof.
  intro H. assert (Hl : length ls <> 0%nat) by (destruct ls; [congruence|discriminate]).
  assert (K1 := Nat.mod_upper_bound d1 _ Hl). assert (K2 := Nat.mod_upper_bound d2 _ Hl).
  exists (nth (d1 mod length ls) ls 0%nat), (nth (d2 mod length ls) ls 0%nat). unfold bayes_pair_untrained.
  assert (G : forall k, (k < length ls)%nat -> getitem ls k = Ok (nth k ls 0%nat)).
  { intros k Hk. unfold getitem. now rewrite (nth_error_nth' ls 0%nat Hk). }
  destruct ls as [|x ls]; [congruence|]. rewrite !G by auto. cbn [bind]. split; [reflexivity|]. split; [now apply nth_In|split; [now apply nth_In|]].
  intro ND. split; [|intros ->; reflexivity]. intro E. now apply (proj1 (NoDup_nth (x :: ls) 0%nat) ND).
Qed.
