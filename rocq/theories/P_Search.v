(** Lemmas about the optimisation loops. *)
From Verif Require Import P_Base P_RBase.
From Coq Require Import Lra Lia.
From Verif Require Import M_RBase M_Search S_Search.
Local Open Scope R_scope.

Lemma ogtb_some a b : ogtb (Some a) (Some b) = true <-> b < a.
Proof. cbn. apply Rltb_true. Qed.
Lemma ogtb_false x y : ogtb x y = false <-> ole x y.
Proof. destruct x, y; cbn; try tauto; try (split; intro; congruence). - apply Rltb_false. - split; [discriminate|tauto]. Qed.
(** ---- binary line search ---- *)
Lemma bls_inside phi n : forall lo hi, lo < hi -> lo < binary_line_search phi lo hi n < hi.
Proof.
  induction n as [|n IH]; intros lo hi H; cbn [binary_line_search]; [lra|].
  set (mid := (hi - lo) * (5 / 10) + lo). assert (lo < mid < hi) by (unfold mid; lra). destruct (ogtb _ _).
  - assert (K := IH lo mid ltac:(lra)). lra.
  - assert (K := IH mid hi ltac:(lra)). lra.
Qed.
Lemma pow2_pos n : 0 < 2 ^ n. Proof. apply pow_lt. lra. Qed.
Lemma half_pow w n : w / 2 / 2 ^ n = w / 2 ^ S n.
Proof. cbn [pow]. field. apply Rgt_not_eq, pow2_pos. Qed.
Lemma half1 w : w / 2 ^ 1 = w / 2.
Proof. rewrite pow_1. reflexivity. Qed.
Lemma bls_quadratic phi c a m n : 0 < a -> (forall x, phi x = Some (c - a * (x - m) ^ 2)) -> forall lo hi, lo < hi ->
  Rabs (binary_line_search phi lo hi n - clamp lo hi m) <= (hi - lo) / 2 ^ S n.
Proof.
  intros Ha Hphi. induction n as [|n IH]; intros lo hi H; cbn [binary_line_search].
  - rewrite half1. unfold clamp, Rmax, Rmin. repeat destruct (Rle_dec _ _); apply Rabs_le; lra.
  - set (mid := (hi - lo) * (5 / 10) + lo). assert (Hmid : lo < mid < hi) by (unfold mid; lra). rewrite !Hphi.
    assert (E : (mid - lo) / 2 ^ S n = (hi - lo) / 2 ^ S (S n)) by (rewrite <- (half_pow (hi - lo)); f_equal; unfold mid; lra).
    assert (E2 : (hi - mid) / 2 ^ S n = (hi - lo) / 2 ^ S (S n)) by (rewrite <- (half_pow (hi - lo)); f_equal; unfold mid; lra).
    destruct (ogtb _ _) eqn:G.
    + apply ogtb_some in G. assert (Hm : m < mid).
      { destruct (Rlt_or_le m mid) as [|Hc]; auto. exfalso. assert (0 <= a * ((hi - lo) * (m - mid))) by (apply Rmult_le_pos; [lra|apply Rmult_le_pos; lra]). unfold mid in *. nra. }
      replace (clamp lo hi m) with (clamp lo mid m) by (unfold clamp, Rmax, Rmin; repeat destruct (Rle_dec _ _); lra). rewrite <- E. apply IH. lra.
    + apply ogtb_false in G. cbn in G. assert (Hm : mid <= m).
      { destruct (Rle_or_lt mid m) as [|Hc]; auto. exfalso. assert (0 < a * ((hi - lo) * (mid - m))) by (apply Rmult_lt_0_compat; [lra|apply Rmult_lt_0_compat; lra]). unfold mid in *. nra. }
      replace (clamp lo hi m) with (clamp mid hi m) by (unfold clamp, Rmax, Rmin; repeat destruct (Rle_dec _ _); lra). rewrite <- E2. apply IH. lra.
Qed.
Lemma bls_rising phi f n : (forall x, phi x = Some (f x)) -> forall lo hi, lo < hi -> (forall x y, lo <= x -> x < y -> y <= hi -> f x < f y) ->
  binary_line_search phi lo hi n = hi - (hi - lo) / 2 ^ S n.
Proof.
  intro Hphi. induction n as [|n IH]; intros lo hi H Hf; cbn [binary_line_search]; [rewrite half1; lra|].
  rewrite !Hphi. set (mid := (hi - lo) * (5 / 10) + lo). assert (Hmid : lo < mid < hi) by (unfold mid; lra).
  rewrite (proj2 (ogtb_false _ _)). - rewrite IH by (try lra; intros; apply Hf; lra). rewrite <- (half_pow (hi - lo)). f_equal. f_equal. unfold mid. lra.
  - cbn. left. apply Hf; lra.
Qed.
Lemma bls_falling phi f n : (forall x, phi x = Some (f x)) -> forall lo hi, lo < hi -> (forall x y, lo <= x -> x < y -> y <= hi -> f y < f x) ->
  binary_line_search phi lo hi n = lo + (hi - lo) / 2 ^ S n.
Proof.
  intro Hphi. induction n as [|n IH]; intros lo hi H Hf; cbn [binary_line_search]; [rewrite half1; lra|].
  rewrite !Hphi. set (mid := (hi - lo) * (5 / 10) + lo). assert (Hmid : lo < mid < hi) by (unfold mid; lra).
  rewrite (proj2 (ogtb_some _ _)). - rewrite IH by (try lra; intros; apply Hf; lra). rewrite <- (half_pow (hi - lo)). f_equal. f_equal. unfold mid. lra.
  - apply Hf; lra.
Qed.
Lemma bls_unimodal phi f m n : (forall x, phi x = Some (f x)) -> forall lo hi, lo < hi -> unimodal f lo hi m ->
  Rabs (binary_line_search phi lo hi n - m) <= (hi - lo) / 4 + (hi - lo) / 2 ^ S n.
Proof.
  intro Hphi. induction n as [|n IH]; intros lo hi H [Hm [Hl Hr]]; cbn [binary_line_search]; [rewrite half1; apply Rabs_le; lra|].
  rewrite !Hphi. set (mid := (hi - lo) * (5 / 10) + lo). assert (Hmid : lo < mid < hi) by (unfold mid; lra).
  assert (P : 0 < (hi - lo) / 2 ^ S (S n)) by (apply Rdiv_lt_0_compat; [lra|apply pow2_pos]).
  assert (E : (mid - lo) / 2 ^ S n = (hi - lo) / 2 ^ S (S n)) by (rewrite <- (half_pow (hi - lo)); f_equal; unfold mid; lra).
  assert (E2 : (hi - mid) / 2 ^ S n = (hi - lo) / 2 ^ S (S n)) by (rewrite <- (half_pow (hi - lo)); f_equal; unfold mid; lra).
  destruct (ogtb _ _) eqn:G.
  - apply ogtb_some in G. assert (Hm2 : m < (hi - lo) * (75 / 100) + lo).
    { destruct (Rlt_or_le m ((hi - lo) * (75 / 100) + lo)); auto. assert (f ((hi - lo) * (25 / 100) + lo) < f ((hi - lo) * (75 / 100) + lo)) by (apply Hl; lra). lra. }
    destruct (Rle_or_lt m mid).
    + assert (K := IH lo mid ltac:(lra)). rewrite E in K. eapply Rle_trans; [apply K|unfold mid; lra]. split; [lra|]. split; intros; [apply Hl|apply Hr]; lra.
    + rewrite (bls_rising phi f n Hphi lo mid) by (try lra; intros; apply Hl; lra). rewrite E. apply Rabs_le. unfold mid in *. lra.
  - apply ogtb_false in G. cbn in G. assert (Hm2 : (hi - lo) * (25 / 100) + lo < m).
    { destruct (Rlt_or_le ((hi - lo) * (25 / 100) + lo) m); auto. assert (f ((hi - lo) * (75 / 100) + lo) < f ((hi - lo) * (25 / 100) + lo)) by (apply Hr; lra). lra. }
    destruct (Rle_or_lt mid m).
    + assert (K := IH mid hi ltac:(lra)). rewrite E2 in K. eapply Rle_trans; [apply K|unfold mid; lra]. split; [lra|]. split; intros; [apply Hl|apply Hr]; lra.
    + rewrite (bls_falling phi f n Hphi mid hi) by (try lra; intros; apply Hr; lra). rewrite E2. apply Rabs_le. unfold mid in *. lra.
Qed.
Lemma pow2_le n m : (n <= m)%nat -> 2 ^ n <= 2 ^ m.
Proof. intro H. apply Rle_pow; [lra|auto]. Qed.
(** a concave tent whose maximiser is missed *)
Definition tent (x : R) : R := Rmin (10 * (x - 6 / 10)) (- (x - 6 / 10)).
Lemma tent_concave : concave tent.
Proof.
  intros x y t Ht. unfold tent. assert (A := Rmin_l (10 * (x - 6 / 10)) (- (x - 6 / 10))). assert (B := Rmin_r (10 * (x - 6 / 10)) (- (x - 6 / 10))).
  assert (C := Rmin_l (10 * (y - 6 / 10)) (- (y - 6 / 10))). assert (D := Rmin_r (10 * (y - 6 / 10)) (- (y - 6 / 10))). apply Rmin_glb; nra.
Qed.
Lemma tent_max x : x <> 6 / 10 -> tent x < tent (6 / 10).
Proof. intro H. unfold tent. unfold Rmin. repeat destruct (Rle_dec _ _); lra. Qed.
Lemma tent_missed n : (4 <= n)%nat -> 15 / 10 / 2 ^ n < Rabs (binary_line_search (fun x => Some (tent x)) 0 (15 / 10) n - 6 / 10).
Proof.
  intro H. destruct n as [|n]; [lia|]. assert (P := pow2_le 4 (S n) H). assert (P2 := pow2_pos (S n)).
  assert (B : 15 / 10 / 2 ^ S n < 15 / 100).
  { apply Rmult_lt_reg_r with (2 ^ S n); auto. replace (15 / 10 / 2 ^ S n * 2 ^ S n) with (15 / 10) by (field; lra). replace (2 ^ 4) with 16 in P by ring. lra. }
  cbn [binary_line_search]. rewrite (proj2 (ogtb_false _ _)).
  - assert (K := bls_inside (fun x => Some (tent x)) n ((15 / 10 - 0) * (5 / 10) + 0) (15 / 10)). assert (G : (15 / 10 - 0) * (5 / 10) + 0 < 15 / 10) by (clear; lra). specialize (K G). rewrite Rabs_pos_eq; lra.
  - cbn. unfold tent, Rmin. repeat destruct (Rle_dec _ _); lra.
Qed.
(** a concave quadratic whose value is lowered *)
Lemma bls_left phi m n : (forall x, phi x = Some (- (x - m) ^ 2)) -> forall lo hi, lo < hi -> m < lo + (hi - lo) / 2 ^ n ->
  binary_line_search phi lo hi n = lo + (hi - lo) / 2 ^ S n.
Proof.
  intro Hphi. induction n as [|n IH]; intros lo hi H Hm; cbn [binary_line_search]; [rewrite half1; lra|].
  rewrite !Hphi. set (mid := (hi - lo) * (5 / 10) + lo). assert (Hmid : lo < mid < hi) by (unfold mid; lra).
  assert (E : (mid - lo) / 2 ^ n = (hi - lo) / 2 ^ S n) by (rewrite <- (half_pow (hi - lo)); f_equal; unfold mid; lra).
  assert (P : 1 <= 2 ^ n) by (apply pow_R1_Rle; lra).
  assert (Hmm : m < mid). { assert ((mid - lo) / 2 ^ n <= mid - lo). { apply Rmult_le_reg_r with (2 ^ n); [lra|]. replace ((mid - lo) / 2 ^ n * 2 ^ n) with (mid - lo) by (field; lra). nra. } lra. }
  rewrite (proj2 (ogtb_some _ _)) by (unfold mid in *; nra). rewrite IH by lra. rewrite <- (half_pow (hi - lo)). f_equal. f_equal. unfold mid. lra.
Qed.
Lemma newton_lowers n : exists F descent loss F', newton_update F descent (fun v => Some (loss v)) Binary n = Ok F' /\ loss F' < loss F /\
  concave (fun lam => loss (step_from F descent lam)) /\ exists lam, 0 < lam < 15 / 10 /\ loss F < loss (step_from F descent lam).
Proof.
  set (m := 15 / 10 / 2 ^ S (S (S n))). assert (P := pow2_pos n).
  assert (Hm : 0 < m) by (apply Rdiv_lt_0_compat; [lra|apply pow2_pos]).
  assert (Em : 15 / 10 / 2 ^ S n = 4 * m) by (unfold m; cbn [pow]; field; lra).
  assert (Em2 : 15 / 10 / 2 ^ n = 8 * m) by (unfold m; cbn [pow]; field; lra).
  assert (Hm2 : m < 15 / 10). { unfold m. apply Rmult_lt_reg_r with (2 ^ S (S (S n))); [apply pow2_pos|]. assert (1 <= 2 ^ n) by (apply pow_R1_Rle; lra).
    replace (15 / 10 / 2 ^ S (S (S n)) * 2 ^ S (S (S n))) with (15 / 10) by (field; apply Rgt_not_eq, pow2_pos). cbn [pow]. lra. }
  exists [0], [-1], (fun v => match v with x :: _ => - (x - m) ^ 2 | [] => 0 end). eexists. unfold newton_update. cbn [bind step_from combine map fst snd]. split; [reflexivity|].
  rewrite (bls_left _ m n) by (try lra; intro; f_equal; f_equal; f_equal; lra). split; [|split].
  - rewrite Rplus_0_l, Rminus_0_r, Em. nra.
  - intros x y t Ht. cbn [step_from combine map fst snd]. assert (0 <= t * (1 - t) * (x - y) ^ 2) by (apply Rmult_le_pos; [nra|apply pow2_ge_0]). nra.
  - exists m. split; [lra|]. cbn. nra.
Qed.
(** ---- iterative line search ---- *)
Lemma ole_refl x : ole x x. Proof. destruct x; cbn; auto. lra. Qed.
Lemma ole_trans x y z : ole x y -> ole y z -> ole x z.
Proof. destruct x, y, z; cbn; try tauto. lra. Qed.
Lemma ogtb_ole x y : ogtb x y = true -> ole y x.
Proof. destruct x, y; cbn; try discriminate; auto. intro H. apply Rltb_true in H. lra. Qed.
Lemma iter_loop_best phi pts : forall b v, exists v', (forall p, In p pts -> ole (phi p) v') /\ ole v v' /\
  ((iter_loop phi pts b v = b /\ v' = v) \/ (In (iter_loop phi pts b v) pts /\ v' = phi (iter_loop phi pts b v) /\ v' <> None)).
Proof.
  induction pts as [|q pts IH]; intros b v; cbn [iter_loop].
  - exists v. split; [intros p []|]. split; [apply ole_refl|auto].
  - destruct (ogtb (phi q) v) eqn:E.
    + destruct (IH q (phi q)) as [v' [H1 [H2 H3]]]. exists v'. apply ogtb_ole in E as E2. split; [|split].
      * intros p [-> |Hp]; auto.
      * eapply ole_trans; eauto.
      * right. destruct H3 as [[-> ->]|[H3 [H4 H5]]]; [|split; [now right|auto]]. split; [now left|]. split; auto. destruct (phi q); [discriminate|cbn in E; discriminate].
    + apply ogtb_false in E. destruct (IH b v) as [v' [H1 [H2 H3]]]. exists v'. split; [|split; auto].
      * intros p [-> |Hp]; auto. eapply ole_trans; eauto.
      * destruct H3 as [H3|[H3 H4]]; auto. right. split; [now right|auto].
Qed.
Lemma arange_in lo hi n x : In x (arange lo hi n) <-> exists i, (i < n)%nat /\ x = lo + INR i * ((hi - lo) / INR n).
Proof.
  unfold arange. rewrite in_map_iff. split.
  - intros [i [<- H]]. apply in_seq in H. exists i. split; [lia|auto].
  - intros [i [H ->]]. exists i. split; auto. apply in_seq. lia.
Qed.
Lemma arange_ge lo hi n x : lo <= hi -> In x (arange lo hi n) -> lo <= x.
Proof.
  intros H Hx. apply arange_in in Hx as [i [Hi ->]]. assert (0 <= INR i) by apply pos_INR. assert (0 < INR n) by (apply lt_0_INR; lia).
  assert (0 <= (hi - lo) / INR n) by (apply Rmult_le_pos; [lra|left; now apply Rinv_0_lt_compat]). nra.
Qed.
Lemma arange_lt lo hi n x : lo < hi -> In x (arange lo hi n) -> x < hi.
Proof.
  intros H Hx. apply arange_in in Hx as [i [Hi ->]]. assert (0 < INR n) by (apply lt_0_INR; lia). apply lt_INR in Hi.
  apply Rmult_lt_reg_r with (INR n); auto. replace ((lo + INR i * ((hi - lo) / INR n)) * INR n) with (lo * INR n + INR i * (hi - lo)) by (field; lra). nra.
Qed.
Lemma iterative_spec phi lo hi n : -1 < lo -> lo <= hi -> n <> 0%nat ->
  match iterative_line_search phi lo hi n with
  | Ok lam => In lam (arange lo hi n) /\ phi lam <> None /\ forall x, In x (arange lo hi n) -> ole (phi x) (phi lam)
  | Raise e => e = GenericException /\ forall x, In x (arange lo hi n) -> phi x = None
  end.
Proof.
  intros Hlo Hhi Hn. unfold iterative_line_search. destruct n as [|n]; [congruence|]. destruct (iter_loop_best phi (arange lo hi (S n)) (-1) None) as [v' [H1 [_ H3]]].
  destruct (Req_EM_T _ _) as [E|E].
  - split; auto. intros x Hx. destruct H3 as [[_ ->]|[H3 _]].
    + specialize (H1 x Hx). destruct (phi x); auto. destruct H1.
    + rewrite E in H3. apply arange_ge in H3; lra.
  - destruct H3 as [[H3 _]|[H3 [H4 H5]]]; [congruence|]. rewrite H4 in *. auto.
Qed.
Lemma iterative_minus_one : exists phi hi n, (forall x, phi x <> None) /\ -1 < hi /\ n <> 0%nat /\ iterative_line_search phi (-1) hi n = Raise GenericException.
Proof.
  exists (fun _ => Some 0), 0, 1%nat. split; [discriminate|]. split; [lra|]. split; [discriminate|].
  unfold iterative_line_search, arange. cbn [seq map iter_loop ogtb INR]. destruct (Req_EM_T _ _) as [|H]; auto. exfalso. apply H. lra.
Qed.
(** ---- Newton update ---- *)
Lemma newton_binary F d loss n : exists lam, 0 < lam < 15 / 10 /\ newton_update F d loss Binary n = Ok (step_from F d lam).
Proof. eexists. split; [|reflexivity]. apply bls_inside. lra. Qed.
Lemma newton_iter F d loss n : n <> 0%nat ->
  (exists lam, 1 / 100 <= lam < 15 / 10 /\ newton_update F d loss Iter n = Ok (step_from F d lam)) \/
  (newton_update F d loss Iter n = Raise GenericException /\ forall x, In x (arange (1 / 100) (15 / 10) n) -> loss (step_from F d x) = None).
Proof.
  intro Hn. unfold newton_update. assert (K := iterative_spec (fun lam => loss (step_from F d lam)) (1 / 100) (15 / 10) n ltac:(lra) ltac:(lra) Hn).
  destruct (iterative_line_search _ _ _ _) as [lam|e]; cbn [bind].
  - left. exists lam. split; auto. destruct K as [K _]. split; [eapply arange_ge; [|exact K]; lra|eapply arange_lt; [|exact K]; lra].
  - right. destruct K as [-> K]. auto.
Qed.
Lemma step_from_zero F n lam : (length F <= n)%nat -> step_from F (repeat 0 n) lam = F.
Proof.
  revert n. induction F as [|x F IH]; intros [|n] H; cbn in H; try lia; auto. unfold step_from in *. cbn [repeat combine map fst snd]. rewrite IH by lia. f_equal. lra.
Qed.
(** ---- loops ---- *)
Lemma after_fun {V} (upd : nat -> V -> result V) v0 n v : after upd v0 n v -> forall v', after upd v0 n v' -> v = v'.
Proof.
  induction 1 as [|n v w H IH E]; intros v' H'; inversion H' as [|? u ? G E']; subst; auto. rewrite <- (IH _ G) in E'. congruence.
Qed.
Lemma after_le {V} (upd : nat -> V -> result V) v0 n v : after upd v0 n v -> forall i, (i <= n)%nat -> exists w, after upd v0 i w.
Proof.
  induction 1 as [|n v w H IH E]; intros i Hi; [exists v0; replace i with 0%nat by lia; constructor|].
  destruct (Nat.eq_dec i (S n)) as [-> |]; [exists w; econstructor; eauto|apply IH; lia].
Qed.
Lemma mode_loop_spec {V} (upd : nat -> V -> result V) far v0 maxloops : forall fuel n v, (n <= maxloops)%nat -> (maxloops < n + fuel)%nat -> after upd v0 n v ->
  (forall i a b, (S i <= n)%nat -> after upd v0 i a -> after upd v0 (S i) b -> far b a = true) ->
  stops upd far v0 (S maxloops) (mode_loop upd far maxloops fuel n v) /\
  (forall n' v', mode_loop upd far maxloops fuel n v = Ok (n', v') -> (1 <= n')%nat /\ (n' = S maxloops \/ exists w, after upd v0 (n' - 1) w /\ far v' w = false)).
Proof.
  induction fuel as [|fuel IH]; intros n v Hn Hf Ha Hfar; [lia|]. cbn [mode_loop]. destruct (upd n v) as [v1|e] eqn:E; cbn [bind].
  2: { split; [|discriminate]. exists n, v. split; [lia|auto]. }
  assert (Ha1 : after upd v0 (S n) v1) by (econstructor; eauto). destruct (Nat.ltb_spec maxloops (S n)) as [Hm|Hm].
  - split; [|intros n' v' H; injection H as <- <-; split; [lia|left; lia]]. cbn. split; [lia|]. split; auto. intros i a b Hi. apply Hfar. lia.
  - destruct (far v1 v) eqn:Ef.
    + apply IH; auto; [lia|]. intros i a b Hi A B. destruct (Nat.eq_dec i n) as [-> |]; [|apply (Hfar i); auto; lia]. now rewrite (after_fun _ _ _ _ A _ Ha), (after_fun _ _ _ _ B _ Ha1).
    + split; [|intros n' v' H; injection H as <- <-; split; [lia|right; exists v; replace (S n - 1)%nat with n by lia; auto]].
      cbn. split; [lia|]. split; auto. intros i a b Hi. apply Hfar. lia.
Qed.
Lemma find_mode_spec {V} (upd : nat -> V -> result V) far chol v0 maxloops :
  stops upd far v0 (S maxloops) (find_mode upd far chol v0 maxloops (S maxloops)) /\
  (forall n v, find_mode upd far chol v0 maxloops (S maxloops) = Ok (n, v) -> chol = true ->
    (1 <= n)%nat /\ (n = S maxloops \/ exists w, after upd v0 (n - 1) w /\ far v w = false)) /\
  (chol = false -> find_mode upd far chol v0 maxloops (S maxloops) = Ok (0%nat, v0)).
Proof.
  unfold find_mode. destruct chol.
  - destruct (mode_loop_spec upd far v0 maxloops (S maxloops) 0 v0) as [H1 H2]; [lia|lia|constructor|intros; lia|]. split; [exact H1|]. split; [intros n v E _; apply H2; auto|discriminate].
  - split; [cbn; split; [lia|]; split; [constructor|intros; lia]|]. split; [discriminate|auto].
Qed.
Lemma linear_loop_spec {V} (upd : nat -> V -> result V) far v0 maxloops : forall fuel n go v, (n <= maxloops)%nat -> (maxloops < n + fuel)%nat -> after upd v0 n v ->
  (forall i a b, (S i < n)%nat -> after upd v0 i a -> after upd v0 (S i) b -> far b a = true) ->
  (forall w, (0 < n)%nat -> after upd v0 (n - 1) w -> go = far v w) -> (n = 0%nat -> go = true) ->
  stops upd far v0 maxloops (linear_loop upd far maxloops fuel n go v) /\
  (forall n' v', linear_loop upd far maxloops fuel n go v = Ok (n', v') -> n' = maxloops \/ ((1 <= n')%nat /\ exists w, after upd v0 (n' - 1) w /\ far v' w = false)).
Proof.
  induction fuel as [|fuel IH]; intros n go v Hn Hf Ha Hfar Hgo H0; [lia|]. cbn [linear_loop]. destruct go; cbn [andb].
  - destruct (Nat.ltb_spec n maxloops) as [Hm|Hm].
    + destruct (upd n v) as [v1|e] eqn:E; cbn [bind]; [|split; [exists n, v; auto|discriminate]].
      assert (Ha1 : after upd v0 (S n) v1) by (econstructor; eauto). apply IH; auto; try lia.
      * intros i a b Hi A B. destruct (Nat.eq_dec (S i) n) as [En|]; [|apply (Hfar i); auto; lia]. rewrite En in B. rewrite (after_fun _ _ _ _ B _ Ha). symmetry. apply Hgo; [lia|].
        replace (n - 1)%nat with i by lia. auto.
      * intros w _ A. replace (S n - 1)%nat with n in A by lia. now rewrite (after_fun _ _ _ _ A _ Ha).
    + split; [cbn; split; [lia|auto]|]. intros n' v' H. injection H as <- <-. left. lia.
  - split; [cbn; split; [lia|auto]|]. intros n' v' H. injection H as <- <-. right. destruct n as [|n]; [now specialize (H0 eq_refl)|]. split; [lia|].
    replace (S n - 1)%nat with n by lia. destruct (after_le _ _ _ _ Ha n ltac:(lia)) as [w Hw]. exists w. split; auto. symmetry. apply Hgo; [lia|]. replace (S n - 1)%nat with n by lia. auto.
Qed.
Lemma linear_optimize_spec {V} (upd : nat -> V -> result V) far v0 maxloops :
  stops upd far v0 maxloops (linear_optimize upd far v0 maxloops (S maxloops)) /\
  (forall n v, linear_optimize upd far v0 maxloops (S maxloops) = Ok (n, v) -> n = maxloops \/ ((1 <= n)%nat /\ exists w, after upd v0 (n - 1) w /\ far v w = false)).
Proof. apply linear_loop_spec; try lia; auto; try constructor; intros; lia. Qed.
(** ---- hyper-parameter search ---- *)
Lemma removelast_firstn {A} (l : list A) n : length l = S n -> removelast l = firstn n l.
Proof.
  revert n. induction l as [|x l IH]; intros n H; [discriminate|]. destruct l as [|y l]; [cbn in *; destruct n; [reflexivity|lia]|].
  destruct n as [|n]; [cbn in H; lia|]. cbn [length] in H. change (removelast (x :: y :: l)) with (x :: removelast (y :: l)). rewrite (IH n) by (cbn [length]; lia). reflexivity.
Qed.
Lemma push_grad_window {G} n (gs : list G) g : push_grad n (firstn n gs) g = firstn n (g :: gs).
Proof.
  unfold push_grad. cbn [length]. destruct (Nat.ltb_spec n (S (length (firstn n gs)))) as [H|H].
  - rewrite firstn_length in H. rewrite (removelast_firstn _ n).
    + destruct n as [|n]; auto. rewrite !firstn_cons. f_equal. rewrite firstn_firstn. f_equal. lia.
    + cbn [length]. rewrite firstn_length. lia.
  - rewrite firstn_length in H. destruct n as [|n]; [lia|]. rewrite !firstn_cons. f_equal. rewrite !firstn_all2 by lia. auto.
Qed.
Lemma settled_iff d gs : is_converged d (firstn 4 gs) = true <-> settled d gs.
Proof.
  unfold is_converged, settled. rewrite andb_true_iff, Nat.eqb_eq, Rltb_true. split.
  - intros [HL HN]. destruct gs as [|a [|b [|c [|e rest]]]]; try discriminate. exists a, b, c, e, rest. split; auto.
    unfold norm2, mean_vec in HN. cbn [firstn map length rsum] in HN.
    set (S0 := rsum _) in HN. assert (S0 = rsum (map (fun i => ((nth i a 0 + nth i b 0 + nth i c 0 + nth i e 0) / 4) ^ 2) (seq 0 d))).
    { unfold S0. rewrite map_map. f_equal. apply map_ext. intro i. cbn [INR]. field. }
    rewrite <- H. assert (P : 0 <= S0). { rewrite H. clear. induction (seq 0 d); cbn [map rsum]; [lra|]. assert (0 <= ((nth a0 a 0 + nth a0 b 0 + nth a0 c 0 + nth a0 e 0) / 4) ^ 2) by apply pow2_ge_0. lra. }
    assert (Q := sqrt_sqrt S0 P). assert (Q2 := sqrt_pos S0). nra.
  - intros [a [b [c [e [rest [-> H]]]]]]. split; [reflexivity|]. unfold norm2, mean_vec. cbn [firstn map length rsum].
    apply Rsqr_incrst_0; [|apply sqrt_pos|lra]. unfold Rsqr at 1. rewrite sqrt_sqrt.
    + rewrite map_map. replace (Rsqr (3 / 10)) with ((3 / 10) ^ 2) by (unfold Rsqr; ring). eapply Rle_lt_trans; [|exact H]. right. f_equal. apply map_ext. intro i. cbn [INR]. field.
    + rewrite map_map. clear. induction (seq 0 d); cbn [map rsum]; [lra|]. match goal with |- 0 <= ?x * ?x + _ => assert (0 <= x * x) by apply (Rle_0_sqr x) end. lra.
Qed.
Section Hyper.
  Context {St : Type} (d : nat) (grad : St -> list R) (move : St -> list R -> St) (s0 : St).
  Definition st (n : nat) : St := fst (steps grad move n s0).
  Definition gs (n : nat) : list (list R) := snd (steps grad move n s0).
  Lemma st_S n : st (S n) = move (st n) (grad (st n)).
  Proof. unfold st. cbn [steps]. destruct (steps grad move n s0). reflexivity. Qed.
  Lemma gs_S n : gs (S n) = grad (st n) :: gs n.
  Proof. unfold gs, st. cbn [steps]. destruct (steps grad move n s0). reflexivity. Qed.
  Definition good (base limit : nat) (r : St * list (list R) * nat * bool) : Prop :=
    let '(s, prev, calls, conv) := r in s = st calls /\ prev = firstn 4 (gs calls) /\ (base <= calls <= limit)%nat /\
      (forall c, (base < c < calls)%nat -> ~ settled d (gs c)) /\ ((base < calls)%nat -> (conv = true <-> settled d (gs calls))) /\ (calls = base -> conv = false).
  Lemma fold_pass_spec k : forall calls, good calls (calls + k) (fold_pass d grad move k (st calls) (firstn 4 (gs calls)) calls).
  Proof.
    induction k as [|k IH]; intro calls; cbn [fold_pass]; [cbn; repeat split; auto; try lia|].
    unfold search_step. cbv zeta. rewrite push_grad_window, <- gs_S, <- st_S. destruct (is_converged d (firstn 4 (gs (S calls)))) eqn:E.
    - cbn. repeat split; auto; try lia. intros _. now apply settled_iff.
    - specialize (IH (S calls)). destruct (fold_pass _ _ _ _ _ _ _) as [[[s p] c] cv]. destruct IH as [H1 [H2 [H3 [H4 [H5 H6]]]]].
      assert (NS : ~ settled d (gs (S calls))) by (intro K; apply settled_iff in K; congruence).
      split; auto. split; auto. split; [lia|]. split; [|split; [|lia]].
      + intros x Hx. destruct (Nat.eq_dec x (S calls)) as [-> |]; auto. apply H4. lia.
      + intro Hc. destruct (Nat.eq_dec c (S calls)) as [-> |]; [rewrite (H6 eq_refl); split; [discriminate|tauto]|apply H5; lia].
  Qed.
  Lemma rounds_spec k splits n : forall j calls, good calls (calls + n * k) (rounds d grad move k splits n j (st calls) (firstn 4 (gs calls)) calls) /\ True.
  Proof.
    induction n as [|n IH]; intros j calls; cbn [rounds]; (split; [|exact I]); [cbn; repeat split; auto; try lia|].
    destruct (splits j).
    - assert (K := fold_pass_spec k calls). destruct (fold_pass _ _ _ _ _ _ _) as [[[s p] c] cv]. destruct K as [-> [-> [H3 [H4 [H5 H6]]]]].
      destruct cv.
      + cbn [good]. split; auto. split; auto. split; [lia|]. split; auto.
      + specialize (IH (S j) c). destruct (rounds _ _ _ _ _ _ _ _ _ _) as [[[s p] c'] cv]. destruct IH as [[G1 [G2 [G3 [G4 [G5 G6]]]]] _].
        cbn [good]. assert (NS : (calls < c)%nat -> ~ settled d (gs c)) by (intros Hc K; apply H5 in K; auto; discriminate).
        split; auto. split; auto. split; [nia|]. split; [|split].
        * intros x Hx. destruct (Nat.lt_trichotomy x c) as [L|[-> |L]]; [apply H4; lia|apply NS; lia|apply G4; lia].
        * intro Hc. destruct (Nat.eq_dec c' c) as [-> |]; [rewrite (G6 eq_refl); split; [discriminate|intro Q; exfalso; now apply NS]|apply G5; lia].
        * intro Hc. apply G6. lia.
    - specialize (IH (S j) calls). destruct (rounds _ _ _ _ _ _ _ _ _ _) as [[[s p] c'] cv]. destruct IH as [[G1 [G2 [G3 [G4 [G5 G6]]]]] _].
      cbn [good]. split; auto. split; auto. split; [nia|]. split; auto.
  Qed.
End Hyper.
Lemma hyper_optimize_spec {St} d (grad : St -> list R) move splits N s : forall s' prev calls conv, hyper_optimize d grad move splits N s = (s', prev, calls, conv) ->
  (calls <= 600)%nat /\ ((N < 4)%nat -> calls = 0%nat) /\ s' = fst (steps grad move calls s) /\ prev = firstn 4 (snd (steps grad move calls s)) /\
  (forall c, (0 < c < calls)%nat -> ~ settled d (snd (steps grad move c s))) /\ (conv = true <-> (0 < calls)%nat /\ settled d (snd (steps grad move calls s))).
Proof.
  intros s' prev calls conv. unfold hyper_optimize. cbv zeta. set (k := Nat.min (N / 2) 4).
  destruct (Nat.ltb_spec 1 k) as [H|H].
  - intro E. destruct (rounds_spec d grad move s k splits ((600 + k - 1) / k) 0 0) as [K _]. unfold st, gs in K. cbn [steps fst snd] in K. rewrite firstn_nil in K. rewrite E in K.
    destruct K as [K1 [K2 [K3 [K4 [K5 K6]]]]].
    assert (Hk : (k = 2 \/ k = 3 \/ k = 4)%nat) by (unfold k in *; lia).
    assert (HN : (4 <= N)%nat). { assert (2 <= N / 2)%nat by (unfold k in H; lia). destruct (Nat.lt_ge_cases N 4); auto. assert (N / 2 < 2)%nat by (apply Nat.div_lt_upper_bound; lia). lia. }
    assert (E6 : ((600 + k - 1) / k * k = 600)%nat) by (destruct Hk as [E0|[E0|E0]]; rewrite E0; reflexivity). rewrite E6 in K3. split; [lia|].
    split; [lia|]. split; auto. split; auto. split; auto. destruct calls as [|c]; [rewrite K6 by auto; split; [discriminate|intros [? _]; lia]|]. rewrite K5 by lia. split; [intro; split; auto; lia|tauto].
  - intro E. injection E as <- <- <- <-. split; [lia|]. split; auto. cbn. split; auto. split; auto. split; [intros; lia|]. split; [discriminate|intros [? _]; lia].
Qed.
(** ---- normalisation ---- *)
Lemma norm_inf_ge F x : In x F -> Rabs x <= norm_inf F.
Proof. induction F as [|y F IH]; intros []; cbn [norm_inf fold_right]; [subst; apply Rmax_l|]. eapply Rle_trans; [now apply IH|apply Rmax_r]. Qed.
Lemma norm_inf_in F : norm_inf F <> 0 -> exists x, In x F /\ Rabs x = norm_inf F.
Proof.
  induction F as [|y F IH]; cbn [norm_inf fold_right]; [lra|]. intro H. fold (norm_inf F) in *. unfold Rmax in *. destruct (Rle_dec (Rabs y) (norm_inf F)); [|exists y; split; [now left|auto]].
  destruct (IH H) as [x [H1 H2]]. exists x. split; [now right|auto].
Qed.
Lemma norm_inf_nonneg F : 0 <= norm_inf F.
Proof. induction F as [|y F IH]; cbn [norm_inf fold_right]; [lra|]. eapply Rle_trans; [exact IH|apply Rmax_r]. Qed.
Lemma scale_down_some c F F' : scale_down c F = Some F' -> c <> 0 /\ F' = map (fun x => x / c) F.
Proof. unfold scale_down. destruct (Req_EM_T c 0); [discriminate|]. intro H. injection H as <-. auto. Qed.
(** positive normalisation *)
Lemma normalise_positive F F' : normalise true true F = Ok (Some F') -> exists mn mx, mn < mx /\ In mn F /\ In mx F /\ (forall x, In x F -> mn <= x <= mx) /\ F' = map (fun x => (x - mn) / (mx - mn)) F.
Proof.
  unfold normalise. intro H. destruct F as [|a F0] eqn:EF; [discriminate|]. rewrite <- EF in *. destruct (np_min_ok F ltac:(rewrite EF; congruence)) as [mn [E1 [I1 M1]]]. rewrite E1 in H. cbn [bind] in H.
  destruct (np_max_ok (map (fun x => x - mn) F)) as [mx1 [E2 [I2 M2]]]; [rewrite EF; cbn [map]; congruence|]. rewrite E2 in H. cbn [bind] in H. injection H as H. apply scale_down_some in H as [H1 H2].
  apply in_map_iff in I2 as [mx [Emx Imx]]. assert (Hmx : forall x, In x F -> x <= mx). { intros x Hx. assert (K := M2 (x - mn) (in_map (fun x => x - mn) F x Hx)). lra. }
  exists mn, mx. assert (mn <= mx) by auto. split; [subst; lra|]. split; auto. split; auto. split; [intros x Hx; split; auto|]. rewrite H2, map_map, <- Emx. reflexivity.
Qed.
Lemma normalise_positive_range F F' : normalise true true F = Ok (Some F') -> length F' = length F /\ (forall x, In x F' -> 0 <= x <= 1) /\ In 0 F' /\ In 1 F' /\
  (forall i j, (i < length F)%nat -> (j < length F)%nat -> (nth i F' 0 <= nth j F' 0 <-> nth i F 0 <= nth j F 0)).
Proof.
  intro H. apply normalise_positive in H as [mn [mx [H1 [H2 [H3 [H4 ->]]]]]]. assert (P : 0 < / (mx - mn)) by (apply Rinv_0_lt_compat; lra).
  split; [apply map_length|]. split.
  { intros x Hx. apply in_map_iff in Hx as [y [<- Hy]]. apply H4 in Hy. split; [apply Rmult_le_pos; lra|]. apply Rmult_le_reg_r with (mx - mn); [lra|]. replace ((y - mn) / (mx - mn) * (mx - mn)) with (y - mn) by (field; lra). lra. }
  split; [apply in_map_iff; exists mn; split; auto; field; lra|]. split; [apply in_map_iff; exists mx; split; auto; field; lra|].
  intros i j Hi Hj. set (f := fun x => (x - mn) / (mx - mn)). rewrite !(nth_indep (map f F) 0 (f 0)) by (rewrite map_length; auto). rewrite !map_nth. unfold f, Rdiv. split; intro H; nra.
Qed.
(** normalisation fails exactly on constant vectors *)
Lemma normalise_positive_nan F : normalise true true F = Ok None <-> F <> [] /\ forall x y, In x F -> In y F -> x = y.
Proof.
  unfold normalise. destruct F as [|a F0] eqn:EF; [cbn; split; [discriminate|intros [? _]; congruence]|]. rewrite <- EF in *.
  destruct (np_min_ok F ltac:(rewrite EF; congruence)) as [mn [E1 [I1 M1]]]. rewrite E1. cbn [bind].
  destruct (np_max_ok (map (fun x => x - mn) F)) as [mx1 [E2 [I2 M2]]]; [rewrite EF; cbn [map]; congruence|]. rewrite E2. cbn [bind].
  apply in_map_iff in I2 as [mx [Emx Imx]]. unfold scale_down. destruct (Req_EM_T mx1 0) as [E|E].
  - split; [|auto]. intros _. split; [rewrite EF; congruence|]. intros x y Hx Hy. assert (A := M1 x Hx). assert (B := M1 y Hy).
    assert (C := M2 (x - mn) (in_map (fun x => x - mn) F x Hx)). assert (D := M2 (y - mn) (in_map (fun x => x - mn) F y Hy)). lra.
  - split; [discriminate|]. intros [_ H]. exfalso. apply E. rewrite <- Emx, (H mx mn); auto. lra.
Qed.
Lemma normalise_symmetric_range F F' : normalise true false F = Ok (Some F') -> length F' = length F /\ norm_inf F' = 1 /\
  (forall i j, (i < length F)%nat -> (j < length F)%nat -> (nth i F' 0 <= nth j F' 0 <-> nth i F 0 <= nth j F 0)).
Proof.
  unfold normalise. intro H. injection H as H. apply scale_down_some in H as [H ->]. assert (P := norm_inf_nonneg F). assert (Q : 0 < / norm_inf F) by (apply Rinv_0_lt_compat; lra).
  split; [apply map_length|]. split.
  - set (c := norm_inf F) in *. assert (K : norm_inf (map (fun x => x / c) F) = norm_inf F / c).
    { clearbody c. clear H. induction F as [|x F IH]; cbn [map norm_inf fold_right]; [unfold Rdiv; lra|]. fold (norm_inf F). fold (norm_inf (map (fun x => x / c) F)). rewrite IH by apply norm_inf_nonneg.
      unfold Rdiv. rewrite Rabs_mult, (Rabs_pos_eq (/ c)) by lra. unfold Rmax. destruct (Rle_dec (Rabs x * / c) (norm_inf F * / c)), (Rle_dec (Rabs x) (norm_inf F)); try lra; nra. }
    rewrite K. fold c. field. auto.
  - intros i j Hi Hj. set (f := fun x => x / norm_inf F). rewrite !(nth_indep (map f F) 0 (f 0)) by (rewrite map_length; auto). rewrite !map_nth. unfold f, Rdiv. split; intro; nra.
Qed.
Lemma normalise_symmetric_nan F : normalise true false F = Ok None <-> forall x, In x F -> x = 0.
Proof.
  unfold normalise, scale_down. destruct (Req_EM_T (norm_inf F) 0) as [E|E].
  - split; auto. intros _ x Hx. apply norm_inf_ge in Hx. rewrite E in Hx. destruct (Req_dec x 0); auto. assert (K := Rabs_pos_lt x H). lra.
  - split; [discriminate|]. intro H. destruct (norm_inf_in F E) as [x [H1 H2]]. rewrite (H x H1), Rabs_R0 in H2. congruence.
Qed.
(** the mode found with normalisation *)
Lemma mode_normalised (g : nat -> option (list R) -> list R) far F0 maxloops positive n F :
  find_mode (fun i v => normalise true positive (g i v)) far true F0 maxloops (S maxloops) = Ok (n, Some F) ->
  if positive then (forall x, In x F -> 0 <= x <= 1) /\ In 0 F /\ In 1 F else norm_inf F = 1.
Proof.
  intro H. destruct (find_mode_spec (fun i v => normalise true positive (g i v)) far true F0 maxloops) as [H1 [H2 _]]. destruct (H2 _ _ H eq_refl) as [H3 _]. rewrite H in H1. destruct H1 as [_ [H1 _]].
  inversion H1 as [|n' v v' A E]; subst; [lia|]. destruct positive; [apply normalise_positive_range in E; tauto|apply normalise_symmetric_range in E; tauto].
Qed.
