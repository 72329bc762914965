(** Proofs about the numeric helpers. *)
From Verif Require Import M_RBase M_Util S_Util P_Base P_RBase P_Select.
From Coq Require Import Lra.
From Coquelicot Require Import Coquelicot.
From Verif Require Import M_RBase.
Local Open Scope R_scope.

(** ---- normalize_0_1 ---- *)
Lemma div_pos_lt a b c : 0 < c -> (a / c < b / c <-> a < b).
Proof.
  intro H. assert (Hi := Rinv_0_lt_compat c H). unfold Rdiv. split; intro K; nra.
Qed.
Lemma normalize_spec x eps : x <> [] -> 0 < eps -> exists out, normalize_0_1 x eps = Ok out /\ length out = length x /\
  (forall v, In v out -> 0 < v < 1) /\
  (forall i j a b u v, nth_error x i = Some a -> nth_error x j = Some b -> nth_error out i = Some u -> nth_error out j = Some v ->
     ((a < b <-> u < v) /\ (a = b <-> u = v))) /\
  (forall i j a b u v, nth_error x i = Some a -> nth_error x j = Some b -> nth_error out i = Some u -> nth_error out j = Some v ->
     (forall y, In y x -> a <= y <= b) -> u = eps / (b - a + 2 * eps) /\ v = 1 - eps / (b - a + 2 * eps)).
Proof.
  intros Hx He. destruct (np_max_ok x Hx) as [mx [E1 [I1 M1]]]. destruct (np_min_ok x Hx) as [mn [E2 [I2 M2]]].
  unfold normalize_0_1. rewrite E1, E2. cbn [bind]. eexists. split; [reflexivity|]. split; [now rewrite map_length|].
  assert (Hmm : mn <= mx) by auto. set (d := mx - mn + 2 * eps). assert (Hd : 0 < d) by (unfold d; lra).
  assert (Hn : forall i a u, nth_error x i = Some a -> nth_error (map (fun v => (v - mn + eps) * (1 / d)) x) i = Some u ->
    u = (a - mn + eps) / d /\ mn <= a <= mx).
  { intros i a u Ha Hu. rewrite nth_error_map, Ha in Hu. cbn [option_map] in Hu. inversion Hu; subst. split; [unfold Rdiv; lra|].
    apply nth_error_In in Ha. auto. }
  repeat split.
  - apply in_map_iff in H. destruct H as [a [<- Ha]]. assert (Hi := Rinv_0_lt_compat d Hd). specialize (M2 a Ha).
    unfold Rdiv. rewrite Rmult_1_l. apply Rmult_lt_0_compat; lra.
  - apply in_map_iff in H. destruct H as [a [<- Ha]]. specialize (M1 a Ha).
    unfold Rdiv. rewrite Rmult_1_l. apply (Rmult_lt_reg_r d); auto. rewrite Rmult_assoc, Rinv_l by lra. unfold d. lra.
  - intro K. destruct (Hn _ _ _ H H1) as [-> _]. destruct (Hn _ _ _ H0 H2) as [-> _]. apply div_pos_lt; auto; lra.
  - intro K. destruct (Hn _ _ _ H H1) as [-> _]. destruct (Hn _ _ _ H0 H2) as [-> _]. apply div_pos_lt in K; auto; lra.
  - intro K. subst b. destruct (Hn _ _ _ H H1) as [-> _]. destruct (Hn _ _ _ H0 H2) as [-> _]. reflexivity.
  - intro K. destruct (Hn _ _ _ H H1) as [Ea _]. destruct (Hn _ _ _ H0 H2) as [Eb _].
    assert (~ a < b) by (intro C; assert (a - mn + eps < b - mn + eps) by lra; apply (div_pos_lt _ _ d Hd) in H3; lra).
    assert (~ b < a) by (intro C; assert (b - mn + eps < a - mn + eps) by lra; apply (div_pos_lt _ _ d Hd) in H4; lra). lra.
  - destruct (Hn _ _ _ H H1) as [-> Ha]. assert (Ea : a = mn) by (specialize (H3 mn I2); lra).
    assert (Eb : b = mx). { specialize (H3 mx I1). apply nth_error_In in H0. specialize (M1 b H0). lra. }
    subst. fold d. f_equal. lra.
  - destruct (Hn _ _ _ H0 H2) as [-> Hb]. assert (Eb : b = mx) by (specialize (H3 mx I1); lra).
    assert (Ea : a = mn). { specialize (H3 mn I2). apply nth_error_In in H. specialize (M2 a H). lra. }
    subst. fold d. unfold d. field. fold d. lra.
Qed.

(** ---- human choice ---- *)
Lemma exp_vec_pos p mx r x : In x (map (fun v => exp ((v - mx) * p)) r) -> 0 < x.
Proof. intro H. apply in_map_iff in H. destruct H as [v [<- _]]. apply exp_pos. Qed.
Definition softmax (mx p : R) (r : list R) : list R :=
  let e := map (fun v => exp ((v - mx) * p)) r in map (fun v => v / rsum e) e.
Lemma exp_vec_sum_pos p mx r : r <> [] -> 0 < rsum (map (fun v => exp ((v - mx) * p)) r).
Proof. intro H. apply rsum_pos; [destruct r; [congruence|discriminate]|]. apply exp_vec_pos. Qed.
Lemma softmax_shift mx mx' p r : r <> [] -> softmax mx p r = softmax mx' p r.
Proof.
  intro Hr. unfold softmax. rewrite !map_map. apply map_ext. intro v.
  assert (E : forall w, exp ((w - mx) * p) = exp ((mx' - mx) * p) * exp ((w - mx') * p)) by (intro w; rewrite <- exp_plus; f_equal; lra).
  assert (S : rsum (map (fun w => exp ((w - mx) * p)) r) = exp ((mx' - mx) * p) * rsum (map (fun w => exp ((w - mx') * p)) r)).
  { rewrite <- rsum_map_scale. apply rsum_ext. intros w _. apply E. }
  rewrite S, E. assert (P := exp_vec_sum_pos p mx' r Hr). assert (P2 := exp_pos ((mx' - mx) * p)). field. lra.
Qed.
Lemma softmax_luce mx p r : r <> [] -> luce p r (softmax mx p r).
Proof.
  intro Hr. assert (P := exp_vec_sum_pos p mx r Hr). unfold luce, softmax. split; [now rewrite !map_length|]. split.
  - split.
    + intros x Hx. apply in_map_iff in Hx. destruct Hx as [v [<- Hv]]. apply Rdiv_lt_0_compat; [|auto]. eapply exp_vec_pos; eauto.
    + rewrite rsum_div. field. lra.
  - intros i j a b pa pb Ha Hb Hpa Hpb. rewrite map_map, nth_error_map, Ha in Hpa. rewrite map_map, nth_error_map, Hb in Hpb.
    cbn [option_map] in *. inversion Hpa. inversion Hpb. subst.
    replace (exp ((a - mx) * p)) with (exp ((b - mx) * p) * exp (p * (a - b))) by (rewrite <- exp_plus; f_equal; lra). field. lra.
Qed.
Lemma p_human_choice_softmax r p : r <> [] -> exists mx, p_human_choice r p = Ok (softmax mx p r).
Proof. intro Hr. destruct (np_max_ok r Hr) as [mx [E _]]. unfold p_human_choice. rewrite E. cbn [bind]. exists mx. reflexivity. Qed.
Lemma p_human_choice_luce r p : r <> [] -> exists out, p_human_choice r p = Ok out /\ luce p r out.
Proof. intro Hr. destruct (p_human_choice_softmax r p Hr) as [mx E]. eexists. split; [exact E|]. now apply softmax_luce. Qed.
Lemma map_nonempty {A B} (f : A -> B) l : l <> [] -> map f l <> [].
Proof. destruct l; [congruence|discriminate]. Qed.
Lemma p_human_choice_shift r p c : r <> [] -> p_human_choice (map (fun x => x + c) r) p = p_human_choice r p.
Proof.
  intro Hr. destruct (p_human_choice_softmax r p Hr) as [mx ->].
  destruct (p_human_choice_softmax _ p (map_nonempty (fun x => x + c) r Hr)) as [mx' ->]. f_equal.
  rewrite (softmax_shift mx (mx' - c) p r Hr). unfold softmax. rewrite !map_map.
  assert (E : forall w, exp ((w + c - mx') * p) = exp ((w - (mx' - c)) * p)) by (intro w; f_equal; lra).
  assert (S : map (fun x => exp ((x + c - mx') * p)) r = map (fun x => exp ((x - (mx' - c)) * p)) r) by (apply map_ext; auto).
  rewrite S. apply map_ext. intro x. now rewrite E.
Qed.
Lemma luce_ranks p r out i j a b pa pb : 0 < p -> luce p r out -> nth_error r i = Some a -> nth_error r j = Some b ->
  nth_error out i = Some pa -> nth_error out j = Some pb -> (a < b <-> pa < pb).
Proof.
  intros Hp [Hl [[Hpos _] Ho]] Ha Hb Hpa Hpb. assert (E := Ho i j a b pa pb Ha Hb Hpa Hpb).
  assert (P := Hpos pb (nth_error_In _ _ Hpb)). split; intro K.
  - assert (exp (p * (a - b)) < 1); [rewrite <- exp_0; apply exp_increasing; nra|nra].
  - assert (exp (p * (a - b)) < exp 0) by (rewrite exp_0; nra). apply exp_lt_inv in H. nra.
Qed.
Lemma nth_error_ext {A} (l1 : list A) : forall l2, (forall k, nth_error l1 k = nth_error l2 k) -> l1 = l2.
Proof.
  induction l1 as [|x l1 IH]; intros [|y l2] H; auto; try (specialize (H 0%nat); discriminate).
  assert (H0 := H 0%nat). simpl in H0. inversion H0; subst. f_equal. apply IH. intro k. exact (H (S k)).
Qed.
(** the rule has exactly one solution *)
Lemma luce_unique p r o1 o2 : luce p r o1 -> luce p r o2 -> o1 = o2.
Proof.
  intros [L1 [[P1 S1] O1]] [L2 [[P2 S2] O2]]. destruct r as [|a r]; [destruct o1, o2; simpl in *; try discriminate; auto|].
  destruct o1 as [|u o1]; [discriminate|]. destruct o2 as [|v o2]; [discriminate|].
  assert (Pu := P1 u (or_introl eq_refl)). assert (Pv := P2 v (or_introl eq_refl)).
  assert (E : forall k x y, nth_error (u :: o1) k = Some x -> nth_error (v :: o2) k = Some y -> x = (u / v) * y).
  { intros k x y Hx Hy. assert (Hk : (k < length (a :: r))%nat) by (rewrite <- L1; apply nth_error_Some; congruence).
    apply nth_error_Some in Hk. destruct (nth_error (a :: r) k) as [b|] eqn:Eb; [|congruence].
    rewrite (O1 k 0%nat b a x u Eb eq_refl Hx eq_refl), (O2 k 0%nat b a y v Eb eq_refl Hy eq_refl). field. lra. }
  assert (M : u :: o1 = map (fun y => (u / v) * y) (v :: o2)).
  { apply nth_error_ext. intro k. rewrite nth_error_map.
    destruct (nth_error (u :: o1) k) as [x|] eqn:E1, (nth_error (v :: o2) k) as [y|] eqn:E2; cbn [option_map]; auto.
    - f_equal. eauto.
    - exfalso. assert (K : (k < length (u :: o1))%nat) by (apply nth_error_Some; congruence). apply nth_error_None in E2. lia.
    - exfalso. assert (K : (k < length (v :: o2))%nat) by (apply nth_error_Some; congruence). apply nth_error_None in E1. lia. }
  rewrite M in S1. rewrite rsum_scale, S2, Rmult_1_r in S1. rewrite M, S1. rewrite <- (map_id (v :: o2)) at 2. apply map_ext. intro; lra.
Qed.
Lemma mapM_map_ok {A B} (f : A -> result B) (g : A -> B) l : (forall x, In x l -> f x = Ok (g x)) -> mapM f l = Ok (map g l).
Proof.
  induction l as [|x l IH]; intro H; [reflexivity|]. cbn [mapM]. rewrite H by now left. cbn [bind]. rewrite IH; [reflexivity|].
  intros; apply H; now right.
Qed.
Lemma p_human_choice_rows_spec r p : r <> [] -> (forall row, In row r -> row <> []) ->
  p_human_choice_rows r p = mapM (fun row => p_human_choice row p) r.
Proof.
  intros Hr Hrow. assert (Hc : concat r <> []).
  { destruct r as [|row r]; [congruence|]. simpl. assert (K := Hrow row (or_introl eq_refl)). destruct row; [congruence|discriminate]. }
  destruct (np_max_ok _ Hc) as [mx [E _]]. unfold p_human_choice_rows. rewrite E. cbn [bind].
  rewrite map_map. symmetry. apply mapM_map_ok. intros row Hin. destruct (p_human_choice_softmax row p (Hrow row Hin)) as [mx' ->].
  f_equal. rewrite (softmax_shift mx' mx p row (Hrow row Hin)). reflexivity.
Qed.

(** ---- sampling ---- *)
Lemma searchsorted_spec c u : (searchsorted_right c u <= length c)%nat /\
  (forall k v, (k < searchsorted_right c u)%nat -> nth_error c k = Some v -> v <= u) /\
  (forall v, nth_error c (searchsorted_right c u) = Some v -> u < v).
Proof.
  induction c as [|x c [I1 [I2 I3]]]; simpl.
  - split; [lia|]. split; [intros; lia|discriminate].
  - destruct (Rleb x u) eqn:E.
    + apply Rleb_true in E. split; [lia|]. split.
      * intros [|k] v Hk Hv; simpl in Hv; [inversion Hv; subst; auto|]. apply (I2 k); auto. lia.
      * exact I3.
    + apply Rleb_false in E. split; [lia|]. split; [intros; lia|]. intros v Hv. simpl in Hv. inversion Hv. now subst.
Qed.
Definition prefix (l : list R) (i : nat) : R := rsum (firstn i l).
Lemma np_choice_spec pdf u : distribution pdf -> 0 <= u < 1 ->
  (np_choice pdf u < length pdf)%nat /\
  forall i, (i < length pdf)%nat -> (np_choice pdf u = i <-> prefix pdf i <= u < prefix pdf (S i)).
Proof.
  intros [Hp Hs] Hu. assert (Hne : pdf <> []) by (intro C; subst; simpl in Hs; lra).
  unfold np_choice. rewrite (last_cumsum pdf 0 0 Hne), Hs. set (c := map (fun x => x / (0 + 1)) (cumsum 0 pdf)).
  assert (Hc : forall k, (k < length pdf)%nat -> nth_error c k = Some (prefix pdf (S k))).
  { intros k Hk. unfold c. rewrite nth_error_map, (cumsum_nth pdf 0 k Hk). cbn [option_map]. f_equal. unfold prefix. field. }
  assert (Hlen : length c = length pdf) by (unfold c; now rewrite map_length, cumsum_length).
  assert (Hmono : forall i j, (i <= j)%nat -> prefix pdf i <= prefix pdf j).
  { intros i j Hij. apply firstn_rsum_le; auto. intros x Hx. left. auto. }
  assert (Hend : prefix pdf (length pdf) = 1) by (unfold prefix; now rewrite firstn_all).
  destruct (searchsorted_spec c u) as [S1 [S2 S3]]. set (j := searchsorted_right c u) in *.
  assert (Hj : (j < length pdf)%nat).
  { destruct (Nat.lt_ge_cases j (length pdf)) as [K|K]; auto. exfalso.
    assert (L : (0 < length pdf)%nat) by (destruct pdf; [congruence|simpl; lia]).
    assert (V := S2 (length pdf - 1)%nat _ ltac:(lia) (Hc (length pdf - 1)%nat ltac:(lia))).
    replace (S (length pdf - 1)) with (length pdf) in V by lia. lra. }
  split; [exact Hj|]. intros i Hi. split.
  - intro E. subst i. split.
    + destruct j as [|j'] eqn:Ej; [unfold prefix; simpl; lra|]. apply (S2 j'); [lia|]. apply Hc. lia.
    + apply S3. apply Hc; auto.
  - intros [L1 L2]. destruct (Nat.lt_trichotomy j i) as [K|[K|K]]; auto; exfalso.
    + assert (V := S3 _ (Hc j Hj)). assert (M := Hmono (S j) i ltac:(lia)). lra.
    + assert (V := S2 i _ K (Hc i Hi)). lra.
Qed.
Lemma prefix_step l i a : nth_error l i = Some a -> prefix l (S i) = prefix l i + a.
Proof.
  unfold prefix. revert i. induction l as [|x l IH]; intros [|i] H; simpl in H; try discriminate.
  - inversion H; subst. simpl. lra.
  - change (x + rsum (firstn (S i) l) = x + rsum (firstn i l) + a). rewrite (IH i H). lra.
Qed.
Lemma getitem_seq n i : (i < n)%nat -> getitem (seq 0 n) i = Ok i.
Proof.
  intro H. unfold getitem. assert (E : nth_error (seq 0 n) i = Some (0 + i)%nat).
  { rewrite (nth_error_nth' _ 0%nat) by (now rewrite seq_length). now rewrite seq_nth. }
  now rewrite E.
Qed.
Lemma sample_spec r p : r <> [] -> exists pdf lo, p_human_choice r p = Ok pdf /\ lo 0%nat = 0 /\ lo (length r) = 1 /\
  (forall i a, nth_error pdf i = Some a -> lo (S i) - lo i = a) /\
  forall u, 0 <= u < 1 -> exists i, sample_human_choice r p u = Ok i /\ (i < length r)%nat /\
    forall j, (j < length r)%nat -> (j = i <-> lo j <= u < lo (S j)).
Proof.
  intro Hr. destruct (p_human_choice_luce r p Hr) as [pdf [E [Hl [Hd _]]]]. exists pdf, (prefix pdf). split; [exact E|].
  split; [reflexivity|]. split; [unfold prefix; rewrite <- Hl, firstn_all; apply Hd|]. split.
  - intros i a Ha. rewrite (prefix_step _ _ _ Ha). lra.
  - intros u Hu. destruct (np_choice_spec pdf u Hd Hu) as [H1 H2]. exists (np_choice pdf u). unfold sample_human_choice. rewrite E. cbn [bind].
    rewrite Hl in *. rewrite getitem_seq by auto. split; [reflexivity|]. split; [exact H1|]. intros j Hj. rewrite <- (H2 j Hj). split; congruence.
Qed.
Lemma samples_spec r p us : r <> [] -> sample_human_choices r p us = mapM (sample_human_choice r p) us.
Proof.
  intro Hr. destruct (p_human_choice_luce r p Hr) as [pdf [E _]]. unfold sample_human_choices, sample_human_choice. rewrite E. reflexivity.
Qed.

(** ---- Metropolis-Hastings ---- *)
Section MH.
  Context {X : Type} (ll : X -> option R) (prop : nat -> X -> X) (thr : nat -> R).
  Definition mh_next (i : nat) (x : X) : X := if accept (ll (prop i x)) (ll x) (thr i) then prop i x else x.
  Fixpoint chain (i : nat) (x : X) (n : nat) : X := match n with 0%nat => x | S n' => chain (S i) (mh_next i x) n' end.
  Lemma chain_S n : forall i x, chain i x (S n) = mh_next (i + n) (chain i x n).
  Proof.
    induction n as [|n IH]; intros i x; [simpl; now rewrite Nat.add_0_r|].
    change (chain i x (S (S n))) with (chain (S i) (mh_next i x) (S n)). rewrite IH. replace (S i + n)%nat with (i + S n)%nat by lia. reflexivity.
  Qed.
  Lemma mh_loop_chain burn n : forall i x,
    mh_loop ll prop thr burn n i x (ll x) = map (fun k => chain i x (S (k - i))) (filter (Nat.leb burn) (seq i n)).
  Proof.
    induction n as [|n IH]; intros i x; [reflexivity|].
    cbn [mh_loop]. assert (E : (if accept (ll (prop i x)) (ll x) (thr i) then (prop i x, ll (prop i x)) else (x, ll x)) = (mh_next i x, ll (mh_next i x))).
    { unfold mh_next. destruct (accept _ _ _); reflexivity. }
    rewrite E. cbv beta iota. rewrite IH. cbn [seq filter].
    assert (M : map (fun k => chain (S i) (mh_next i x) (S (k - S i))) (filter (Nat.leb burn) (seq (S i) n)) =
                map (fun k => chain i x (S (k - i))) (filter (Nat.leb burn) (seq (S i) n))).
    { apply map_ext_in. intros k Hk. apply filter_In in Hk. destruct Hk as [Hk _]. apply in_seq in Hk.
      replace (k - i)%nat with (S (k - S i)) by lia. reflexivity. }
    rewrite M. destruct (Nat.leb burn i); [|reflexivity]. cbn [map app]. rewrite Nat.sub_diag. reflexivity.
  Qed.
  Lemma filter_leb_seq burn n : filter (Nat.leb burn) (seq 0 (n + burn)) = seq burn n.
  Proof.
    rewrite Nat.add_comm, seq_app, filter_app. simpl.
    assert (E1 : filter (Nat.leb burn) (seq 0 burn) = []).
    { destruct (filter (Nat.leb burn) (seq 0 burn)) as [|y l] eqn:E; auto. assert (H : In y (y :: l)) by now left. rewrite <- E in H.
      apply filter_In in H. destruct H as [H1 H2]. apply in_seq in H1. apply Nat.leb_le in H2. lia. }
    assert (E2 : forall m b, (burn <= b)%nat -> filter (Nat.leb burn) (seq b m) = seq b m).
    { induction m as [|m IH]; intros b Hb; [reflexivity|]. simpl. rewrite (proj2 (Nat.leb_le burn b) Hb), IH by lia. reflexivity. }
    now rewrite E1, E2.
  Qed.
  Lemma mh_next_step i x : 0 <= thr i < 1 -> mh_step ll x (prop i x) (mh_next i x) (thr i).
  Proof.
    intro Hu. unfold mh_step, mh_next, accept. destruct (ll x) as [a|], (ll (prop i x)) as [b|]; auto.
    - split; [|split]; intro H.
      + rewrite (proj2 (Rltb_true _ _)); auto. assert (exp 0 <= exp (b - a)).
        { destruct (Rle_lt_or_eq_dec 0 (b - a)) as [K|K]; [lra|left; now apply exp_increasing|rewrite <- K; lra]. }
        rewrite exp_0 in H0. lra.
      + now rewrite (proj2 (Rltb_true _ _)).
      + now rewrite (proj2 (Rltb_false _ _)).
    - now rewrite (proj2 (Rltb_false _ _)) by lra.
  Qed.
  Lemma mh_spec x0 n burn : (forall i, 0 <= thr i < 1) -> exists c : nat -> X,
    c 0%nat = x0 /\ metropolis_hastings ll prop thr x0 n burn = map c (seq (S burn) n) /\
    forall i, mh_step ll (c i) (prop i (c i)) (c (S i)) (thr i).
  Proof.
    intro Hu. exists (chain 0 x0). split; [reflexivity|]. split.
    - unfold metropolis_hastings. rewrite mh_loop_chain, filter_leb_seq, <- seq_shift, map_map. apply map_ext. intro k. now rewrite Nat.sub_0_r.
    - intro i. rewrite chain_S. now apply mh_next_step.
  Qed.
End MH.

(** ---- gamma ---- *)
Lemma gamma_clip_id x : 1 / 1000000 <= x -> gamma_clip x = x.
Proof. intro H. unfold gamma_clip. now rewrite (proj2 (Rltb_false _ _) H). Qed.
Lemma log_pdf_spec g x k theta : 0 < g k -> 0 < theta -> 1 / 1000000 <= x ->
  0 < pdf_gamma g x k theta /\ log_pdf_gamma g x k theta = Some (ln (pdf_gamma g x k theta)).
Proof.
  intros Hg Ht Hx. assert (Hx0 : 0 < x) by lra.
  assert (T : 0 < 1 / (g k * Rpower theta k)). { apply Rdiv_lt_0_compat; [lra|]. apply Rmult_lt_0_compat; auto. apply exp_pos. }
  assert (P : 0 < Rpower x (k - 1)) by apply exp_pos. assert (Q : 0 < exp (- x / theta)) by apply exp_pos.
  unfold pdf_gamma. split; [apply Rmult_lt_0_compat; [now apply Rmult_lt_0_compat|auto]|].
  unfold log_pdf_gamma. rewrite (proj2 (Rltb_false x 0)) by lra. rewrite gamma_clip_id by auto. f_equal.
  rewrite ln_mult by (auto; now apply Rmult_lt_0_compat). rewrite ln_mult by auto. rewrite ln_exp. unfold Rpower. rewrite ln_exp. unfold Rdiv. lra.
Qed.
Lemma log_pdf_derive g x k theta : theta <> 0 -> 1 / 1000000 < x ->
  is_derive (fun y => match log_pdf_gamma g y k theta with Some v => v | None => 0 end) x (d_log_pdf_gamma x k theta).
Proof.
  intros Ht Hx. unfold d_log_pdf_gamma. rewrite gamma_clip_id by lra.
  apply (is_derive_ext_loc (fun y => ln (1 / (g k * Rpower theta k)) + (k - 1) * ln y - y / theta)).
  - exists (mkposreal (x - 1 / 1000000) ltac:(lra)). intros y Hy. unfold ball in Hy. simpl in Hy. unfold AbsRing_ball in Hy.
    unfold abs, minus, plus, opp in Hy. simpl in Hy. apply Rabs_def2 in Hy.
    unfold log_pdf_gamma. rewrite (proj2 (Rltb_false y 0)) by lra. rewrite gamma_clip_id by lra. reflexivity.
  - auto_derive; [lra|]. field. lra.
Qed.
Lemma log_pdf_none g x k theta : log_pdf_gamma g x k theta = None <-> x < 0.
Proof.
  unfold log_pdf_gamma. destruct (Rltb x 0) eqn:E; [apply Rltb_true in E|apply Rltb_false in E]; split; intro; auto; [discriminate|lra].
Qed.
Lemma log_pdf_clipped :
  is_derive (fun y => match log_pdf_gamma (fun _ => 1) y 2 1 with Some v => v | None => 0 end) (1 / 2000000) 0 /\ d_log_pdf_gamma (1 / 2000000) 2 1 <> 0.
Proof.
  split.
  - apply (is_derive_ext_loc (fun y => ln (1 / (1 * Rpower 1 2)) + (2 - 1) * ln (1 / 1000000) - 1 / 1000000 / 1)).
    + exists (mkposreal (1 / 2000000) ltac:(lra)). intros y Hy. unfold ball in Hy. simpl in Hy. unfold AbsRing_ball in Hy.
      unfold abs, minus, plus, opp in Hy. simpl in Hy. apply Rabs_def2 in Hy.
      unfold log_pdf_gamma, gamma_clip. rewrite (proj2 (Rltb_false y 0)) by lra. rewrite (proj2 (Rltb_true y _)) by lra. reflexivity.
    + auto_derive; auto.
  - unfold d_log_pdf_gamma, gamma_clip. rewrite (proj2 (Rltb_true _ _)) by lra. lra.
Qed.
Lemma p_human_choice_exact r p : r <> [] -> exists out, p_human_choice r p = Ok out /\ luce p r out /\ forall out', luce p r out' -> out' = out.
Proof.
  intro Hr. destruct (p_human_choice_luce r p Hr) as [out [E L]]. exists out. split; auto. split; auto. intros out' L'. eapply luce_unique; eauto.
Qed.
Lemma p_human_choice_ranks r p out i j a b pa pb : 0 < p -> p_human_choice r p = Ok out ->
  nth_error r i = Some a -> nth_error r j = Some b -> nth_error out i = Some pa -> nth_error out j = Some pb -> (a < b <-> pa < pb).
Proof.
  intros Hp E Ha. assert (Hr : r <> []) by (intro C; subst; destruct i; discriminate).
  destruct (p_human_choice_luce r p Hr) as [out' [E' L]]. rewrite E in E'. inversion E'; subst. intros. eapply luce_ranks; eauto.
Qed.
Lemma mh_length {X} (ll : X -> option R) prop thr x0 n burn : length (metropolis_hastings ll prop thr x0 n burn) = n.
Proof. unfold metropolis_hastings. rewrite mh_loop_chain, filter_leb_seq, map_length. apply seq_length. Qed.
