(** Lemmas about the tuning data and objectives of HumanChoiceUser2. *)
From Verif Require Import M_Base M_RBase M_Fake M_Normal M_User S_User P_Base P_RBase P_Normal P_User.
From Coq Require Import Reals Lra Lia.
Local Open Scope R_scope.

(** ---- the matrix of sampled utilities ---- *)
Definition problem_list (lens : list nat) : list (nat * nat) :=
  concat (map (fun il => map (fun j => (fst il, j)) (seq 0 (snd il))) (enumerate lens)).

Lemma map_add_seq c l : forall n, map (fun x => (c + x)%nat) (seq n l) = seq (c + n) l.
Proof. induction l as [|l IH]; intros n; cbn [seq map]; [reflexivity|]. f_equal. rewrite IH. f_equal. lia. Qed.
Lemma problem_list_equal l0 m : forall s, map (fun ij => (fst ij * l0 + snd ij)%nat)
   (concat (map (fun il => map (fun j => (fst il, j)) (seq 0 (snd il))) (enumerate_from s (repeat l0 m)))) = seq (s * l0) (m * l0).
Proof.
  induction m as [|m IH]; intros s; [reflexivity|]. cbn [repeat enumerate_from map concat fst snd].
  rewrite map_app, map_map, IH. cbn [fst snd].
  replace (S m * l0)%nat with (l0 + m * l0)%nat by lia. rewrite seq_app. f_equal.
  - etransitivity; [apply (map_add_seq (s * l0) l0 0)|]. f_equal. lia.
  - f_equal. lia.
Qed.

Lemma set_nth_app {A} (pre : list A) x y post : set_nth (length pre) x (pre ++ y :: post) = pre ++ x :: post.
Proof. induction pre; cbn; congruence. Qed.

Lemma fill_fold {A} (data : nat -> nat -> A) lens l0 n : nth_error lens 0 = Some l0 -> forall L pre,
  map (fun ij => (fst ij * l0 + snd ij)%nat) L = seq (length pre) (length L) -> (length pre + length L = n)%nat ->
  fold_left (fun (acc : result (list (option A))) ij =>
               do F <- acc; do idx <- f_row lens (fst ij) (snd ij);
               if Nat.ltb idx n then Ok (set_nth idx (Some (data (fst ij) (snd ij))) F) else Raise IndexError)
    L (Ok (pre ++ repeat None (length L))) = Ok (pre ++ map (fun ij => Some (data (fst ij) (snd ij))) L).
Proof.
  intros H0. induction L as [|[i j] L IH]; intros pre Hs Hn; [reflexivity|].
  cbn [fold_left length map repeat fst snd seq] in *. injection Hs as Hh Ht.
  unfold f_row at 2. unfold getitem. rewrite H0. cbn [bind]. rewrite Hh.
  destruct (Nat.ltb_spec (length pre) n); [|lia]. rewrite set_nth_app.
  replace (pre ++ Some (data i j) :: repeat None (length L)) with ((pre ++ [Some (data i j)]) ++ repeat None (length L))
    by now rewrite <- app_assoc.
  rewrite IH.
  - now rewrite <- app_assoc.
  - rewrite app_length. cbn [length]. rewrite Nat.add_1_r. exact Ht.
  - rewrite app_length. cbn. lia.
Qed.

Lemma fill_equal {A} (data : nat -> nat -> A) l0 m : (0 < m)%nat -> exists F, fill_F (repeat l0 m) data = Ok F /\ length F = (m * l0)%nat /\
  forall i j, (i < m)%nat -> (j < l0)%nat -> nth_error F (i * l0 + j) = Some (Some (data i j)).
Proof.
  intros Hm. pose proof (problem_list_equal l0 m 0) as HL. fold (enumerate (repeat l0 m)) in HL. fold (problem_list (repeat l0 m)) in HL.
  set (L := problem_list (repeat l0 m)) in *.
  assert (Hlen : length L = (m * l0)%nat) by (rewrite <- (map_length (fun ij => (fst ij * l0 + snd ij)%nat)), HL; apply seq_length).
  assert (H0 : nth_error (repeat l0 m) 0 = Some l0) by (destruct m; [lia|reflexivity]).
  exists (map (fun ij => Some (data (fst ij) (snd ij))) L). unfold fill_F. unfold getitem. rewrite H0. cbn [bind].
  fold (problem_list (repeat l0 m)). fold L. rewrite repeat_length.
  pose proof (fill_fold data (repeat l0 m) l0 (m * l0) H0 L []) as HF. cbn [app length] in HF. rewrite Hlen in HF.
  split; [apply HF; [exact HL|reflexivity]|]. split; [now rewrite map_length|].
  intros i j Hi Hj.
  assert (Hin : In (i, j) L).
  { unfold L, problem_list. apply in_concat. exists (map (fun j => (i, j)) (seq 0 l0)). split.
    - apply in_map_iff. exists (i, l0). split; [reflexivity|]. apply enumerate_nth. now apply nth_error_repeat.
    - apply in_map. apply in_seq. lia. }
  destruct (In_nth_error _ _ Hin) as [k Hk].
  assert (Hk' : nth_error (seq (0 * l0) (m * l0)) k = Some (i * l0 + j)%nat).
  { rewrite <- HL. apply (nth_map_some (fun ij => (fst ij * l0 + snd ij)%nat) _ _ (i, j) Hk). }
  assert (Hkl : (k < m * l0)%nat) by (rewrite <- Hlen; apply nth_error_Some; congruence).
  rewrite nth_error_nth' with (d := 0%nat) in Hk' by (rewrite seq_length; exact Hkl).
  rewrite seq_nth in Hk' by exact Hkl. injection Hk' as Hk'. replace (i * l0 + j)%nat with k by lia.
  apply (nth_map_some (fun ij => Some (data (fst ij) (snd ij))) _ _ (i, j) Hk).
Qed.

(** ---- nanmean ---- *)
Definition somes (l : list (option R)) : list R := concat (map (fun o => match o with Some x => [x] | None => [] end) l).
Lemma nanmean_somes l : nanmean l = match somes l with [] => None | v => Some (rsum v / INR (length v)) end.
Proof. unfold nanmean. fold (somes l). destruct (somes l); reflexivity. Qed.
Lemma mean_le v w : Forall2 Rle v w -> v <> [] -> rsum v / INR (length v) <= rsum w / INR (length w).
Proof.
  intros H Hv. assert (Hl : length v = length w) by (clear Hv; induction H; cbn; congruence).
  assert (Hs : rsum v <= rsum w) by (clear - H; induction H; cbn; lra).
  rewrite <- Hl. apply Rmult_le_compat_r; [|exact Hs]. left. apply Rinv_0_lt_compat. apply lt_0_INR. destruct v; [contradiction|cbn; lia].
Qed.
Lemma mean_lt v w : Forall2 Rlt v w -> v <> [] -> rsum v / INR (length v) < rsum w / INR (length w).
Proof.
  intros H Hv. assert (Hl : length v = length w) by (clear Hv; induction H; cbn; congruence).
  assert (Hs : rsum v < rsum w).
  { clear Hl. assert (G : forall a b, Forall2 Rlt a b -> rsum a <= rsum b) by (induction 1; cbn; lra).
    destruct H; [contradiction|]. cbn. pose proof (G _ _ H0). lra. }
  rewrite <- Hl. apply Rmult_lt_compat_r; [|exact Hs]. apply Rinv_0_lt_compat. apply lt_0_INR. destruct v; [contradiction|cbn; lia].
Qed.
Lemma mean_bounds v lo hi : v <> [] -> (forall x, In x v -> lo < x < hi) -> lo < rsum v / INR (length v) < hi.
Proof.
  intros Hv H. assert (Hn : 0 < INR (length v)) by (apply lt_0_INR; destruct v; [contradiction|cbn; lia]).
  assert (G : lo * INR (length v) < rsum v < hi * INR (length v)).
  { clear Hn. induction v as [|x v IH]; [contradiction|]. destruct (H x (or_introl eq_refl)) as [Ha Hb].
    change (length (x :: v)) with (S (length v)). rewrite S_INR. cbn [rsum].
    destruct v as [|y v]; [cbn; lra|].
    destruct IH as [I1 I2]; [discriminate|intros; apply H; now right|]. lra. }
  split.
  - apply (Rmult_lt_reg_r (INR (length v))); [exact Hn|]. unfold Rdiv. rewrite Rmult_assoc, Rinv_l by lra. lra.
  - apply (Rmult_lt_reg_r (INR (length v))); [exact Hn|]. unfold Rdiv. rewrite Rmult_assoc, Rinv_l by lra. lra.
Qed.

(** ---- the pairwise objective ---- *)
Notation luce2 := pair_probability.
Lemma luce2_range b d : 0 < luce2 b d < 1.
Proof.
  unfold pair_probability. pose proof (exp_pos (Rabs d * b)). split; [apply Rmult_lt_0_compat; [lra|apply Rinv_0_lt_compat; lra]|].
  apply (Rmult_lt_reg_r (1 + exp (Rabs d * b))); [lra|]. unfold Rdiv. rewrite Rmult_assoc, Rinv_l by lra. lra.
Qed.
Lemma luce2_le b c d : b <= c -> luce2 b d <= luce2 c d.
Proof.
  intros H. unfold pair_probability. assert (He : exp (Rabs d * b) <= exp (Rabs d * c)).
  { destruct (Req_dec (Rabs d * b) (Rabs d * c)) as [->|N]; [lra|]. left. apply exp_increasing.
    assert (Rabs d * b <= Rabs d * c) by (apply Rmult_le_compat_l; [apply Rabs_pos|exact H]). lra. }
  pose proof (exp_pos (Rabs d * b)). set (x := exp (Rabs d * b)) in *. set (y := exp (Rabs d * c)) in *. clearbody x y.
  apply (Rmult_le_reg_r ((1 + x) * (1 + y))); [apply Rmult_lt_0_compat; lra|].
  replace (x / (1 + x) * ((1 + x) * (1 + y))) with (x * (1 + y)) by (field; lra).
  replace (y / (1 + y) * ((1 + x) * (1 + y))) with (y * (1 + x)) by (field; lra). lra.
Qed.
Lemma obj_mean_eq b diffs : Forall (informative b) diffs -> diffs <> [] ->
  obj_mean b diffs = Some (rsum (map (luce2 b) diffs) / INR (length diffs)).
Proof.
  intros H Hne. unfold obj_mean. rewrite nanmean_somes.
  replace (somes _) with (map (luce2 b) diffs).
  - destruct diffs; [contradiction|]. cbn [map length]. now rewrite map_length.
  - symmetry. clear Hne. induction H as [|d diffs Hd H IH]; [reflexivity|]. cbn [map]. unfold somes in *. cbn [map concat]. rewrite IH.
    cbv zeta. fold (luce2 b d). rewrite (proj2 (Rltb_false _ _)) by exact Hd. reflexivity.
Qed.
Lemma obj_mean_mono b c diffs : b <= c -> diffs <> [] -> Forall (informative b) diffs ->
  exists m n, obj_mean b diffs = Some m /\ obj_mean c diffs = Some n /\ m <= n /\ 1/2 < m < 1 /\ 1/2 < n < 1.
Proof.
  intros Hbc Hne H. assert (H' : Forall (informative c) diffs).
  { eapply Forall_impl; [|exact H]. intros d Hd. unfold informative in *. pose proof (luce2_le b c d Hbc). lra. }
  eexists _, _. split; [now apply obj_mean_eq|]. split; [now apply obj_mean_eq|].
  assert (B : forall e, Forall (informative e) diffs -> 1/2 < rsum (map (luce2 e) diffs) / INR (length diffs) < 1).
  { intros e He. rewrite <- (map_length (luce2 e)). apply mean_bounds; [destruct diffs; [contradiction|discriminate]|].
    intros x Hx. apply in_map_iff in Hx. destruct Hx as [d [<- Hd]]. rewrite Forall_forall in He. specialize (He d Hd).
    unfold informative in He. pose proof (luce2_range e d). lra. }
  split; [|split; now apply B]. assert (G := mean_le (map (luce2 b) diffs) (map (luce2 c) diffs)).
  rewrite !map_length in G. apply G; [|destruct diffs; [contradiction|discriminate]].
  clear - Hbc. induction diffs; cbn; constructor; auto using luce2_le.
Qed.
Lemma obj_mean_drop : exists b c diffs m n, 0 < b < c /\ (forall d, In d diffs -> d <> 0) /\
  obj_mean b diffs = Some m /\ obj_mean c diffs = Some n /\ n < m.
Proof.
  set (r := 50000001 / 49999999). assert (Hr : 1 < r) by (unfold r; lra).
  assert (Hln : 0 < ln r) by (rewrite <- ln_1; apply ln_increasing; lra).
  assert (Hln2 : 0 < ln 2) by (rewrite <- ln_1; apply ln_increasing; lra).
  exists 1, 2, [ln 2; ln r / 2], (2/3), (13/20 + 1/200000000).
  assert (A1 : luce2 1 (ln 2) = 2/3).
  { unfold pair_probability. rewrite Rabs_pos_eq, Rmult_1_r, exp_ln by lra. lra. }
  assert (A2 : luce2 2 (ln 2) = 4/5).
  { unfold pair_probability. rewrite Rabs_pos_eq by lra. replace (ln 2 * 2) with (ln 2 + ln 2) by ring. rewrite exp_plus, exp_ln by lra. lra. }
  assert (A3 : luce2 1 (ln r / 2) < 50000001 / 100000000).
  { unfold pair_probability. rewrite Rabs_pos_eq, Rmult_1_r by lra.
    assert (exp (ln r / 2) < r) by (rewrite <- (exp_ln r) at 2 by lra; apply exp_increasing; lra).
    pose proof (exp_pos (ln r / 2)). set (x := exp (ln r / 2)) in *. clearbody x.
    apply (Rmult_lt_reg_r (1 + x)); [lra|]. unfold Rdiv at 1. rewrite Rmult_assoc, Rinv_l by lra. unfold r in *. lra. }
  assert (A4 : luce2 2 (ln r / 2) = 50000001 / 100000000).
  { unfold pair_probability. rewrite Rabs_pos_eq by lra. replace (ln r / 2 * 2) with (ln r) by field. rewrite exp_ln by lra. unfold r. lra. }
  split; [lra|]. split; [intros d [<- | [<- | []]]; lra|]. unfold obj_mean. cbn [map]. cbv zeta. fold (luce2 1 (ln 2)) (luce2 1 (ln r / 2)) (luce2 2 (ln 2)) (luce2 2 (ln r / 2)).
  rewrite A1, A2, A4. rewrite (proj2 (Rltb_true _ _) A3).
  rewrite (proj2 (Rltb_false (2/3) _)), (proj2 (Rltb_false (4/5) _)), (proj2 (Rltb_false (50000001 / 100000000) _)) by lra.
  unfold nanmean. cbn [map concat app rsum length INR]. split; [f_equal; lra|]. split; [f_equal; lra|lra].
Qed.

(** ---- the rating objective ---- *)
Definition pcorrect (s d : R) : R := ndtr (Rabs d * (1 / (sqrt 2 * s))).
Lemma rate_mean_somes s diffs : somes (map (fun d => let d' := Rabs d in
     if Req_EM_T d' 0 then None else Some (ndtr (d' * (1 / (sqrt 2 * s))))) diffs)
   = map (pcorrect s) (filter (fun d => if Req_EM_T (Rabs d) 0 then false else true) diffs).
Proof.
  induction diffs as [|d diffs IH]; [reflexivity|]. unfold somes in *. cbn [map concat filter]. rewrite IH. cbv zeta.
  destruct (Req_EM_T (Rabs d) 0); reflexivity.
Qed.
Lemma pcorrect_range s d : 0 < s -> Rabs d <> 0 -> 1/2 < pcorrect s d < 1.
Proof.
  intros Hs Hd. unfold pcorrect. split; [|apply ndtr_range]. rewrite <- ndtr_0. apply ndtr_increasing.
  assert (0 < Rabs d) by (pose proof (Rabs_pos d); lra).
  apply Rmult_lt_0_compat; [assumption|]. unfold Rdiv. rewrite Rmult_1_l. apply Rinv_0_lt_compat.
  apply Rmult_lt_0_compat; [apply sqrt_lt_R0; lra|exact Hs].
Qed.
Lemma pcorrect_decreasing s t d : 0 < s -> s < t -> Rabs d <> 0 -> pcorrect t d < pcorrect s d.
Proof.
  intros Hs Hst Hd. unfold pcorrect. apply ndtr_increasing. assert (0 < Rabs d) by (pose proof (Rabs_pos d); lra).
  apply Rmult_lt_compat_l; [assumption|]. unfold Rdiv. rewrite !Rmult_1_l.
  assert (0 < sqrt 2) by (apply sqrt_lt_R0; lra).
  assert (sqrt 2 * s < sqrt 2 * t) by now apply Rmult_lt_compat_l.
  assert (0 < sqrt 2 * s) by now apply Rmult_lt_0_compat.
  apply Rinv_lt_contravar; [apply Rmult_lt_0_compat; lra|assumption].
Qed.
Lemma rate_mean_spec s t diffs : 0 < s -> s < t ->
  ((forall d, In d diffs -> d = 0) -> rate_mean s diffs = None) /\
  ((exists d, In d diffs /\ d <> 0) -> exists m n, rate_mean s diffs = Some m /\ rate_mean t diffs = Some n /\ n < m /\ 1/2 < n < 1 /\ 1/2 < m < 1).
Proof.
  intros Hs Hst. unfold rate_mean. rewrite !nanmean_somes, !rate_mean_somes.
  set (ds := filter _ diffs). assert (Hds : forall d, In d ds <-> In d diffs /\ Rabs d <> 0).
  { intros d. unfold ds. rewrite filter_In. destruct (Req_EM_T (Rabs d) 0); split; intros [? ?]; split; auto; try discriminate. }
  clearbody ds. split.
  - intros H. destruct ds as [|d ds]; [reflexivity|]. exfalso. destruct (proj1 (Hds d) (or_introl eq_refl)) as [H1 H2].
    apply H2. rewrite (H d H1). apply Rabs_R0.
  - intros [d [Hd Hn]]. assert (Hne : ds <> []).
    { intros ->. apply (proj2 (Hds d)). split; [exact Hd|now apply Rabs_no_R0]. }
    assert (Ht : 0 < t) by lra.
    assert (Hm : forall e, map (pcorrect e) ds <> []) by (intros e; destruct ds; [contradiction|discriminate]).
    exists (rsum (map (pcorrect s) ds) / INR (length (map (pcorrect s) ds))), (rsum (map (pcorrect t) ds) / INR (length (map (pcorrect t) ds))).
    split; [destruct ds; [contradiction|reflexivity]|]. split; [destruct ds; [contradiction|reflexivity]|]. split.
    + apply mean_lt; [|apply Hm]. assert (Hall : forall e, In e ds -> Rabs e <> 0) by (intros e He; now apply Hds in He).
      clear - Hall Hs Hst. induction ds as [|e ds IH]; cbn; constructor; [apply pcorrect_decreasing; auto; apply Hall; now left|].
      apply IH. intros; apply Hall; now right.
    + split; (apply mean_bounds; [apply Hm|]); intros x Hx; apply in_map_iff in Hx; destruct Hx as [e [<- He]]; apply pcorrect_range; auto; now apply Hds in He.
Qed.
