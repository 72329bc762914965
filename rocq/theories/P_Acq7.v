(** Alignment matrices as a whole. *)
From Coq Require Import Lra.
From Verif Require Import M_RBase P_RBase S_Psd P_Psd M_Fake M_OrdProbit M_Select M_Info P_Info P_Info2 P_Info3 P_User S_User M_Acq S_Acq P_Acq P_Acq2 P_Acq3 P_Acq4 P_Acq6 M_Normal M_PrefProbit P_Normal.
From Coq Require Import Reals Lra Lia List.
From Verif Require Import S_Psd P_Psd.
Import ListNotations.
Local Open Scope R_scope.

Lemma mentry_map2 (g : list R -> list R -> R) rows1 rows2 i j : (i < length rows1)%nat -> (j < length rows2)%nat ->
  mentry (map (fun ri => map (fun rj => g ri rj) rows2) rows1) i j = g (nth i rows1 []) (nth j rows2 []).
Proof.
  intros Hi Hj. unfold mentry. rewrite (nth_indep _ [] (map (fun rj => g [] rj) rows2)) by now rewrite map_length.
  rewrite (map_nth (fun ri => map (fun rj => g ri rj) rows2)). rewrite (nth_indep _ 0 (g (nth i rows1 []) [])) by now rewrite map_length.
  now rewrite map_nth.
Qed.
Lemma alignment_entry k s Qs nrep rows m i j : (2 <= nrep)%nat -> alignment k s Qs nrep rows = Some m -> (i < length rows)%nat -> (j < length rows)%nat ->
  mentry m i j = align_entry k s Qs (nth i rows []) (nth j rows []).
Proof.
  intros Hn H Hi Hj. unfold alignment in H. replace (Nat.ltb nrep 2) with false in H by (symmetry; apply Nat.ltb_ge; lia).
  destruct k; try discriminate; injection H as <-;
  match goal with |- _ = align_entry ?k _ _ _ _ => exact (mentry_map2 (align_entry k s Qs) rows rows i j Hi Hj) end.
Qed.
Lemma alignment_shape k s Qs nrep rows m : alignment k s Qs nrep rows = Some m -> length m = length rows /\ forall r, In r m -> length r = length rows.
Proof.
  intro H. unfold alignment in H. destruct (Nat.ltb nrep 2).
  - inversion H; subst. split; [now rewrite map_length|]. intros r Hr. apply in_map_iff in Hr. destruct Hr as [x [<- _]]. now rewrite map_length.
  - destruct k; inversion H; subst; (split; [now rewrite map_length|]; intros r Hr; apply in_map_iff in Hr; destruct Hr as [x [<- _]]; now rewrite map_length).
Qed.
Lemma nth_zero_rows (rows : list (list R)) i j : nth j (nth i (map (fun _ => map (fun _ : list R => 0) rows) rows) []) 0 = 0.
Proof.
  destruct (nth_in_or_default i (map (fun _ => map (fun _ : list R => 0) rows) rows) []) as [H | ->]; [|now destruct j].
  apply in_map_iff in H. destruct H as [x [<- _]]. destruct (nth_in_or_default j (map (fun _ : list R => 0) rows) 0) as [K | ->]; auto.
  apply in_map_iff in K. now destruct K as [y [<- _]].
Qed.
Lemma alignment_single k s Qs rows m i j : alignment k s Qs 1 rows = Some m -> mentry m i j = 0.
Proof. intro H. cbn in H. inversion H; subst. apply nth_zero_rows. Qed.
Lemma alignment_sym k s Qs nrep rows m i j : (forall r, In r rows -> length r = nrep) -> alignment k s Qs nrep rows = Some m ->
  (i < length rows)%nat -> (j < length rows)%nat -> mentry m i j = mentry m j i.
Proof.
  intros HL H Hi Hj. destruct (le_lt_dec 2 nrep) as [L|L].
  - rewrite !(alignment_entry k s Qs nrep rows m) by auto. assert (Li := HL _ (nth_In rows [] Hi)). assert (Lj := HL _ (nth_In rows [] Hj)).
    assert (E : length (nth i rows []) = length (nth j rows [])) by congruence.
    destruct k; cbn [align_entry]; [apply rho_sym|apply loglik_sym|now apply epic_sym|now apply spearman_sym|reflexivity|reflexivity].
  - unfold alignment in H. replace (Nat.ltb nrep 2) with true in H by (symmetry; apply Nat.ltb_lt; lia). inversion H; subst. unfold mentry. now rewrite !nth_zero_rows.
Qed.
Lemma alignment_self k s Qs nrep rows m i j : k <> ALogLik -> (2 <= nrep)%nat -> proper_rows nrep rows -> alignment k s Qs nrep rows = Some m ->
  (i < length rows)%nat -> (j < length rows)%nat -> mentry m i j <= mentry m i i.
Proof.
  intros Hk Hn HR H Hi Hj. rewrite !(alignment_entry k s Qs nrep rows m) by auto.
  destruct (HR _ (nth_In rows [] Hi)) as [Li Ni]. destruct (HR _ (nth_In rows [] Hj)) as [Lj Nj].
  destruct k; cbn [align_entry]; try lra; [|congruence| |].
  - rewrite rho_self. apply rho_le0.
  - rewrite epic_self by auto. apply epic_range.
  - assert (K := spearman_self (fun x => x) (nth i rows []) Ni). rewrite map_id in K. rewrite K by (intros ? ? ? ?; auto). apply spearman_range.
Qed.
Definition lo_of (k : align_kind) : R := match k with ARho => - sqrt 2 | AEpic | ASpearman => -1 | _ => 1 end.
Definition hi_of (k : align_kind) : R := match k with ARho | AEpic => 0 | _ => 1 end.
Lemma alignment_range k s Qs nrep rows m i j : k <> ALogLik -> (2 <= nrep)%nat -> (forall r, In r rows -> length r = nrep) -> alignment k s Qs nrep rows = Some m ->
  (i < length rows)%nat -> (j < length rows)%nat -> lo_of k <= mentry m i j <= hi_of k.
Proof.
  intros Hk Hn HR H Hi Hj. rewrite !(alignment_entry k s Qs nrep rows m) by auto.
  assert (Li := HR _ (nth_In rows [] Hi)). assert (Lj := HR _ (nth_In rows [] Hj)).
  destruct k; cbn [align_entry lo_of hi_of]; try lra; [|congruence| |].
  - split; [apply rho_ge; [|congruence]|apply rho_le0]. intro E. rewrite E in Li. cbn in Li. lia.
  - apply epic_range.
  - apply spearman_range.
Qed.
Lemma alignment_loglik_range s Qs nrep rows m i j : (2 <= nrep)%nat -> Forall (fun Q => Q <> []) Qs -> alignment ALogLik s Qs nrep rows = Some m ->
  (i < length rows)%nat -> (j < length rows)%nat -> mentry m i j <= 0.
Proof. intros Hn HQ H Hi Hj. rewrite (alignment_entry ALogLik s Qs nrep rows m) by auto. now apply loglik_le0. Qed.
Lemma alignment_cpsd k s Qs nrep rows m : k <> ALogLik -> (2 <= nrep)%nat -> proper_rows nrep rows -> alignment k s Qs nrep rows = Some m ->
  conditionally_psd (length rows) (mentry m).
Proof.
  intros Hk Hn HR H. assert (HL : all_length nrep rows) by (intros r Hr; apply (HR r Hr)). assert (HN : forall r, In r rows -> not_constant r) by (intros r Hr; apply (HR r Hr)).
  apply (cpsd_ext _ (fun i j => align_entry k s Qs (nth i rows []) (nth j rows []))).
  { intros i j Hi Hj. symmetry. now apply alignment_entry with nrep. }
  destruct k; cbn [align_entry]; [now apply (rho_cpsd nrep)|congruence|now apply (epic_cpsd nrep)|apply psd_cpsd; now apply (spearman_cpsd nrep)| |].
  - intros c Hc. unfold qform. rewrite (sumn_ext _ _ (fun i => c i * sumn (length rows) c)).
    + rewrite Hc. rewrite sumn_zero by (intros; ring). lra.
    + intros i _. rewrite <- sumn_scale. apply sumn_ext. intros; ring.
  - intros c Hc. unfold qform. rewrite (sumn_ext _ _ (fun i => c i * sumn (length rows) c)).
    + rewrite Hc. rewrite sumn_zero by (intros; ring). lra.
    + intros i _. rewrite <- sumn_scale. apply sumn_ext. intros; ring.
Qed.
Lemma asking_pair k s Qs nrep rows m n p a b : k <> ALogLik -> (2 <= nrep)%nat -> rows <> [] -> proper_rows nrep rows -> alignment k s Qs nrep rows = Some m ->
  answer_probabilities (length rows) p a b -> mean_entry (length rows) (mentry m) <= pair_align (length rows) n (mentry m) p a b.
Proof.
  intros Hk Hn Hr HR H Hp. apply pair_align_gain; auto; [destruct rows; cbn; [congruence|lia]|]. eapply alignment_cpsd; eauto.
Qed.
Lemma asking_greedy k s Qs nrep rows m P prev c : k <> ALogLik -> (2 <= nrep)%nat -> rows <> [] -> proper_rows nrep rows -> alignment k s Qs nrep rows = Some m ->
  (forall k a b, 0 < P k a b) -> mean_entry (length rows) (mentry m) <= greedy_align (length rows) (mentry m) P prev c.
Proof.
  intros Hk Hn Hr HR H Hp. apply greedy_align_gain; auto; [destruct rows; cbn; [congruence|lia]|]. eapply alignment_cpsd; eauto.
Qed.
Lemma loglik_loss_ex : exists s Qs rows m p, (forall r, In r rows -> length r = 2%nat) /\ alignment ALogLik s Qs 2 rows = Some m /\ answer_probabilities (length rows) p 0 1 /\
  (exists cands, forall k, p k = probit_of s (nth k cands [])) /\
  forall n, pair_align (length rows) n (mentry m) p 0 1 < mean_entry (length rows) (mentry m).
Proof.
  exists 1, [[0; 1]%nat], lr_rep, (map (fun ri => map (fun rj => align_entry ALogLik 1 [[0; 1]%nat] ri rj) lr_rep) lr_rep), lr_p.
  split; [intros r [<- | [<- | [<- | []]]]; reflexivity|]. split; [reflexivity|]. split; [exact lr_answers|]. split; [exists lr_cand; reflexivity|]. intro n.
  set (m := map _ lr_rep). change (length lr_rep) with 3%nat.
  assert (E : forall i j, (i < 3)%nat -> (j < 3)%nat -> mentry m i j = lr_f i j) by (intros i j Hi Hj; apply (mentry_map2 (align_entry ALogLik 1 [[0; 1]%nat])); auto).
  rewrite pair_align_ratio. unfold ratio. rewrite !(qform_ext 3 (mentry m) lr_f _ _ E (fun i _ => eq_refl)).
  assert (K := loglik_loss n). rewrite pair_align_ratio in K. unfold ratio in K. unfold mean_entry in *.
  rewrite (sumn_ext 3 (fun i => sumn 3 (mentry m i)) (fun i => sumn 3 (lr_f i))) by (intros i Hi; apply sumn_ext; intros j Hj; now apply E). exact K.
Qed.
Lemma loglik_self_ex : exists s Qs rows m, proper_rows 2 rows /\ alignment ALogLik s Qs 2 rows = Some m /\ mentry m 0 0 < mentry m 0 1.
Proof.
  exists 1, [[0; 1]%nat], [[1; 0]; [2; 0]], (map (fun ri => map (fun rj => align_entry ALogLik 1 [[0; 1]%nat] ri rj) [[1; 0]; [2; 0]]) [[1; 0]; [2; 0]]).
  split; [|split; [reflexivity|]].
  - intros r [<- | [<- | []]]; (split; [reflexivity|]); [exists 1, 0|exists 2, 0]; (split; [now left|split; [right; now left|lra]]).
  - exact loglik_self_not_best.
Qed.
Lemma between_same k s Qs nrep rows : (2 <= nrep)%nat -> k = AEpic \/ k = ASpearman \/ k = AOne -> alignment_between k nrep rows rows = Ok (alignment k s Qs nrep rows).
Proof.
  intros Hn Hk. unfold alignment_between, alignment. rewrite Nat.eqb_refl. cbn [negb]. replace (Nat.ltb nrep 2) with false by (symmetry; apply Nat.ltb_ge; lia).
  destruct Hk as [-> | [-> | ->]]; reflexivity.
Qed.
Lemma between_swap k nrep r1 r2 m m' i j : (2 <= nrep)%nat -> (forall r, In r (r1 ++ r2) -> length r = nrep) ->
  alignment_between k nrep r1 r2 = Ok (Some m) -> alignment_between k nrep r2 r1 = Ok (Some m') ->
  (i < length r1)%nat -> (j < length r2)%nat -> mentry m i j = mentry m' j i.
Proof.
  intros Hn HL H H' Hi Hj. assert (E : length (nth i r1 []) = length (nth j r2 [])).
  { rewrite (HL (nth i r1 [])) by (apply in_or_app; left; now apply nth_In). rewrite (HL (nth j r2 [])) by (apply in_or_app; right; now apply nth_In). reflexivity. }
  unfold alignment_between in *. destruct (Nat.eqb_spec (length r1) (length r2)) as [EL|EL]; [|discriminate]. rewrite <- EL, Nat.eqb_refl in H'. cbn [negb] in *.
  replace (Nat.ltb nrep 2) with false in * by (symmetry; apply Nat.ltb_ge; lia). destruct k; try discriminate; inversion H; inversion H'; subst.
  - rewrite !(mentry_map2 epic_entry) by auto. now apply epic_sym.
  - rewrite !(mentry_map2 spearman_entry) by auto. now apply spearman_sym.
  - rewrite (mentry_map2 (fun _ _ => 1)) by (auto; lia). now rewrite (mentry_map2 (fun _ _ => 1)) by (auto; lia).
Qed.
Lemma between_missing k nrep rows : (2 <= nrep)%nat -> k = ARho \/ k = ALogLik -> alignment_between k nrep rows rows = Raise NotImplementedError.
Proof.
  intros Hn Hk. unfold alignment_between. rewrite Nat.eqb_refl. cbn [negb]. replace (Nat.ltb nrep 2) with false by (symmetry; apply Nat.ltb_ge; lia).
  destruct Hk as [-> | ->]; reflexivity.
Qed.
Lemma greedy_query P prev c : greedy_p P prev c = query_p P (prev ++ [c]).
Proof. rewrite greedy_choice, query_choice, app_length, Nat.add_1_r. reflexivity. Qed.
