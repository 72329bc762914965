(** Lemmas about the code of the information-gain learners. *)
From Coq Require Import Lra.
From Verif Require Import M_RBase P_RBase M_Util S_Util P_Util M_Select P_Select S_User M_Fake S_Fake P_Fake2 P_User M_OrdProbit M_Info S_Info P_Info.
Local Open Scope R_scope.

Definition sub_of (Q : list nat) (r : list R) : list R := map (fun i => nth i r 0) Q.
Lemma getitem_nth (r : list R) i : (i < length r)%nat -> getitem r i = Ok (nth i r 0).
Proof. intro H. unfold getitem. now rewrite (nth_error_nth' r 0 H). Qed.
Lemma take_cols_ok all_w Q : has_cols all_w Q -> take_cols all_w Q = Ok (map (sub_of Q) all_w).
Proof.
  intro H. unfold take_cols. apply mapM_map_ok. intros r Hr. apply mapM_map_ok. intros i Hi. apply getitem_nth. now apply H.
Qed.
Lemma choice_rows all_w Q pk : Q <> [] -> all_w <> [] -> exists ps,
  p_human_choice_rows (map (sub_of Q) all_w) pk = Ok ps /\ Forall2 (fun r p => luce pk (sub_of Q r) p) all_w ps.
Proof.
  intros HQ Hw. rewrite p_human_choice_rows_spec; [|now apply map_nonempty|].
  2:{ intros row Hr. apply in_map_iff in Hr. destruct Hr as [r [<- _]]. now apply map_nonempty. }
  clear Hw. induction all_w as [|r l IH]; [exists []; split; [reflexivity|constructor]|].
  destruct IH as [ps [E F]]. destruct (p_human_choice_luce (sub_of Q r) pk (map_nonempty _ _ HQ)) as [p [Ep Lp]].
  exists (p :: ps). cbn [map mapM]. rewrite Ep. cbn [bind]. rewrite E. cbn [bind]. split; [reflexivity|constructor; auto].
Qed.
Lemma Forall2_in_r {A B} (P : A -> B -> Prop) l m : Forall2 P l m -> forall y, In y m -> exists x, In x l /\ P x y.
Proof. induction 1 as [|x y l m H F IH]; [contradiction|]. intros z [<- | Hz]; [exists x; split; [now left|auto]|]. destruct (IH z Hz) as [w [? ?]]. exists w; split; [now right|auto]. Qed.
Lemma Forall2_in_l {A B} (P : A -> B -> Prop) l m : Forall2 P l m -> forall x, In x l -> exists y, In y m /\ P x y.
Proof. induction 1 as [|x y l m H F IH]; [contradiction|]. intros z [<- | Hz]; [exists y; split; [now left|auto]|]. destruct (IH z Hz) as [w [? ?]]. exists w; split; [now right|auto]. Qed.
Lemma Forall2_len {A B} (P : A -> B -> Prop) l m : Forall2 P l m -> length l = length m.
Proof. induction 1; simpl; auto. Qed.
Lemma sub_of_length Q r : length (sub_of Q r) = length Q.
Proof. unfold sub_of. apply map_length. Qed.
Lemma sub_of_nth Q r k i : nth_error Q k = Some i -> nth_error (sub_of Q r) k = Some (nth i r 0).
Proof. intro H. unfold sub_of. rewrite nth_error_map, H. reflexivity. Qed.

Lemma info_gain_code pk Q all_w : Q <> [] -> all_w <> [] -> has_cols all_w Q -> exists ps,
  Forall2 (fun r p => luce pk (sub_of Q r) p) all_w ps /\ (forall p, In p ps -> length p = length Q /\ distribution p) /\ ps <> [] /\
  length ps = length all_w /\ calc_info_gain (length all_w) pk Q all_w = Ok (gain (length Q) ps).
Proof.
  intros HQ Hw Hc. destruct (choice_rows all_w Q pk HQ Hw) as [ps [E F]]. exists ps.
  assert (Hps : forall p, In p ps -> length p = length Q /\ distribution p).
  { intros p Hp. destruct (Forall2_in_r _ _ _ F p Hp) as [r [_ [L [D _]]]]. rewrite sub_of_length in L. auto. }
  assert (Hl : length ps = length all_w) by (symmetry; eapply Forall2_len; eauto).
  assert (Hne : ps <> []) by (destruct ps; [destruct all_w; [congruence|discriminate]|discriminate]).
  split; [exact F|]. split; [exact Hps|]. split; [exact Hne|]. split; [exact Hl|].
  unfold calc_info_gain. rewrite take_cols_ok by auto. cbn [bind]. rewrite E. cbn [bind]. f_equal. rewrite <- Hl.
  apply gain_code; auto. destruct Q; [congruence|simpl; lia].
Qed.

Lemma info_gain_is_mi pk Q all_w : Q <> [] -> all_w <> [] -> has_cols all_w Q -> exists ps,
  Forall2 (fun r p => luce pk (map (fun i => nth i r 0) Q) p) all_w ps /\
  calc_info_gain (length all_w) pk Q all_w = Ok (mutual_information (length Q) ps).
Proof.
  intros HQ Hw Hc. destruct (info_gain_code pk Q all_w HQ Hw Hc) as [ps [F [Hps [Hne [Hl E]]]]]. exists ps. split; [exact F|].
  rewrite E. f_equal. apply gain_mi; auto. destruct Q; [congruence|simpl; lia].
Qed.
Lemma info_gain_range pk Q all_w g : Q <> [] -> all_w <> [] -> has_cols all_w Q -> calc_info_gain (length all_w) pk Q all_w = Ok g ->
  0 <= g /\ g <= ln (INR (length Q)) / ln 2 /\ g <= ln (INR (length all_w)) / ln 2.
Proof.
  intros HQ Hw Hc Eg. destruct (info_gain_code pk Q all_w HQ Hw Hc) as [ps [F [Hps [Hne [Hl E]]]]].
  rewrite E in Eg. inversion Eg. assert (Hn : (0 < length Q)%nat) by (destruct Q; [congruence|simpl; lia]). split; [|split].
  - now apply gain_ge0.
  - now apply gain_le_n.
  - rewrite <- Hl. now apply gain_le_M.
Qed.
Lemma luce_diff pk Q r r' p : pk <> 0 -> has_cols [r; r'] Q ->
  luce pk (sub_of Q r) p -> luce pk (sub_of Q r') p -> same_differences Q r r'.
Proof.
  intros Hpk Hc [L [D R]] [L' [D' R']] i j a b a' b' Hi Hj Ha Hb Ha' Hb'.
  apply In_nth_error in Hi. destruct Hi as [k Hk]. apply In_nth_error in Hj. destruct Hj as [k' Hk'].
  assert (Kk : (k < length p)%nat) by (rewrite L, sub_of_length; apply nth_error_Some; congruence).
  assert (Kk' : (k' < length p)%nat) by (rewrite L, sub_of_length; apply nth_error_Some; congruence).
  destruct (nth_error p k) as [x|] eqn:Ex; [|apply nth_error_None in Ex; lia].
  destruct (nth_error p k') as [y|] eqn:Ey; [|apply nth_error_None in Ey; lia].
  assert (E1 := R k k' _ _ _ _ (sub_of_nth Q r k i Hk) (sub_of_nth Q r k' j Hk') Ex Ey).
  assert (E2 := R' k k' _ _ _ _ (sub_of_nth Q r' k i Hk) (sub_of_nth Q r' k' j Hk') Ex Ey).
  rewrite (nth_error_nth _ _ 0 Ha), (nth_error_nth _ _ 0 Hb) in E1. rewrite (nth_error_nth _ _ 0 Ha'), (nth_error_nth _ _ 0 Hb') in E2.
  assert (Py : 0 < y) by (apply D; eapply nth_error_In; eauto).
  rewrite E1 in E2. apply Rmult_eq_reg_l in E2; [|lra]. apply exp_inv in E2. apply Rmult_eq_reg_l in E2; auto.
Qed.
Lemma diff_luce pk Q r r' p : has_cols [r; r'] Q -> same_differences Q r r' -> luce pk (sub_of Q r') p -> luce pk (sub_of Q r) p.
Proof.
  intros Hc S [L [D R]]. split; [now rewrite sub_of_length in *|]. split; [exact D|].
  intros k k' a b pa pb Ha Hb Hpa Hpb.
  unfold sub_of in Ha, Hb. apply nth_map_inv in Ha. destruct Ha as [i [Hi ->]]. apply nth_map_inv in Hb. destruct Hb as [j [Hj ->]].
  rewrite (R k k' _ _ _ _ (sub_of_nth Q r' k i Hi) (sub_of_nth Q r' k' j Hj) Hpa Hpb).
  assert (Li := nth_error_In _ _ Hi). assert (Lj := nth_error_In _ _ Hj).
  f_equal. f_equal. f_equal. symmetry. apply (S i j); auto; apply nth_error_nth'; apply Hc; simpl; auto.
Qed.
Lemma info_gain_zero pk Q all_w : pk <> 0 -> Q <> [] -> all_w <> [] -> has_cols all_w Q ->
  (calc_info_gain (length all_w) pk Q all_w = Ok 0 <-> forall r r', In r all_w -> In r' all_w -> same_differences Q r r').
Proof.
  intros Hpk HQ Hw Hc. destruct (info_gain_code pk Q all_w HQ Hw Hc) as [ps [F [Hps [Hne [Hl E]]]]]. rewrite E.
  assert (Hn : (0 < length Q)%nat) by (destruct Q; [congruence|simpl; lia]).
  assert (Hc2 : forall r r', In r all_w -> In r' all_w -> has_cols [r; r'] Q).
  { intros r r' Hr Hr' s i Hs Hi. apply Hc; auto. destruct Hs as [<- | [<- | []]]; auto. }
  split.
  - intros E0 r r' Hr Hr'. inversion E0 as [E1]. rewrite E1 in *. assert (Z := proj1 (gain_zero (length Q) ps Hn Hne Hps) E1).
    destruct (Forall2_in_l _ _ _ F r Hr) as [p [Hp Lp]]. destruct (Forall2_in_l _ _ _ F r' Hr') as [p' [Hp' Lp']].
    rewrite (Z p p' Hp Hp') in Lp. eapply luce_diff; eauto.
  - intro H. f_equal. apply gain_zero; auto. intros p p' Hp Hp'.
    destruct (Forall2_in_r _ _ _ F p Hp) as [r [Hr Lp]]. destruct (Forall2_in_r _ _ _ F p' Hp') as [r' [Hr' Lp']].
    apply (luce_unique pk (sub_of Q r)); auto. apply (diff_luce pk Q r r'); auto.
Qed.
(** greedy choice *)
Lemma R_order_ok : order_ok Rltb.
Proof.
  split.
  - intros a b c H1 H2. apply Rltb_false in H1, H2. apply Rltb_false. lra.
  - intros a b H. apply Rltb_true in H. apply Rltb_false. lra.
Qed.
Lemma pick_best (f : nat -> result R) ls : ls <> [] -> (forall i, In i ls -> exists v, f i = Ok v) ->
  exists i m, (do v <- mapM f ls; do b <- argmax Rltb v; do m <- getitem v b; do i <- getitem ls b; Ok (i, m)) = Ok (i, m) /\
   In i ls /\ f i = Ok m /\ forall j v, In j ls -> f j = Ok v -> v <= m.
Proof.
  intros Hne Ht. destruct (mapM_total _ _ Ht) as [vs E]. destruct (mapM_nth _ _ _ E) as [Hl Hn]. rewrite E. cbn [bind].
  assert (Hv : vs <> []) by (destruct ls; [congruence|destruct vs; discriminate]).
  destruct (argmax_first vs Hv) as [b [Eb Hb]]. rewrite Eb. cbn [bind]. destruct Hb as [m [Hb [Hmax _]]].
  unfold getitem at 1. rewrite Hb. cbn [bind]. unfold getitem. destruct (nth_error ls b) as [i|] eqn:Ei.
  2:{ apply nth_error_None in Ei. assert (b < length vs)%nat by (apply nth_error_Some; congruence). lia. }
  cbn [bind]. exists i, m. split; [reflexivity|]. destruct (Hn _ _ Ei) as [y [Hy Hf]]. rewrite Hb in Hy. inversion Hy; subst y.
  split; [eapply nth_error_In; eauto|]. split; [exact Hf|]. intros j v Hj Hfj. apply In_nth_error in Hj. destruct Hj as [q Hq].
  destruct (Hn _ _ Hq) as [y [Hy2 Hf2]]. rewrite Hfj in Hf2. inversion Hf2; subst y. eapply Hmax; eauto.
Qed.
Lemma pick_same (f : nat -> result R) i0 ls c : (forall i, In i (i0 :: ls) -> f i = Ok c) ->
  (do v <- mapM f (i0 :: ls); do b <- argmax Rltb v; do m <- getitem v b; do i <- getitem (i0 :: ls) b; Ok (i, m)) = Ok (i0, c).
Proof.
  intro H. assert (E : mapM f (i0 :: ls) = Ok (map (fun _ => c) (i0 :: ls))) by now apply mapM_map_ok.
  rewrite E. cbn [bind]. destruct (argmax_first (map (fun _ => c) (i0 :: ls))) as [b [Eb [m [Hb [Hmax Hfirst]]]]]; [discriminate|].
  rewrite Eb. cbn [bind]. destruct b as [|b].
  - cbn in Hb. inversion Hb; subst. reflexivity.
  - exfalso. assert (K := Hfirst 0%nat c ltac:(lia) eq_refl). apply nth_map_inv in Hb. destruct Hb as [? [_ ->]]. lra.
Qed.
Lemma has_cols_snoc all_w prev i : has_cols all_w (prev ++ [i]) <-> has_cols all_w prev /\ has_cols all_w [i].
Proof.
  unfold has_cols. split.
  - intro H. split; intros r j Hr Hj; apply H; auto; apply in_or_app; auto.
  - intros [H1 H2] r j Hr Hj. apply in_app_or in Hj. destruct Hj; auto.
Qed.
Lemma mutual_greedy_best pk all_w indicies prev : indicies <> [] -> all_w <> [] -> has_cols all_w (prev ++ indicies) ->
  exists i g, mutual_greedy (length all_w) pk all_w indicies prev = Ok (i, g) /\ In i indicies /\
    calc_info_gain (length all_w) pk (prev ++ [i]) all_w = Ok g /\
    forall j v, In j indicies -> calc_info_gain (length all_w) pk (prev ++ [j]) all_w = Ok v -> v <= g.
Proof.
  intros Hi Hw Hc. unfold mutual_greedy. apply (pick_best (fun idx => calc_info_gain (length all_w) pk (prev ++ [idx]) all_w)); auto.
  intros i Hin. destruct (info_gain_code pk (prev ++ [i]) all_w) as [ps [_ [_ [_ [_ E]]]]]; eauto.
  - destruct prev; discriminate.
  - intros r j Hr Hj. apply Hc; auto. apply in_app_or in Hj. apply in_or_app. destruct Hj as [Hj | [<- | []]]; auto.
Qed.
Lemma single_gain pk all_w i : pk <> 0 -> all_w <> [] -> has_cols all_w [i] -> calc_info_gain (length all_w) pk [i] all_w = Ok 0.
Proof.
  intros Hpk Hw Hc. apply info_gain_zero; auto; [discriminate|].
  intros r r' Hr Hr' j k a b a' b' [<- | []] [<- | []] Ha Hb Ha' Hb'. rewrite Ha in Hb. inversion Hb. rewrite Ha' in Hb'. inversion Hb'. lra.
Qed.
Lemma mutual_first pk all_w i0 ls : pk <> 0 -> all_w <> [] -> has_cols all_w (i0 :: ls) ->
  mutual_greedy (length all_w) pk all_w (i0 :: ls) [] = Ok (i0, 0).
Proof.
  intros Hpk Hw Hc. unfold mutual_greedy. apply pick_same. intros i Hi. apply single_gain; auto.
  intros r j Hr [<- | []]. now apply Hc.
Qed.
