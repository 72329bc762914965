From Verif Require Import M_Base P_Base P_Sort M_Pairs M_KFold S_KFold.
From Coq Require Import Permutation Sorted.

Definition consistent (N : nat) (selected remaining : list nat) : Prop :=
  NoDup remaining /\ (forall x, In x remaining -> x < N) /\
  (forall x, x < N -> (In x selected <-> ~ In x remaining)).

Lemma consistent_move N sel rem x : consistent N sel rem -> In x rem ->
  consistent N (x :: sel) (remove_first x rem).
Proof.
  intros [Hn [Hr Hc]] Hx. split; [now apply remove_first_NoDup|]. split.
  - intros y Hy. apply Hr. eapply remove_first_In; eauto.
  - intros y Hy. rewrite remove_first_In_iff by auto. simpl. rewrite (Hc y Hy).
    destruct (in_dec Nat.eq_dec y rem) as [Hi|Hi]; [|tauto].
    destruct (Nat.eq_dec y x) as [->|Hne]; [tauto|]. split; [intros [E|E]; [congruence|tauto]|tauto].
Qed.

Lemma fill_split_spec N M shuffled : (forall x, In x shuffled -> x < N) ->
  forall split sel rem, consistent N sel rem ->
  let '(split', sel', rem') := fill_split M shuffled split sel rem in
  consistent N sel' rem' /\
  (exists added, split' = split ++ added /\ Permutation rem (added ++ rem') /\ (forall x, In x added -> In x shuffled)) /\
  (length split' <= M \/ split' = split).
Proof.
  induction shuffled as [|s l IH]; intros Hl split sel rem HC; simpl.
  - split; auto. split; [|auto]. exists []. rewrite app_nil_r. repeat split; auto.
  - destruct (Nat.leb_spec M (length split)) as [Hm|Hm].
    + split; auto. split; [|auto]. exists []. rewrite app_nil_r. repeat split; auto. simpl; tauto.
    + destruct (mem s sel) eqn:Es; simpl.
      * assert (Hl' : forall x, In x l -> x < N) by (intros; apply Hl; simpl; auto).
        specialize (IH Hl' split sel rem HC). destruct (fill_split M l split sel rem) as [[sp' se'] re'].
        destruct IH as [H1 [[added [H2 [H3 H4]]] H5]]. split; auto. split; auto. exists added. repeat split; auto.
      * apply mem_false in Es.
        assert (Hs : In s rem).
        { destruct HC as [_ [_ HC]]. destruct (in_dec Nat.eq_dec s rem); auto. exfalso.
          apply Es. apply HC; auto. apply Hl; simpl; auto. }
        assert (Hl' : forall x, In x l -> x < N) by (intros; apply Hl; simpl; auto).
        specialize (IH Hl' (split ++ [s]) (s :: sel) (remove_first s rem) (consistent_move _ _ _ _ HC Hs)).
        destruct (fill_split M l (split ++ [s]) (s :: sel) (remove_first s rem)) as [[sp' se'] re'].
        destruct IH as [H1 [[added [H2 [H3 H4]]] H5]]. split; auto. split.
        -- exists (s :: added). subst sp'. rewrite <- app_assoc. simpl. repeat split; auto.
           ++ rewrite (remove_first_perm s rem Hs). now constructor.
           ++ intros x [->|Hx]; simpl; auto.
        -- destruct H5 as [H5| ->]; auto. left. rewrite app_length. simpl. lia.
Qed.

Record KInv (N k M : nat) (splits : list (list nat)) (sel rem : list nat) : Prop := {
  k_perm : Permutation (concat splits ++ rem) (seq 0 N);
  k_cons : consistent N sel rem;
  k_len : length splits = k;
  k_size : Forall (fun s => length s <= M) splits
}.

Lemma concat_set_nth (splits : list (list nat)) i s new :
  nth_error splits i = Some s ->
  Permutation (concat (set_nth i (s ++ new) splits)) (concat splits ++ new).
Proof.
  intro H. destruct (nth_error_split2 _ _ _ H) as [l1 [l2 [-> [_ E]]]]. rewrite E.
  rewrite !concat_app. simpl. rewrite <- !app_assoc. apply Permutation_app_head.
  apply Permutation_app_head. apply Permutation_app_comm.
Qed.
Lemma concat_length_min (splits : list (list nat)) m :
  Forall (fun s => m <= length s) splits -> m * length splits <= length (concat splits).
Proof.
  induction 1 as [|s l Hs H IH]; simpl; [lia|]. rewrite app_length. nia.
Qed.
Lemma Forall_set_nth {A} (P : A -> Prop) i x l : Forall P l -> P x -> Forall P (set_nth i x l).
Proof. intros H Hx. revert i. induction H as [|y l Hy H IH]; intros [|i]; simpl; constructor; auto. Qed.

Definition conn_ok (N : nat) (conn : list (list nat)) : Prop :=
  length conn = N /\ Forall (fun c => forall x, In x c -> x < N) conn.

Lemma ceil_bound N k m : 0 < k -> m * k < N -> m + 1 <= (N + k - 1) / k.
Proof.
  intros Hk H. apply Nat.div_le_lower_bound; [lia|]. nia.
Qed.

Lemma kfold_loop_spec rnd shuf N k conn :
  (forall t l, Permutation (shuf t l) l) -> 0 < k -> conn_ok N conn ->
  forall fuel t splits sel rem, length rem < fuel ->
  KInv N k ((N + k - 1) / k) splits sel rem ->
  exists res, kfold_loop fuel rnd shuf ((N + k - 1) / k) conn t splits sel rem = Ok res /\
              KInv N k ((N + k - 1) / k) res (seq 0 N) [].
Proof.
  intros Hshuf Hk [Hcl Hcx]. set (M := (N + k - 1) / k).
  induction fuel as [|fuel IH]; intros t splits sel rem Hf I; [lia|]. simpl.
  destruct rem as [|r0 rem0] eqn:Erem.
  - exists splits. split; auto. destruct I as [H1 [Ha [Hb Hc]] H3 H4]. constructor; auto.
    split; [constructor|]. split; [simpl; tauto|]. intros x Hx. rewrite in_seq. simpl. split; [tauto|]. lia.
  - assert (Hne : r0 :: rem0 <> []) by discriminate. revert Hf I Hne. generalize (r0 :: rem0). clear Erem r0 rem0 rem.
    intros rem Hf I Hne.
    assert (Hrl : 0 < length rem) by (destruct rem; [congruence|simpl; lia]).
    assert (Hlt : rnd t mod length rem < length rem) by (apply Nat.mod_upper_bound; lia).
    destruct (nth_error rem (rnd t mod length rem)) as [idx|] eqn:Eidx; [|apply nth_error_None in Eidx; lia].
    unfold getitem at 1. rewrite Eidx. cbn [bind].
    assert (Hin : In idx rem) by (eapply nth_error_In; eauto).
    destruct I as [Hp HC Hlen Hsize].
    assert (HidxN : idx < N) by (destruct HC as [_ [HC _]]; auto).
    destruct (argmin_nat_spec (map (@length nat) splits)) as [m [Hm Hmin]].
    { destruct splits; [simpl in Hlen; lia | discriminate]. }
    set (si := argmin_nat (map (@length nat) splits)) in *.
    rewrite nth_error_map in Hm. destruct (nth_error splits si) as [split|] eqn:Esp; [|discriminate].
    simpl in Hm. assert (Hm' : length split = m) by congruence. clear Hm.
    unfold getitem at 1. rewrite Esp. cbn [bind].
    destruct (nth_error conn idx) as [c|] eqn:Ec; [|apply nth_error_None in Ec; lia].
    unfold getitem at 1. rewrite Ec. cbn [bind].
    assert (Hc : forall x, In x (shuf t c) -> x < N).
    { intros x Hx. apply (Permutation_in _ (Hshuf t c)) in Hx. rewrite Forall_forall in Hcx.
      apply (Hcx c); auto. eapply nth_error_In; eauto. }
    pose proof (fill_split_spec N M (shuf t c) Hc (split ++ [idx]) (idx :: sel) (remove_first idx rem)
                  (consistent_move _ _ _ _ HC Hin)) as HF.
    destruct (fill_split M (shuf t c) (split ++ [idx]) (idx :: sel) (remove_first idx rem)) as [[sp' se'] re'].
    destruct HF as [HC' [[added [Esp' [Hpr _]]] Hsz]].
    assert (Hall : Permutation rem ((idx :: added) ++ re')).
    { rewrite (remove_first_perm idx rem Hin). simpl. now constructor. }
    apply IH.
    + apply Permutation_length in Hall. rewrite Hall in Hf. rewrite app_length in Hf. simpl in Hf. lia.
    + constructor; auto.
      * subst sp'. rewrite <- app_assoc. rewrite (concat_set_nth splits si split ([idx] ++ added)) by auto.
        rewrite <- app_assoc. rewrite <- Hp. apply Permutation_app_head. symmetry. exact Hall.
      * now rewrite set_nth_length.
      * apply Forall_set_nth; auto. destruct Hsz as [Hsz|Hsz]; auto. rewrite Hsz, app_length. simpl.
        rewrite Hm'. apply ceil_bound; auto.
        assert (Hsum : length (concat splits) + length rem = N).
        { apply Permutation_length in Hp. rewrite app_length, seq_length in Hp. exact Hp. }
        assert (m * length splits <= length (concat splits)); [|rewrite Hlen in *; lia].
        apply concat_length_min. rewrite Forall_forall. intros x Hx. apply Hmin. apply in_map_iff. eauto.
Qed.

Lemma set_add_In x y l : In y (set_add x l) <-> y = x \/ In y l.
Proof.
  unfold set_add. destruct (mem x l) eqn:E.
  - apply mem_In in E. split; [auto|]. intros [->|H]; auto.
  - rewrite in_app_iff. simpl. intuition.
Qed.
Definition pairs_in_range (N : nat) (ps : list pair) : Prop :=
  Forall (fun p : pair => snd (fst p) < N /\ snd p < N) ps.

Lemma conn_add_ok N conn u v : conn_ok N conn -> u < N -> v < N ->
  exists c, conn_add conn u v = Ok c /\ conn_ok N c.
Proof.
  intros [Hl Hx] Hu Hv. unfold conn_add, getitem.
  destruct (nth_error conn u) as [cu|] eqn:E; [|apply nth_error_None in E; lia].
  simpl. eexists. split; [reflexivity|]. split; [now rewrite set_nth_length|].
  apply Forall_set_nth; auto. intros x Hi. apply set_add_In in Hi. destruct Hi as [->|Hi]; auto.
  rewrite Forall_forall in Hx. eapply Hx; eauto. eapply nth_error_In; eauto.
Qed.
Lemma build_conn_ok N ps : pairs_in_range N ps -> forall conn, conn_ok N conn ->
  exists c, build_conn conn ps = Ok c /\ conn_ok N c.
Proof.
  induction 1 as [|[[d u] v] ps [Hu Hv] H IH]; intros conn Hc; simpl; [exists conn; auto|].
  simpl in Hu, Hv. destruct (conn_add_ok N conn u v Hc Hu Hv) as [c1 [-> H1]]. simpl.
  destruct (conn_add_ok N c1 v u H1 Hv Hu) as [c2 [-> H2]]. simpl. auto.
Qed.
Lemma conn_add_raise N conn u v : conn_ok N conn -> v < N ->
  (exists c, conn_add conn u v = Ok c /\ conn_ok N c /\ u < N) \/ (conn_add conn u v = Raise IndexError /\ N <= u).
Proof.
  intros Hc Hv. destruct (Nat.lt_ge_cases u N) as [Hu|Hu].
  - left. destruct (conn_add_ok N conn u v Hc Hu Hv) as [c [E K]]. eauto.
  - right. split; auto. unfold conn_add, getitem. destruct Hc as [Hl _].
    replace (nth_error conn u) with (@None (list nat)); auto. symmetry. apply nth_error_None. lia.
Qed.
Lemma build_conn_inv N ps : forall conn c, length conn = N -> build_conn conn ps = Ok c -> pairs_in_range N ps.
Proof.
  induction ps as [|[[d u] v] ps IH]; intros conn c Hc H; simpl in *; [constructor|].
  unfold conn_add at 1 in H. unfold getitem in H. destruct (nth_error conn u) as [cu|] eqn:Eu; [|discriminate].
  simpl in H. unfold conn_add in H. unfold getitem in H.
  destruct (nth_error (set_nth u (set_add v cu) conn) v) as [cv|] eqn:Ev; [|discriminate]. simpl in H.
  assert (Hu : u < N) by (rewrite <- Hc; apply nth_error_Some; congruence).
  assert (Hv : v < N) by (rewrite <- Hc, <- (set_nth_length u (set_add v cu) conn); apply nth_error_Some; congruence).
  constructor; [simpl; auto|]. eapply IH; [|exact H]. now rewrite !set_nth_length.
Qed.

Lemma conn_ok_init N : conn_ok N (repeat [] N).
Proof.
  split; [apply repeat_length|]. rewrite Forall_forall. intros c Hc. apply repeat_spec in Hc. subst. simpl. tauto.
Qed.
Lemma KInv_init N k : KInv N k ((N + k - 1) / k) (repeat [] k) [] (seq 0 N).
Proof.
  constructor.
  - assert (E : concat (repeat (@nil nat) k) = []) by (clear; induction k; simpl; auto). rewrite E. reflexivity.
  - split; [apply seq_NoDup|]. split; [intros x Hx; apply in_seq in Hx; lia|].
    intros x Hx. rewrite in_seq. simpl. split; [tauto|]. lia.
  - apply repeat_length.
  - rewrite Forall_forall. intros c Hc. apply repeat_spec in Hc. subst. simpl. lia.
Qed.

Definition y0_in_range (N : nat) (y0 : option (list pair)) : Prop :=
  match y0 with None => True | Some ps => pairs_in_range N ps end.

Lemma concat_map_sort l : Permutation (concat (map sort_nat l)) (concat l).
Proof. induction l as [|x l IH]; simpl; [reflexivity|]. rewrite sort_nat_perm. now apply Permutation_app_head. Qed.

Lemma k_fold_core rnd shuf N y0 k' :
  (forall t l, Permutation (shuf t l) l) -> y0_in_range N y0 -> 0 < k' ->
  exists folds, (do conn <- match y0 with None => Ok (repeat [] N) | Some pairs => build_conn (repeat [] N) pairs end;
    do res <- kfold_loop (S N) rnd shuf ((N + k' - 1) / k') conn 0 (repeat [] k') [] (seq 0 N);
    Ok (Some (map sort_nat res))) = Ok (Some folds) /\
     length folds = k' /\ Permutation (concat folds) (seq 0 N) /\
     Forall (StronglySorted lt) folds /\
     Forall (fun f => length f <= (N + length folds - 1) / length folds) folds.
Proof.
  intros Hs Hy Hk'.
  assert (Hc : exists c, (match y0 with None => Ok (repeat [] N) | Some pairs => build_conn (repeat [] N) pairs end) = Ok c /\ conn_ok N c).
  { destruct y0 as [ps|]; simpl in Hy.
    - apply build_conn_ok; auto. apply conn_ok_init.
    - exists (repeat [] N). split; auto. apply conn_ok_init. }
  destruct Hc as [c [-> Hc]]. cbn [bind].
  destruct (kfold_loop_spec rnd shuf N k' c Hs Hk' Hc (S N) 0 (repeat [] k') [] (seq 0 N)) as [res [-> I]].
  { rewrite seq_length. lia. } { apply KInv_init. }
  cbn [bind]. eexists. split; [reflexivity|]. destruct I as [Hp _ Hl Hz].
  rewrite app_nil_r in Hp. rewrite map_length, Hl. split; auto. split; [now rewrite concat_map_sort|]. split.
  + rewrite Forall_map, Forall_forall. intros f Hf. apply sort_nat_NoDup_lt.
    assert (Hnd : NoDup (concat res)) by (eapply Permutation_NoDup; [symmetry; exact Hp | apply seq_NoDup]).
    clear -Hf Hnd. induction res as [|x l IH]; simpl in *; [tauto|].
    destruct Hf as [->|Hf]; [eapply NoDup_app_l; eauto | eapply IH; eauto; eapply NoDup_app_r; eauto].
  + rewrite Forall_map. eapply Forall_impl; [|exact Hz]. intros f Hf. simpl. now rewrite sort_nat_length.
Qed.

Lemma k_fold_main rnd shuf N y0 k :
  (forall t l, Permutation (shuf t l) l) -> y0_in_range N y0 ->
  (k_fold_x_y rnd shuf N y0 k = Ok None /\ N / 2 < k /\ N / 2 < 2) \/
  (k_fold_x_y rnd shuf N y0 k = Raise ZeroDivisionError /\ k = 0) \/
  (exists folds, k_fold_x_y rnd shuf N y0 k = Ok (Some folds) /\
     length folds = Nat.min k (N / 2) /\ Permutation (concat folds) (seq 0 N) /\
     Forall (StronglySorted lt) folds /\
     Forall (fun f => length f <= (N + length folds - 1) / length folds) folds).
Proof.
  intros Hs Hy. unfold k_fold_x_y.
  remember (if N / 2 <? k then N / 2 else k) as k' eqn:Ek0. cbv zeta.
  assert (Ek' : k' = Nat.min k (N / 2)).
  { subst. destruct (Nat.ltb_spec (N / 2) k); lia. }
  destruct (Nat.ltb_spec (N / 2) k) as [L|L]; cbn [andb].
  - destruct (Nat.ltb_spec k' 2) as [L2|L2]; [left; split; auto; lia|].
    destruct (Nat.eqb_spec k' 0); [lia|].
    right; right. rewrite <- Ek'. apply k_fold_core; auto; lia.
  - destruct (Nat.eqb_spec k' 0) as [E0|E0]; [right; left; split; auto; lia|].
    right; right. rewrite <- Ek'. apply k_fold_core; auto; lia.
Qed.

(** a label outside the data makes the call raise instead of returning folds *)
Lemma k_fold_returns_in_range rnd shuf N y0 k folds :
  k_fold_x_y rnd shuf N y0 k = Ok (Some folds) -> y0_in_range N y0.
Proof.
  unfold k_fold_x_y. cbv zeta. destruct (_ && _); [discriminate|]. destruct (_ =? 0); [discriminate|].
  destruct y0 as [ps|]; simpl; auto.
  destruct (build_conn (repeat [] N) ps) as [c|] eqn:E; [|discriminate]. intros _.
  eapply build_conn_inv; [|exact E]. apply repeat_length.
Qed.
Lemma k_fold_partition rnd shuf N y0 k folds :
  (forall t l, Permutation (shuf t l) l) ->
  k_fold_x_y rnd shuf N y0 k = Ok (Some folds) ->
     length folds = Nat.min k (N / 2) /\ Permutation (concat folds) (seq 0 N) /\
     Forall (StronglySorted lt) folds /\
     Forall (fun f => length f <= (N + length folds - 1) / length folds) folds.
Proof.
  intros Hs E. pose proof (k_fold_returns_in_range _ _ _ _ _ _ E) as Hy.
  destruct (k_fold_main rnd shuf N y0 k Hs Hy) as [[K _]|[[K _]|[f [K R]]]]; rewrite K in E; try discriminate.
  inversion E; subst. exact R.
Qed.

(** balance without relative pairs *)
Definition balanced (splits : list (list nat)) : Prop :=
  forall a b, In a splits -> In b splits -> length a <= length b + 1.
Lemma In_set_nth {A} i (x y : A) l : In y (set_nth i x l) -> y = x \/ In y l.
Proof.
  revert i. induction l as [|z l IH]; intros [|i]; simpl; auto.
  - intros [->|H]; auto.
  - intros [->|H]; auto. destruct (IH _ H); auto.
Qed.
Lemma balanced_step splits s idx :
  nth_error splits (argmin_nat (map (@length nat) splits)) = Some s -> balanced splits ->
  balanced (set_nth (argmin_nat (map (@length nat) splits)) (s ++ [idx]) splits).
Proof.
  intros E B. destruct (argmin_nat_spec (map (@length nat) splits)) as [m [Hm Hmin]].
  { destruct splits; discriminate. }
  rewrite nth_error_map, E in Hm. simpl in Hm. inversion Hm as [Hm']. clear Hm.
  assert (Hs : In s splits) by (eapply nth_error_In; eauto).
  assert (Hmin' : forall x, In x splits -> length s <= length x).
  { intros x Hx. rewrite Hm'. apply Hmin. apply in_map. exact Hx. }
  intros a b Ha Hb.
  assert (Hb' : length s <= length b).
  { apply In_set_nth in Hb. destruct Hb as [->|Hb]; [rewrite app_length; lia | auto]. }
  apply In_set_nth in Ha. destruct Ha as [->|Ha].
  - rewrite app_length. simpl. lia.
  - apply In_set_nth in Hb. destruct Hb as [->|Hb].
    + rewrite app_length. simpl. specialize (B a s Ha Hs). lia.
    + apply B; auto.
Qed.
Lemma kfold_loop_balanced rnd shuf M N :
  (forall t l, Permutation (shuf t l) l) ->
  forall fuel t splits sel rem res, balanced splits ->
  kfold_loop fuel rnd shuf M (repeat [] N) t splits sel rem = Ok res -> balanced res.
Proof.
  intros Hs. induction fuel as [|fuel IH]; intros t splits sel rem res B H; cbn [kfold_loop] in H; [discriminate|].
  destruct rem as [|r rem]; [inversion H; subst; auto|].
  destruct (getitem (r :: rem) (rnd t mod length (r :: rem))) as [idx|]; cbn [bind] in H; [|discriminate].
  unfold getitem in H at 1.
  destruct (nth_error splits (argmin_nat (map (length (A:=nat)) splits))) as [sp|] eqn:E; cbn [bind] in H; [|discriminate].
  unfold getitem in H.
  destruct (nth_error (repeat [] N) idx) as [c|] eqn:Ec; cbn [bind] in H; [|discriminate].
  assert (c = []) by (apply nth_error_In in Ec; apply repeat_spec in Ec; auto). subst c.
  assert (Es : shuf t [] = []) by (apply Permutation_nil; symmetry; apply Hs).
  rewrite Es in H. cbn [fill_split] in H. eapply IH; [|exact H]. now apply balanced_step.
Qed.
Lemma k_fold_balanced rnd shuf N k folds :
  (forall t l, Permutation (shuf t l) l) ->
  k_fold_x_y rnd shuf N None k = Ok (Some folds) -> balanced folds.
Proof.
  intros Hs. unfold k_fold_x_y. remember (if N / 2 <? k then N / 2 else k) as k' eqn:Ek. cbv zeta.
  destruct (_ && _); [discriminate|]. destruct (k' =? 0) ; [discriminate|].
  cbn [bind].
  destruct (kfold_loop (S N) rnd shuf ((N + k' - 1) / k') (repeat [] N) 0 (repeat [] k') [] (seq 0 N)) as [res|] eqn:E;
    cbn [bind]; [|discriminate].
  intro H. inversion H; subst folds. apply (kfold_loop_balanced rnd shuf _ _ Hs) in E.
  - intros a b Ha Hb. apply in_map_iff in Ha, Hb. destruct Ha as [a' [<- Ha]], Hb as [b' [<- Hb]].
    rewrite !sort_nat_length. auto.
  - intros a b Ha Hb. apply repeat_spec in Ha, Hb. subst. simpl. lia.
Qed.

(** ---- get_y_with_idx ---- *)
Lemma idx_mapping_spec l : forall i x j, idx_mapping i l x = Some j -> i <= j /\ nth_error l (j - i) = Some x.
Proof.
  induction l as [|y l IH]; intros i x j H; simpl in H; [discriminate|].
  destruct (idx_mapping (S i) l x) as [j'|] eqn:E.
  - inversion H; subst. apply IH in E. destruct E as [L E]. split; [lia|].
    replace (j - i) with (S (j - S i)) by lia. exact E.
  - destruct (Nat.eqb_spec x y) as [->|]; [|discriminate]. inversion H; subst. rewrite Nat.sub_diag. auto.
Qed.
Lemma idx_mapping_total l : forall i x, In x l -> exists j, idx_mapping i l x = Some j.
Proof.
  induction l as [|y l IH]; intros i x H; simpl in *; [tauto|].
  destruct (idx_mapping (S i) l x) as [j'|] eqn:E; [eauto|].
  destruct H as [->|H]; [rewrite Nat.eqb_refl; eauto|]. destruct (IH (S i) x H) as [j Hj]. congruence.
Qed.
Lemma map_idx_ok l x : In x l -> exists j, map_idx l x = Ok j /\ nth_error l j = Some x.
Proof.
  intro H. destruct (idx_mapping_total l 0 x H) as [j Hj]. exists j. unfold map_idx. rewrite Hj. split; auto.
  apply idx_mapping_spec in Hj. destruct Hj as [_ Hj]. now rewrite Nat.sub_0_r in Hj.
Qed.
Lemma mapM_rel {A B} (f : A -> result B) (R : A -> B -> Prop) l :
  (forall x, In x l -> exists y, f x = Ok y /\ R x y) -> exists ys, mapM f l = Ok ys /\ Forall2 R l ys.
Proof.
  induction l as [|x l IH]; simpl; intro H; [eexists; split; [reflexivity|constructor]|].
  destruct (H x (or_introl eq_refl)) as [y [-> Hy]]. destruct IH as [ys [-> Hys]]; [auto|]. simpl.
  eexists; split; [reflexivity|]. constructor; auto.
Qed.

Lemma get_y_pairs_ok l ps :
  exists qs, get_y_pairs l ps = Ok (match qs with [] => None | _ => Some qs end) /\
   Forall2 (fun p q : pair => fst (fst q) = fst (fst p) /\ nth_error l (snd (fst q)) = Some (snd (fst p)) /\
                              nth_error l (snd q) = Some (snd p))
     (filter (fun p : pair => mem (snd (fst p)) l && mem (snd p) l) ps) qs.
Proof.
  unfold get_y_pairs.
  assert (Ef : filter (fun p : pair => let '(_, u, v) := p in mem u l && mem v l) ps
             = filter (fun p : pair => mem (snd (fst p)) l && mem (snd p) l) ps).
  { apply filter_ext. intros [[d u] v]. reflexivity. }
  rewrite Ef. 
  edestruct (mapM_rel (fun p : pair => let '(d, u, v) := p in
                 do u' <- map_idx l u; do v' <- map_idx l v; Ok (d, u', v'))
    (fun p q : pair => fst (fst q) = fst (fst p) /\ nth_error l (snd (fst q)) = Some (snd (fst p)) /\
                              nth_error l (snd q) = Some (snd p))) as [qs [E H]].
  2:{ rewrite E. cbn [bind]. exists qs. split; [reflexivity | exact H]. }
  intros [[d u] v] Hin. apply filter_In in Hin. destruct Hin as [_ Hm]. simpl in Hm.
  apply andb_true_iff in Hm. rewrite !mem_In in Hm. destruct Hm as [Hu Hv].
  destruct (map_idx_ok l u Hu) as [u' [-> Eu]]. destruct (map_idx_ok l v Hv) as [v' [-> Ev]].
  simpl. eexists. split; [reflexivity|]. simpl. auto.
Qed.

Lemma mapM_getitem {A} (lab : list A) : forall (pre idx : list nat), length lab = length idx ->
  mapM (fun ia : nat * A => do i <- getitem (pre ++ idx) (fst ia); Ok (snd ia, i)) (enumerate_from (length pre) lab)
  = Ok (combine lab idx).
Proof.
  induction lab as [|a lab IH]; intros pre [|i idx] H; simpl in *; try lia; auto.
  unfold getitem at 1. rewrite nth_error_app2, Nat.sub_diag by lia. simpl.
  specialize (IH (pre ++ [i]) idx). rewrite <- app_assoc in IH. simpl in IH. rewrite app_length in IH. simpl in IH.
  rewrite Nat.add_1_r in IH. rewrite IH by lia. reflexivity.
Qed.
Lemma get_y_labels_ok {A} l (lab : list A) idx : length lab = length idx ->
  exists qs, get_y_labels l (lab, idx)
     = Ok (match qs with [] => None | _ => Some (map fst qs, map snd qs) end) /\
   Forall2 (fun p q : A * nat => fst q = fst p /\ nth_error l (snd q) = Some (snd p))
     (filter (fun p : A * nat => mem (snd p) l) (combine lab idx)) qs.
Proof.
  intro Hl. unfold get_y_labels. cbn [fst snd]. pose proof (mapM_getitem lab [] idx Hl) as Em.
  cbn [app length] in Em. unfold enumerate. rewrite Em. clear Em. cbn [bind].
  edestruct (mapM_rel (fun ai : A * nat => do j <- map_idx l (snd ai); Ok (fst ai, j))
    (fun p q : A * nat => fst q = fst p /\ nth_error l (snd q) = Some (snd p))) as [qs [E H]].
  2:{ rewrite E. cbn [bind]. exists qs. split; [reflexivity | exact H]. }
  intros [a i] Hin. apply filter_In in Hin. destruct Hin as [_ Hm]. simpl in Hm. apply mem_In in Hm.
  destruct (map_idx_ok l i Hm) as [j [Ej Hj]]. simpl. rewrite Ej. simpl. eexists. split; [reflexivity|]. auto.
Qed.

(** ---- against the specification ---- *)
Lemma ceil_div_spec N k : 0 < k -> is_ceil_div N k ((N + k - 1) / k).
Proof.
  intro Hk. split.
  - pose proof (Nat.div_mod (N + k - 1) k). pose proof (Nat.mod_upper_bound (N + k - 1) k). nia.
  - intros c' H. apply Nat.lt_succ_r. apply Nat.div_lt_upper_bound; [lia|]. nia.
Qed.
Lemma k_fold_sizes rnd shuf N y0 k folds c :
  (forall t l, Permutation (shuf t l) l) ->
  k_fold_x_y rnd shuf N y0 k = Ok (Some folds) -> is_ceil_div N (length folds) c ->
  forall f, In f folds -> length f <= c.
Proof.
  intros Hs E [Hc _] f Hf. destruct (k_fold_partition _ _ _ _ _ _ Hs E) as [_ [_ [_ H]]].
  rewrite Forall_forall in H. specialize (H f Hf). simpl in H. etransitivity; [exact H|].
  assert (0 < length folds) by (destruct folds; [destruct Hf | simpl; lia]).
  apply ceil_div_spec with (N := N) in H0. destruct H0 as [_ H0]. auto.
Qed.
Lemma mem_inb l i : mem i l = inb l i.
Proof. unfold mem, inb. reflexivity. Qed.
Lemma get_y_ok {O R} (y0 : option (list pair)) (y1 : option (list O * list nat)) (y2 : option (list R * list nat)) sub :
  one_point_per_label y1 -> one_point_per_label y2 ->
  exists z0 z1 z2, get_y_with_idx (y0, y1, y2) sub = Ok (z0, z1, z2) /\
    pairs_restricted sub y0 z0 /\ labels_restricted sub y1 z1 /\ labels_restricted sub y2 z2.
Proof.
  intros H1 H2. unfold get_y_with_idx.
  assert (E0 : exists z, on_some y0 (get_y_pairs sub) = Ok z /\ pairs_restricted sub y0 z).
  { destruct y0 as [ps|]; simpl; [|eauto]. destruct (get_y_pairs_ok sub ps) as [qs [E F]]. rewrite E.
    eexists. split; [reflexivity|]. exists qs. split; [exact F | reflexivity]. }
  assert (EL : forall (A : Type) (y : option (list A * list nat)), one_point_per_label y ->
     exists z, on_some y (get_y_labels sub) = Ok z /\ labels_restricted sub y z).
  { intros A [[lab pt]|] Hl; simpl; [|eauto]. destruct (get_y_labels_ok sub lab pt Hl) as [qs [E F]]. rewrite E.
    eexists. split; [reflexivity|]. exists qs. split; [exact F | reflexivity]. }
  destruct E0 as [z0 [-> R0]]. destruct (EL O y1 H1) as [z1 [-> R1]]. destruct (EL R y2 H2) as [z2 [-> R2]].
  simpl. eauto 10.
Qed.
Lemma k_fold_returns rnd shuf N y0 k :
  (forall t l, Permutation (shuf t l) l) ->
  (forall ps, y0 = Some ps -> forall d u v, In (d, u, v) ps -> u < N /\ v < N) ->
  0 < k -> (k <= N / 2 \/ 2 <= N / 2) ->
  exists folds, k_fold_x_y rnd shuf N y0 k = Ok (Some folds).
Proof.
  intros Hs Hy Hk HN.
  assert (Hr : y0_in_range N y0).
  { destruct y0 as [ps|]; simpl; auto. apply Forall_forall. intros [[d u] v] H. simpl. eapply Hy; eauto. }
  destruct (k_fold_main rnd shuf N y0 k Hs Hr) as [[_ ?]|[[_ ?]|[f [K _]]]]; [lia|lia|eauto].
Qed.
Lemma concat_length_max M (l : list (list nat)) :
  (forall f, In f l -> length f <= M) -> length (concat l) <= length l * M.
Proof.
  induction l as [|x l IH]; simpl; intro H; auto. rewrite app_length.
  specialize (IH (fun f Hf => H f (or_intror Hf))). specialize (H x (or_introl eq_refl)). lia.
Qed.
Lemma k_fold_nonempty_dense rnd shuf N y0 k folds c :
  (forall t l, Permutation (shuf t l) l) ->
  k_fold_x_y rnd shuf N y0 k = Ok (Some folds) ->
  is_ceil_div N (length folds) c -> (length folds - 1) * c < N -> ~ In [] folds.
Proof.
  intros Hs E Hc Hlt Hin. pose proof (k_fold_sizes _ _ _ _ _ _ _ Hs E Hc) as Hz.
  destruct (k_fold_partition _ _ _ _ _ _ Hs E) as [_ [Hp _]].
  apply in_split in Hin. destruct Hin as [l1 [l2 Ef]].
  assert (L : length (concat folds) = N) by (rewrite Hp, seq_length; auto).
  assert (L' : length (concat folds) = length (concat (l1 ++ l2))).
  { rewrite Ef, !concat_app. simpl. reflexivity. }
  assert (length (concat (l1 ++ l2)) <= length (l1 ++ l2) * c).
  { apply concat_length_max. intros f Hf. apply Hz. rewrite Ef. rewrite in_app_iff in *. simpl. tauto. }
  assert (length folds - 1 = length (l1 ++ l2)).
  { rewrite Ef, !app_length. simpl. lia. }
  lia.
Qed.
Lemma k_fold_nonempty rnd shuf N k folds :
  (forall t l, Permutation (shuf t l) l) ->
  k_fold_x_y rnd shuf N None k = Ok (Some folds) -> ~ In [] folds.
Proof.
  intros Hs E Hin. pose proof (k_fold_balanced _ _ _ _ _ Hs E) as B.
  destruct (k_fold_partition _ _ _ _ _ _ Hs E) as [Hl [Hp _]].
  assert (L : length (concat folds) = N) by (rewrite Hp, seq_length; auto).
  assert (length folds * 1 >= length (concat folds)).
  { apply concat_length_max. intros f Hf. specialize (B f [] Hf Hin). simpl in B. lia. }
  assert (N / 2 <= N / 2) by auto.
  assert (length folds <= N / 2) by lia.
  assert (0 < length folds) by (destruct folds; [destruct Hin | simpl; lia]).
  pose proof (Nat.div_mod N 2). lia.
Qed.
