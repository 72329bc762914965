(** Lemmas about down-selection. *)
From Coq Require Import Permutation.
From Verif Require Import M_Base P_Base M_Pareto S_Pareto M_Select P_Select M_Down S_Down.

Lemma nodup_app {A} (l1 l2 : list A) : NoDup l1 -> NoDup l2 -> (forall x, In x l1 -> ~ In x l2) -> NoDup (l1 ++ l2).
Proof. intros H1 H2 H. apply NoDup_app_intro2; auto. Qed.
Section down.
Context {A : Type} (medoids : nat -> list A -> list nat) (hull : list A -> list nat) (draw : nat -> nat -> list nat).
Hypothesis HM : good_medoids medoids.
Hypothesis HH : good_hull hull.
Hypothesis HD : good_draw draw.
Lemma take_total (X : list A) idx : Forall (fun i => i < length X) idx ->
  exists l, take_rows X idx = Ok l /\ Forall2 (fun i x => nth_error X i = Some x) idx l.
Proof.
  unfold take_rows. induction 1 as [|i idx Hi H [l [E F]]]; simpl; [eauto|]. unfold getitem at 1. destruct (nth_error X i) as [x|] eqn:Ex; [|apply nth_error_None in Ex; lia].
  cbn [bind]. rewrite E. cbn [bind]. eauto.
Qed.
Lemma f2_len {X Y} (P : X -> Y -> Prop) l l' : Forall2 P l l' -> length l = length l'.
Proof. induction 1; simpl; auto. Qed.
Lemma take_subset (X : list A) k idx : positions (length X) k idx -> exists l, take_rows X idx = Ok l /\ length l = k /\ subset_of X l.
Proof.
  intros [N [L F]]. destruct (take_total X idx F) as [l [E F2]]. exists l. split; auto. split; [rewrite <- (f2_len _ _ _ F2); auto|]. exists idx. auto.
Qed.
(** rows of rows *)
Lemma f2_nth {X Y} (P : X -> Y -> Prop) l l' i x : Forall2 P l l' -> nth_error l i = Some x -> exists y, nth_error l' i = Some y /\ P x y.
Proof. intro F. revert i. induction F; intros [|i] H0; simpl in *; try discriminate; [inversion H0; subst; eauto|auto]. Qed.
Lemma compose (X Y l : list A) idx jdx : Forall2 (fun i x => nth_error X i = Some x) idx Y -> Forall2 (fun j x => nth_error Y j = Some x) jdx l ->
  NoDup idx -> NoDup jdx -> exists kdx, NoDup kdx /\ Forall2 (fun i x => nth_error X i = Some x) kdx l /\ incl kdx idx.
Proof.
  intros FX FY NX NY. induction FY as [|j x jdx l Hj F IH].
  - exists []. repeat split; auto; try constructor. intros i [].
  - inversion NY; subst. destruct (IH H2) as [kdx [N [G I]]].
    assert (E : exists i, nth_error idx j = Some i). { destruct (nth_error idx j) eqn:E; eauto. apply nth_error_None in E. rewrite (f2_len _ _ _ FX) in E. assert (nth_error Y j <> None) by congruence. apply nth_error_Some in H. lia. }
    destruct E as [i Ei]. destruct (f2_nth _ _ _ _ _ FX Ei) as [y [Ey Hy]]. rewrite Hj in Ey. inversion Ey; subst y.
    (* the positions of the tail of the list come from other entries *)
    exists (i :: map (fun j => nth j idx 0) jdx). clear IH kdx N G I. split; [|split].
    + constructor.
      * intro K. apply in_map_iff in K. destruct K as [j' [Ej Hj']]. assert (j' < length idx).
        { rewrite (f2_len _ _ _ FX). clear - F Hj'. induction F; destruct Hj'; subst; auto. apply nth_error_Some. congruence. }
        assert (j' = j); [|subst; contradiction]. rewrite NoDup_nth_error in NX. apply NX; auto. rewrite Ei. now rewrite (nth_error_nth' _ 0), Ej.
      * assert (G : forall l0, NoDup l0 -> Forall (fun j => j < length idx) l0 -> NoDup (map (fun j => nth j idx 0) l0)).
        { induction 1 as [|a l0 Ha N IHn]; intro F0; simpl; constructor; inversion F0; subst; auto. intro K. apply in_map_iff in K. destruct K as [b [Eb Hb]].
          rewrite Forall_forall in H4. assert (b < length idx) by auto. assert (b = a); [|subst; contradiction]. apply (proj1 (NoDup_nth idx 0) NX); auto. }
        apply G; auto. apply Forall_forall. intros j' Hj'. rewrite (f2_len _ _ _ FX). clear - F Hj'. induction F; destruct Hj'; subst; auto. apply nth_error_Some. congruence.
    + constructor; auto. clear - F FX. induction F as [|a x jdx l Ha F IH]; simpl; constructor; auto.
      assert (a < length idx) by (rewrite (f2_len _ _ _ FX); apply nth_error_Some; congruence).
      destruct (f2_nth _ _ _ _ _ FX (nth_error_nth' _ 0 H)) as [y [Ey Hy]]. congruence.
    + intros k [<-|K]; [eapply nth_error_In; eauto|]. apply in_map_iff in K. destruct K as [j' [<- Hj']]. apply nth_In.
      rewrite (f2_len _ _ _ FX). clear - F Hj'. induction F; destruct Hj'; subst; auto. apply nth_error_Some. congruence.
Qed.
Lemma kmed_ok k (X : list A) : 1 <= k <= length X -> exists l jdx, kmedoids medoids k X = Ok l /\ length l = k /\ NoDup jdx /\ Forall2 (fun i x => nth_error X i = Some x) jdx l.
Proof.
  intro H. unfold kmedoids. destruct (k =? 0) eqn:E0; [apply Nat.eqb_eq in E0; lia|]. destruct (length X <? k) eqn:E1; [apply Nat.ltb_lt in E1; lia|]. simpl.
  destruct (HM k X H) as [N [L F]]. destruct (take_total X _ F) as [l [E F2]]. exists l, (medoids k X). repeat split; auto. now rewrite <- (f2_len _ _ _ F2).
Qed.
Lemma others_positions n k idx : positions n k idx -> NoDup (others n idx) /\ Forall (fun i => i < n) (others n idx) /\ length (others n idx) = n - k /\ (forall i, In i (others n idx) -> ~ In i idx).
Proof.
  intros [N [L F]]. unfold others, diff. assert (Nd : NoDup (filter (fun x => negb (mem x idx)) (seq 0 n))) by (apply NoDup_filter, seq_NoDup).
  assert (Ni : forall i, In i (filter (fun x => negb (mem x idx)) (seq 0 n)) -> ~ In i idx).
  { intros i Hi K. apply filter_In in Hi. destruct Hi as [_ Hi]. assert (mem i idx = true) by (apply existsb_exists; exists i; split; auto; apply Nat.eqb_refl). rewrite H in Hi. discriminate. }
  repeat split; auto.
  - apply Forall_forall. intros i Hi. apply filter_In in Hi. destruct Hi as [Hi _]. apply in_seq in Hi. lia.
  - assert (P : Permutation (idx ++ filter (fun x => negb (mem x idx)) (seq 0 n)) (seq 0 n)).
    { apply NoDup_Permutation.
      - apply nodup_app; auto. intros i Hi K. apply (Ni i K Hi).
      - apply seq_NoDup.
      - intro i. rewrite in_app_iff, filter_In, in_seq. rewrite Forall_forall in F. split.
        + intros [Hi|[Hi _]]; [specialize (F i Hi)|]; lia.
        + intro Hi. destruct (in_dec Nat.eq_dec i idx) as [Y|Y]; auto. right. split; [lia|]. destruct (mem i idx) eqn:E; auto. exfalso. apply Y.
          apply existsb_exists in E. destruct E as [j [Hj Ej]]. apply Nat.eqb_eq in Ej. now subst. }
    apply Permutation_length in P. rewrite app_length, seq_length in P. lia.
Qed.
Lemma two_parts (X : list A) idx kdx l1 l2 : NoDup idx -> NoDup kdx -> (forall i, In i kdx -> ~ In i idx) ->
  Forall2 (fun i x => nth_error X i = Some x) idx l1 -> Forall2 (fun i x => nth_error X i = Some x) kdx l2 -> subset_of X (l1 ++ l2) /\ subset_of X (l2 ++ l1).
Proof.
  intros N1 N2 D F1 F2. split.
  - exists (idx ++ kdx). split; [apply nodup_app; auto; intros i H K; apply (D i K H)|now apply Forall2_app].
  - exists (kdx ++ idx). split; [apply nodup_app; auto; intros i H K; apply (D i H K)|now apply Forall2_app].
Qed.
Lemma hull_down (X : list A) num : 1 <= num < length X -> exists l, downsample_hull medoids hull X num = Ok l /\ length l = num /\ subset_of X l.
Proof.
  intro H. unfold downsample_hull. cbv zeta. assert (P := HH X). destruct P as [N [_ F]]. destruct (take_total X _ F) as [Hl [EH FH]]. rewrite EH. cbn [bind].
  assert (LH := f2_len _ _ _ FH). destruct (length (hull X) <? num) eqn:E.
  - apply Nat.ltb_lt in E. destruct (others_positions _ _ _ (HH X)) as [No [Fo [Lo Do]]]. destruct (take_total X _ Fo) as [Nl [EN FN]]. rewrite EN. cbn [bind].
    assert (LN := f2_len _ _ _ FN). destruct (kmed_ok (num - length (hull X)) Nl) as [C [jdx [EC [LC [NC FC]]]]]; [lia|]. rewrite EC. cbn [bind].
    destruct (compose X Nl C _ _ FN FC No NC) as [kdx [Nk [Fk Ik]]]. eexists. split; [reflexivity|]. split; [rewrite app_length; lia|].
    apply (proj1 (two_parts X (hull X) kdx Hl C N Nk (fun i Hi => Do i (Ik i Hi)) FH Fk)).
  - apply Nat.ltb_ge in E. destruct (kmed_ok num Hl) as [C [jdx [EC [LC [NC FC]]]]]; [lia|]. exists C. repeat split; auto.
    destruct (compose X Hl C _ _ FH FC N NC) as [kdx [Nk [Fk _]]]. exists kdx. auto.
Qed.
Lemma medrand_down (X : list A) num : 2 <= num < length X -> exists l, downsample_kmed_rand medoids draw X num = Ok l /\ length l = num /\ subset_of X l.
Proof.
  intro H. unfold downsample_kmed_rand. cbv zeta. assert (D2 : 1 <= num / 2 <= num) by (split; [apply Nat.div_le_lower_bound; lia|apply Nat.div_le_upper_bound; lia]).
  destruct (HD (length X) (num - num / 2) ltac:(lia)) as [N [L F]]. set (r := draw (length X) (num - num / 2)) in *.
  destruct (others_positions (length X) (num - num / 2) r (conj N (conj L F))) as [No [Fo [Lo Do]]]. destruct (take_total X _ Fo) as [Nl [EN FN]]. rewrite EN. cbn [bind].
  assert (LN := f2_len _ _ _ FN). destruct (kmed_ok (num / 2) Nl) as [C [jdx [EC [LC [NC FC]]]]]; [lia|]. rewrite EC. cbn [bind].
  destruct (take_total X _ F) as [Rl [ER FR]]. rewrite ER. cbn [bind]. assert (LR := f2_len _ _ _ FR).
  destruct (compose X Nl C _ _ FN FC No NC) as [kdx [Nk [Fk Ik]]]. eexists. split; [reflexivity|]. split; [rewrite app_length; lia|].
  apply (proj2 (two_parts X r kdx Rl C N Nk (fun i Hi => Do i (Ik i Hi)) FR Fk)).
Qed.
Lemma down_exact m num (X : list A) : m = DUniform \/ m = DHull \/ m = DMedRand -> 2 <= num < length X ->
  exists l, down_select medoids hull draw m num X = Ok l /\ length l = num /\ subset_of X l.
Proof.
  intros Hm H. assert (E : (num <? length X) = true) by (apply Nat.ltb_lt; lia). unfold down_select. destruct Hm as [->|[->| ->]]; rewrite E.
  - apply take_subset. apply HD. lia. - apply hull_down. lia. - now apply medrand_down.
Qed.
Lemma down_small m num (X : list A) : length X <= num -> down_select medoids hull draw m num X = Ok X.
Proof. intro H. assert (E : (num <? length X) = false) by (apply Nat.ltb_ge; lia). unfold down_select. destruct m; try rewrite E; reflexivity. Qed.
Lemma medoids_few num (X : list A) : num < length X < 60 -> down_select medoids hull draw DMedoids num X = Raise ValueError.
Proof.
  intro H. unfold down_select. assert (E : (num <? length X) = true) by (apply Nat.ltb_lt; lia). rewrite E. unfold kmedoids.
  assert (E2 : (length X <? 60) = true) by (apply Nat.ltb_lt; lia). rewrite E2. reflexivity.
Qed.
Lemma medoids_many num (X : list A) : num < length X -> 60 <= length X -> exists l, down_select medoids hull draw DMedoids num X = Ok l /\ length l = 60 /\ subset_of X l.
Proof.
  intros H H6. unfold down_select. assert (E : (num <? length X) = true) by (apply Nat.ltb_lt; lia). rewrite E.
  destruct (kmed_ok 60 X) as [l [jdx [El [L [N F]]]]]; [lia|]. exists l. repeat split; auto. exists jdx. auto.
Qed.
End down.

(** preferred paths by their number *)
Lemma first_preferred dp (X : list row) n : 1 <= n -> (forall i, on_front X i <-> i < n) ->
  exists s, get_prefered_set_of_pts dp X (PrefInt (Z.of_nat n)) = Ok s /\ forall i, In i s <-> on_front X i.
Proof.
  intros Hn F. exists (seq 0 n). split.
  - unfold get_prefered_set_of_pts. destruct (Z.of_nat n =? 0)%Z eqn:E; [apply Z.eqb_eq in E; lia|]. destruct (Z.of_nat n <? 0)%Z eqn:E2; [apply Z.ltb_lt in E2; lia|]. now rewrite Nat2Z.id.
  - intro i. rewrite F, in_seq. lia.
Qed.
Definition cX : list row := [[1; 1]; [0; 0]; [-1; -1]]%Q.
Lemma front1 (X : list row) : X = cX -> forall i, on_front X i <-> i < 1.
Proof.
  intros -> i. unfold cX. split.
  - intros [r [E [D _]]]. destruct i as [|[|[|i]]]; simpl in E; [lia| | |destruct i; discriminate]; inversion E; subst r; exfalso;
      apply (D 0 [1; 1]%Q); auto; (split; [repeat constructor; discriminate|exists 0; eexists; eexists; split; [reflexivity|split; [reflexivity|reflexivity]]]).
  - intro H. assert (i = 0) by lia. subst. exists [1; 1]%Q. split; auto. split; [|intros j p Hj; lia].
    intros j p E [_ [k [x [y [E1 [E2 L]]]]]].
    destruct j as [|[|[|j]]]; simpl in E; [| | |destruct j; discriminate]; inversion E; subst p; destruct k as [|[|k]]; simpl in *; try (destruct k; discriminate);
      inversion E1; inversion E2; subst; revert L; unfold Qlt; simpl; lia.
Qed.
Lemma preferred_moves : exists (X l : list row) (draw : nat -> nat -> list nat) s,
  (forall i, on_front X i <-> i < 1) /\ positions 3 2 (draw 3 2) /\
  down_select (fun _ _ => []) (fun _ => []) draw DUniform 2 X = Ok l /\ get_prefered_set_of_pts false l (PrefInt 1) = Ok s /\
  s = [0] /\ ~ on_front l 0 /\ on_front l 1.
Proof.
  exists cX, [[0; 0]; [1; 1]]%Q, (fun _ _ => [1; 0]), [0]. split; [now apply front1|].
  split. { split; [repeat constructor; simpl; intuition congruence|]. split; [reflexivity|repeat constructor]. }
  split; [reflexivity|]. split; [reflexivity|]. split; auto. split.
  - intros [r [E [D _]]]. simpl in E. inversion E; subst r. apply (D 1 [1; 1]%Q); auto. split; [repeat constructor; discriminate|].
    exists 0. eexists. eexists. split; [reflexivity|split; reflexivity].
  - exists [1; 1]%Q. split; auto. split.
    + intros j p E [_ [k [x [y [E1 [E2 L]]]]]].
      destruct j as [|[|j]]; simpl in E; [| |destruct j; discriminate]; inversion E; subst p; destruct k as [|[|k]]; simpl in *; try (destruct k; discriminate);
        inversion E1; inversion E2; subst; revert L; unfold Qlt; simpl; lia.
    + intros j p Hj E F. assert (j = 0) by lia. subst. simpl in E. inversion E; subst p. inversion F; subst. revert H2. unfold Qeq. simpl. lia.
Qed.
