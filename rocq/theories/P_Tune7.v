(** Noisy ratings of any number of options: the accuracy exists, its range, and how it changes with the noise. *)
From Coquelicot Require Import Coquelicot.
From Coq Require Import Reals Lra Lia List Bool.
From Verif Require Import M_Base M_RBase M_Normal M_Util M_Select M_User M_Tune S_Util S_User S_Tune P_RBase P_Normal P_Util P_User P_Tune P_Tune2 P_Tune3 P_Tune4 P_Tune5 P_Tune6.
Import ListNotations.
Local Open Scope R_scope.

Lemma below_prod s m l x : below (map (lead s m) l) x = fold_right Rmult 1 (map (fun v => ndtr (x + (m - v) / s)) l).
Proof. induction l as [|v l IH]; cbn; [reflexivity|]. unfold below in IH. rewrite IH. reflexivity. Qed.
Lemma best_integral s pre m post l : 0 < s -> Forall (fun x => x < m) pre -> Forall (fun x => x <= m) post ->
  is_RInt_gen (fun z => npdf z * fold_right Rmult 1 (map (fun v => ndtr (z + (m - v) / s)) (pre ++ post))) (Rbar_locally m_infty) (Rbar_locally p_infty) l ->
  normal_chance (length (pre ++ m :: post)) (picks_best s (pre ++ m :: post)) l.
Proof.
  intros Hs F1 F2 H. apply best_chance_is; auto. revert H. apply is_RInt_gen_ext. apply (Filter_prod _ _ _ (fun _ => True) (fun _ => True)); [now exists 0|now exists 0|]. intros x y _ _ t _. now rewrite below_prod.
Qed.

(** ---- one query ---- *)
Definition chance_of (s : R) (row : list R) (l : R) : Prop := normal_chance (length row) (picks_best s row) l.
Lemma split_others pre (m : R) post v : Forall (fun x => x < m) pre -> Forall (fun x => x <= m) post -> In v (pre ++ post) -> v <= m.
Proof. intros F1 F2 I. apply in_app_or in I. destruct I as [I|I]; [apply Rlt_le; exact (proj1 (Forall_forall _ _) F1 v I)|exact (proj1 (Forall_forall _ _) F2 v I)]. Qed.
Lemma leads_mono s t m l : 0 < s <= t -> (forall v, In v l -> v <= m) -> Forall2 Rle (map (lead t m) l) (map (lead s m) l).
Proof.
  intros H. induction l as [|v l IH]; intro B; cbn; constructor; [|apply IH; intros; apply B; now right]. unfold lead. apply Rmult_le_compat_l; [specialize (B v (or_introl eq_refl)); lra|]. apply Rinv_le_contravar; lra.
Qed.
Lemma row_mono s t row a b : 0 < s <= t -> row <> [] -> chance_of s row a -> chance_of t row b -> b <= a.
Proof.
  intros H N Ha Hb. destruct (best_split row N) as [pre [m [post [E [F1 F2]]]]]. destruct (best_chance_tail s row a ltac:(lra) N Ha pre m post E F1 F2) as [A TA]. destruct (best_chance_tail t row b ltac:(lra) N Hb pre m post E F1 F2) as [B TB].
  apply (tail_le _ B b _ A a TB TA (below_unit _) (below_unit _)). intro x. apply below_mono, leads_mono; auto. intros v I. eapply split_others; eauto.
Qed.
Lemma row_strict s t row a b v w : 0 < s < t -> In v row -> In w row -> v <> w -> chance_of s row a -> chance_of t row b -> b < a.
Proof.
  intros H Iv Iw D Ha Hb. assert (N : row <> []) by (intro; subst; destruct Iv). destruct (best_split row N) as [pre [m [post [E [F1 F2]]]]]. destruct (best_chance_tail s row a ltac:(lra) N Ha pre m post E F1 F2) as [A TA]. destruct (best_chance_tail t row b ltac:(lra) N Hb pre m post E F1 F2) as [B TB].
  assert (U : exists u, In u (pre ++ post) /\ u < m).
  { assert (K : forall u, In u row -> u = m \/ (In u (pre ++ post) /\ u <= m)) by (intros u I; rewrite E in I; apply in_app_or in I; destruct I as [I|[I|I]]; [right|left; auto|right]; (split; [apply in_or_app; auto|eapply split_others; eauto; apply in_or_app; auto])).
    destruct (K v Iv) as [Ev|[Iv' Lv]]; [|destruct (Rlt_le_dec v m); [exists v; auto|]].
    - destruct (K w Iw) as [Ew|[Iw' Lw]]; [congruence|]. exists w. split; auto. destruct Lw as [Lw|Lw]; auto. congruence.
    - destruct (K w Iw) as [Ew|[Iw' Lw]]; [exfalso; lra|]. exists w. split; auto. destruct (Rlt_le_dec w m); auto. exfalso. lra. }
  destruct U as [u [Iu Lu]]. apply (tail_lt _ B b _ A a TB TA (below_unit _) (below_unit _)). intro x. apply (below_strict _ _ x (lead t m u) (lead s m u)).
  - apply leads_mono; [lra|]. intros v' I. eapply split_others; eauto.
  - clear -Iu. induction (pre ++ post) as [|x l IH]; [destruct Iu|]. cbn. destruct Iu as [-> |Iu]; auto.
  - unfold lead. apply Rmult_lt_compat_l; [lra|]. apply Rinv_lt_contravar; [apply Rmult_lt_0_compat|]; lra.
Qed.
Lemma row_range s row a : 0 < s -> row <> [] -> chance_of s row a -> / INR (length row) <= a <= 1 /\ ((2 <= length row)%nat -> a < 1).
Proof.
  intros Hs N Ha. destruct (best_split row N) as [pre [m [post [E [F1 F2]]]]]. destruct (best_chance_tail s row a Hs N Ha pre m post E F1 F2) as [A TA]. assert (L : length row = S (length (pre ++ post))) by (rewrite E, !app_length; cbn; lia). split; [split|].
  - rewrite L. assert (U : unit_cont (fun x => ndtr x ^ length (pre ++ post))).
    { split.
      - intro x. apply (continuous_ext (below (repeat 0 (length (pre ++ post))))); [intro; apply below_zero|apply below_unit].
      - intro x. rewrite <- below_zero. assert (K := below_range (repeat 0 (length (pre ++ post))) x). lra. }
    apply (tail_le _ _ _ _ A a (pow_tail _) TA U (below_unit _)). intro x. rewrite <- below_zero. apply below_mono.
    assert (B : forall v, In v (pre ++ post) -> v <= m) by (intros; eapply split_others; eauto). clear -B Hs. induction (pre ++ post) as [|v l IH]; cbn; constructor; [|apply IH; intros; apply B; now right]. unfold lead. apply Rdiv_le_0_compat; [specialize (B v (or_introl eq_refl)); lra|exact Hs].
  - apply (tail_le _ A a _ _ 1 TA one_tail (below_unit _) one_unit). intro x. apply below_range.
  - intro L2. apply (tail_lt _ A a _ _ 1 TA one_tail (below_unit _) one_unit). intro x. destruct (pre ++ post) as [|v l]; [cbn in L; lia|]. apply below_lt_1.
Qed.
Lemma below_lower cs : forall A l, tail_of (below cs) A l -> 1 - rsum (map (fun c => 1 - ndtr (c / sqrt 2)) cs) <= l.
Proof.
  induction cs as [|c cs IH]; intros A l T.
  - cbn. rewrite Rminus_0_r. apply (tail_le _ _ 1 _ A l one_tail T one_unit (below_unit [])). intro; cbn; lra.
  - destruct (tail_exists _ (below_unit cs)) as [B [k TB]]. specialize (IH B k TB). cbn [map]. change (rsum (?x :: ?r)) with (x + rsum r).
    assert (U : unit_cont (fun x => (1 - ndtr (x + c)) * (1 - below cs x))).
    { split.
      - intro x. apply (continuous_mult (fun x => 1 - ndtr (x + c)) (fun x => 1 - below cs x)); [apply (continuous_minus (fun _ => 1) (fun x => ndtr (x + c))); [apply continuous_const|apply ndtr_shift_cts]|apply (continuous_minus (fun _ => 1) (below cs)); [apply continuous_const|apply below_unit]].
      - intro x. assert (K := ndtr_range (x + c)). assert (K' := below_range cs x). nra. }
    destruct (tail_exists _ U) as [G [g TG]].
    assert (Pg : 0 <= g) by (destruct TG as [_ [G1 G2]]; specialize (G1 0); specialize (G2 0); lra).
    assert (Eg : 1 - ndtr (c / sqrt 2) - k + l = g).
    { apply (tail_unique _ G g _ U TG). apply (is_RInt_gen_ext (fun z => plus (minus (minus (npdf z) (npdf z * ndtr (z + c))) (npdf z * below cs z)) (npdf z * below (c :: cs) z))).
      - apply (Filter_prod _ _ _ (fun _ => True) (fun _ => True)); [now exists 0|now exists 0|]. intros x y _ _ t _. unfold below, plus, minus, plus, opp; cbn. ring.
      - apply (is_RInt_gen_plus (V := R_NormedModule)); [apply (is_RInt_gen_minus (V := R_NormedModule)); [apply (is_RInt_gen_minus (V := R_NormedModule)); [apply npdf_total|apply convolution]|apply (tail_total _ B); [apply below_unit|exact TB]]|apply (tail_total _ A); [apply below_unit|exact T]]. }
    lra.
Qed.
Lemma row_gap s d row a : 0 < s -> 0 < d -> gap d row -> chance_of s row a -> 1 - (INR (length row) - 1) * (1 - ndtr (d / (s * sqrt 2))) <= a.
Proof.
  intros Hs Hd [pre [m [post [E G]]]] Ha. assert (N : row <> []) by (rewrite E; destruct pre; discriminate).
  assert (F1 : Forall (fun x => x < m) pre) by (apply Forall_forall; intros x I; assert (K := G x (in_or_app _ _ _ (or_introl I))); lra). assert (F2 : Forall (fun x => x <= m) post) by (apply Forall_forall; intros x I; assert (K := G x (in_or_app _ _ _ (or_intror I))); lra).
  destruct (best_chance_tail s row a Hs N Ha pre m post E F1 F2) as [A TA]. assert (K := below_lower _ A a TA). assert (L : INR (length row) - 1 = INR (length (pre ++ post))) by (replace (length row) with (S (length (pre ++ post))) by (rewrite E, !app_length; cbn; lia); rewrite S_INR; ring). rewrite L.
  assert (Q : rsum (map (fun c => 1 - ndtr (c / sqrt 2)) (map (lead s m) (pre ++ post))) <= INR (length (pre ++ post)) * (1 - ndtr (d / (s * sqrt 2)))); [|lra].
  assert (S2 := sqrt2_pos). clear -G Hs S2. induction (pre ++ post) as [|v l IH]; [cbn; lra|]. cbn [map length]. rewrite S_INR. change (rsum (?x :: ?r)) with (x + rsum r). specialize (IH (fun u I => G u (or_intror I))). specialize (G v (or_introl eq_refl)).
  assert (ndtr (d / (s * sqrt 2)) <= ndtr (lead s m v / sqrt 2)); [|lra]. apply ndtr_le. unfold lead. rewrite sqrt2_div by lra. apply Rmult_le_compat_r; [apply Rlt_le, Rinv_0_lt_compat; nra|lra].
Qed.

(** ---- averages over the queries ---- *)
Lemma query_row q y row : queries q y -> In row y -> row <> [] /\ length row = q.
Proof. intros [_ [Q L]] I. assert (K := L row I). split; auto. intro; subst row; cbn in K; lia. Qed.
Lemma accuracy_exists q s y : 0 < s -> queries q y -> exists a, rate_accuracy q s y a /\ forall b, rate_accuracy q s y b -> b = a.
Proof.
  intros Hs H. assert (K : forall row, In row y -> exists c, normal_chance q (picks_best s row) c) by (intros row I; destruct (query_row q y row H I) as [N <-]; now apply best_chance_ex).
  assert (E : exists cs, Forall2 (fun row c => normal_chance q (picks_best s row) c) y cs).
  { clear H. induction y as [|row y IH]; [exists []; constructor|]. destruct (IH (fun r I => K r (or_intror I))) as [cs F]. destruct (K row (or_introl eq_refl)) as [c Hc]. exists (c :: cs). now constructor. }
  destruct E as [cs F]. exists (average cs). split; [exists cs; auto|]. intros b [ds [G ->]]. f_equal. clear -F G. revert ds G. induction F as [|row c y cs Hc F IH]; intros ds G; inversion G; subst; [reflexivity|]. f_equal; [eapply chance_unique; eauto|now apply IH].
Qed.
Lemma accuracy_objective q s p y a : 0 < s -> queries q y -> rate_accuracy q s y a ->
  exists Phi sp, (forall z, length z = length y -> Forall (fun r => length r = q) z -> rate_sampled_objective s p y z = Ok (Phi z)) /\
    rows_mean (length y) q Phi ((a - p) ^ 2 + sp) /\ 0 <= sp <= / (4 * INR (length y)).
Proof.
  intros Hs H [cs [F ->]]. destruct (rate_mean_value q s p y cs H F) as [Phi [H1 [H2 H3]]]. exists Phi, (spread cs). auto.
Qed.
Lemma accuracy_accept q s p y a r t : 0 < s -> queries q y -> rate_accuracy q s y a -> 0 < r -> 0 < t -> r + t <= Rabs (a - p) ->
  exists Phi c, (forall z, length z = length y -> Forall (fun r => length r = q) z -> rate_sampled_objective s p y z = Ok (Phi z)) /\
    rows_mean (length y) q (fun z => if Rltb (Phi z) (r ^ 2) then 1 else 0) c /\ c <= / (4 * INR (length y) * t ^ 2).
Proof. intros Hs H [cs [F ->]] Hr Ht G. now apply (rate_accept q s p y cs r t). Qed.
Lemma avg_le (cs ds : list R) : Forall2 Rle cs ds -> average cs <= average ds.
Proof.
  intro F. unfold average. rewrite <- (F2_len _ _ _ F). destruct cs as [|c cs]; [inversion F; subst; cbn; lra|]. apply Rmult_le_compat_r; [apply Rlt_le, Rinv_0_lt_compat, lt_0_INR; cbn; lia|]. induction F as [|x y l m H F IH]; [cbn; lra|]. change (rsum (?x :: ?r)) with (x + rsum r). lra.
Qed.
Lemma avg_lt (cs ds : list R) c d : Forall2 Rle cs ds -> In (c, d) (combine cs ds) -> c < d -> average cs < average ds.
Proof.
  intros F I L. unfold average. rewrite <- (F2_len _ _ _ F). destruct cs as [|c0 cs]; [destruct I|]. apply Rmult_lt_compat_r; [apply Rinv_0_lt_compat, lt_0_INR; cbn; lia|]. revert I. induction F as [|x y l m H F IH]; intro I; [destruct I|]. change (rsum (?x :: ?r)) with (x + rsum r). destruct I as [I|I].
  - injection I as -> ->. assert (rsum l <= rsum m); [|lra]. clear -F. induction F as [|x y l m H F IH]; [cbn; lra|]. change (rsum (?x :: ?r)) with (x + rsum r). lra.
  - specialize (IH I). lra.
Qed.
Lemma rows_compare q s t y cs ds : 0 < s <= t -> queries q y -> Forall2 (fun row c => normal_chance q (picks_best s row) c) y cs -> Forall2 (fun row c => normal_chance q (picks_best t row) c) y ds -> Forall2 Rle ds cs.
Proof.
  intros Hst H F G. assert (K : forall row, In row y -> row <> [] /\ length row = q) by (intros; eapply query_row; eauto). clear H. revert ds G. induction F as [|row c y cs Hc F IH]; intros ds G; inversion G; subst; constructor.
  - destruct (K row (or_introl eq_refl)) as [N E]. subst q. eapply row_mono; eauto.
  - apply IH; auto. intros; apply K. now right.
Qed.
Lemma accuracy_falls q s t y a b : 0 < s <= t -> queries q y -> rate_accuracy q s y a -> rate_accuracy q t y b -> b <= a.
Proof. intros Hst H [cs [F ->]] [ds [G ->]]. apply avg_le. eapply rows_compare; eauto. Qed.
Lemma accuracy_falls_strict q s t y a b row v w : 0 < s < t -> queries q y -> In row y -> In v row -> In w row -> v <> w -> rate_accuracy q s y a -> rate_accuracy q t y b -> b < a.
Proof.
  intros Hst H I Iv Iw D [cs [F ->]] [ds [G ->]]. assert (C := rows_compare q s t y cs ds ltac:(lra) H F G). assert (E : length row = q) by (eapply query_row; eauto).
  assert (K : exists c d, In (d, c) (combine ds cs) /\ normal_chance q (picks_best s row) c /\ normal_chance q (picks_best t row) d).
  { clear C H. revert ds G I. induction F as [|r c y cs Hc F IH]; intros ds G I; [destruct I|]. inversion G; subst. destruct I as [-> |I]; [exists c, y0; cbn; auto|]. destruct (IH _ H3 I) as [c' [d' [X Y]]]. exists c', d'. cbn. auto. }
  destruct K as [c [d [X [Y Z]]]]. apply (avg_lt ds cs d c C X). subst q. eapply (row_strict s t row c d v w); eauto.
Qed.
Lemma avg_bounds_F2 (P : list R -> Prop) lo hi (y : list (list R)) cs : y <> [] -> length y = length cs -> (forall c, In c cs -> lo <= c <= hi) -> lo <= average cs <= hi.
Proof. intros N L B. apply average_bounds; auto. intro; subst cs. destruct y; [congruence|discriminate]. Qed.
Lemma accuracy_least q s y a : 0 < s -> queries q y -> rate_accuracy q s y a -> / INR q <= a <= 1 /\ ((2 <= q)%nat -> a < 1).
Proof.
  intros Hs H [cs [F ->]]. assert (Len := F2_len _ _ _ F). assert (N : y <> []) by apply H. assert (B : forall c, In c cs -> (/ INR q <= c <= 1) /\ ((2 <= q)%nat -> c < 1)).
  { assert (K : forall row, In row y -> row <> [] /\ length row = q) by (intros; eapply query_row; eauto). clear -Hs F K. induction F as [|row c y cs Hc F IH]; intros x I; [destruct I|]. destruct I as [<- |I]; [|apply IH; auto; intros; apply K; now right]. destruct (K row (or_introl eq_refl)) as [Nr E]. subst q. eapply row_range; eauto. }
  split; [apply (avg_bounds_F2 (fun _ => True) _ _ y cs N Len); intros c I; apply B, I|]. intro Q. destruct cs as [|c cs]; [destruct y; [congruence|discriminate]|].
  replace 1 with (average (repeat 1 (length (c :: cs)))).
  - apply (avg_lt _ _ c 1); [|now left|apply B; [now left|exact Q]]. assert (B' : forall x, In x (c :: cs) -> x <= 1) by (intros x I; apply B in I; lra). clear -B'. induction (c :: cs) as [|x l IH]; cbn; constructor; [apply B'; now left|apply IH; intros; apply B'; now right].
  - unfold average. rewrite repeat_length. assert (P : 0 < INR (length (c :: cs))) by (apply lt_0_INR; cbn; lia). assert (E : forall n, rsum (repeat 1 n) = INR n) by (induction n as [|n IH]; [reflexivity|]; rewrite S_INR; cbn [repeat]; change (rsum (?x :: ?r)) with (x + rsum r); rewrite IH; ring). rewrite E. field. lra.
Qed.
Lemma accuracy_lead q s d y a : 0 < s -> 0 < d -> queries q y -> (forall row, In row y -> gap d row) -> rate_accuracy q s y a -> 1 - (INR q - 1) * (1 - ndtr (d / (s * sqrt 2))) <= a.
Proof.
  intros Hs Hd H G [cs [F ->]]. assert (Len := F2_len _ _ _ F). assert (N : y <> []) by apply H.
  assert (B : forall c, In c cs -> 1 - (INR q - 1) * (1 - ndtr (d / (s * sqrt 2))) <= c).
  { assert (K : forall row, In row y -> length row = q) by (intros; eapply query_row; eauto). clear -Hs Hd F K G. induction F as [|row c y cs Hc F IH]; intros x I; [destruct I|]. destruct I as [<- |I]; [|apply IH; auto; intros; [apply G|apply K]; now right]. assert (E := K row (or_introl eq_refl)). subst q. apply (row_gap s d row c Hs Hd); auto. apply G. now left. }
  set (hi := fold_right Rmax 0 cs). assert (Hi : forall c, In c cs -> c <= hi) by (unfold hi; clear; induction cs as [|x l IH]; intros c I; [destruct I|]; cbn; destruct I as [<- |I]; [apply Rmax_l|eapply Rle_trans; [now apply IH|apply Rmax_r]]).
  apply (avg_bounds_F2 (fun _ => True) _ hi y cs N Len). auto.
Qed.
