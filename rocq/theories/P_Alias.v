(** Lemmas about training data kept by reference. *)
From Verif Require Import M_Base M_Pairs M_Pareto M_Store M_Alias S_Alias.

Lemma store_eq s : mkStore (sX s) (sRel s) (sOrd s) (sAbs s) (sPrior s) (sOpt s) (sPareto s) = s.
Proof. now destruct s. Qed.
Lemma append_rel_same s y : sX (append_rel s y) = sX s /\ sOrd (append_rel s y) = sOrd s /\ sAbs (append_rel s y) = sAbs s.
Proof. unfold append_rel. destruct (sRel s); auto. Qed.
Lemma add_pareto_same s n X : sX (add_pareto s n X) = sX s /\ sOrd (add_pareto s n X) = sOrd s /\ sAbs (add_pareto s n X) = sAbs s.
Proof. unfold add_pareto. destruct (_ && _); auto. destruct (pareto_new_pairs _ _ _); auto. apply append_rel_same. Qed.
Lemma append_abs_ord s v i : sOrd (append_abs s v i) = sOrd s.
Proof. unfold append_abs. destruct (sAbs s) as [[? ?]|]; reflexivity. Qed.
Lemma append_ord_abs s v i : sAbs (append_ord s v i) = sAbs s.
Proof. unfold append_ord. destruct (sOrd s) as [[? ?]|]; reflexivity. Qed.
(** which parts [add] changes, by kind of label *)
Lemma add_labels_X s n y : sX (fst (add_labels s n y)) = sX s.
Proof.
  destruct y as [y|y|y|v|v i| |]; cbn; auto.
  - destruct (if 0 <? n then _ else _); cbn; auto. apply append_rel_same.
  - unfold add_ord. destruct (existsb _ _); cbn; auto. unfold append_ord. destruct (sOrd s) as [[? ?]|]; reflexivity.
  - unfold add_ord. destruct (existsb _ _); cbn; auto. unfold append_ord. destruct (sOrd s) as [[? ?]|]; reflexivity.
  - unfold add_abs. destruct (_ || _); cbn; auto. unfold append_abs. destruct (sAbs s) as [[? ?]|]; reflexivity.
  - unfold add_abs. destruct (_ || _); cbn; auto. unfold append_abs. destruct (sAbs s) as [[? ?]|]; reflexivity.
Qed.
Lemma add_parts s X y : exists s2 st, add_labels (add_points s X) (npts s) y = (s2, st) /\ snd (add s X y) = st /\
  sX (fst (add s X y)) = Some (pts_of s ++ X) /\ sOrd (fst (add s X y)) = sOrd s2 /\ sAbs (fst (add s X y)) = sAbs s2.
Proof.
  unfold add. assert (HX := add_labels_X (add_points s X) (npts s) y). destruct (add_labels (add_points s X) (npts s) y) as [s2 st]. exists s2, st. split; [reflexivity|]. cbn in HX.
  destruct st; cbn; auto. destruct (add_pareto_same s2 (npts s) X) as [A [B C]]. rewrite A, B, C. auto.
Qed.
Lemma view_add m o x y : view m (fst (aadd m o x y)) = fst (add (view m o) (mX m x) (labels_of m y)) /\ snd (aadd m o x y) = snd (add (view m o) (mX m x) (labels_of m y)).
Proof.
  unfold aadd. set (s := view m o). destruct (add_parts s (mX m x) (labels_of m y)) as [s2 [st [E [Es [PX [PO PA]]]]]].
  destruct (add s (mX m x) (labels_of m y)) as [s' st'] eqn:Ea. cbn in Es, PX, PO, PA. subst st'. cbn [fst snd]. split; [|reflexivity].
  assert (HO : match keep_O s y st (rO o) with Some l => Some (map fst (mO m l), map snd (mO m l)) | None => sOrd s' end = sOrd s').
  { destruct (keep_O s y st (rO o)) as [l|] eqn:K; [|reflexivity]. rewrite PO. unfold keep_O in K.
    assert (U : rO o = Some l -> sOrd s = Some (map fst (mO m l), map snd (mO m l))) by (intro R; unfold s, view; cbn; now rewrite R).
    destruct y as [[y|y|y|v|v i| |]|k|v k]; cbn [labels_of add_labels] in E.
    - destruct (if 0 <? npts s then _ else _); injection E as <- <-; symmetry; [|rewrite (proj1 (proj2 (append_rel_same _ _)))]; apply U; exact K.
    - unfold add_ord in E. destruct (existsb _ _); injection E as <- <-; [symmetry; apply U; exact K|discriminate].
    - unfold add_ord in E. destruct (existsb _ _); injection E as <- <-; [symmetry; apply U; exact K|discriminate].
    - unfold add_abs in E. destruct (_ || _); injection E as <- <-; symmetry; [apply U; exact K|]. rewrite append_abs_ord; apply U; exact K.
    - unfold add_abs in E. destruct (_ || _); injection E as <- <-; symmetry; [apply U; exact K|]. rewrite append_abs_ord; apply U; exact K.
    - injection E as <- <-. symmetry. apply U. exact K.
    - injection E as <- <-. symmetry. apply U. exact K.
    - unfold add_ord in E. destruct (existsb _ _); injection E as <- <-; [symmetry; apply U; exact K|]. destruct (sOrd s) eqn:Q; [discriminate|]. injection K as <-. unfold append_ord. change (sOrd (add_points s (mX m x))) with (sOrd s). rewrite Q. reflexivity.
    - unfold add_abs in E. destruct (_ || _); injection E as <- <-; symmetry; [apply U; exact K|]. rewrite append_abs_ord; apply U; exact K. }
  assert (HA : match sAbs s', keep_I s y st (rI o) with Some (v, _), Some l => Some (v, mI m l) | a, _ => a end = sAbs s').
  { destruct (keep_I s y st (rI o)) as [l|] eqn:K; [|now destruct (sAbs s') as [[? ?]|]]. rewrite PA. unfold keep_I in K.
    assert (U : rI o = Some l -> match sAbs s with Some (v, _) => Some (v, mI m l) | a => a end = sAbs s) by (intro R; unfold s, view; cbn; rewrite R; destruct (sAbs (base o)) as [[? ?]|]; reflexivity).
    destruct y as [[y|y|y|v|v i| |]|k|v k]; cbn [labels_of add_labels] in E.
    - destruct (if 0 <? npts s then _ else _); injection E as <- <-; [|rewrite (proj2 (proj2 (append_rel_same _ _)))]; apply U; exact K.
    - unfold add_ord in E. destruct (existsb _ _); injection E as <- <-; [apply U; exact K|]. rewrite append_ord_abs; apply U; exact K.
    - unfold add_ord in E. destruct (existsb _ _); injection E as <- <-; [apply U; exact K|]. rewrite append_ord_abs; apply U; exact K.
    - unfold add_abs in E. destruct (_ || _); injection E as <- <-; [apply U; exact K|discriminate].
    - unfold add_abs in E. destruct (_ || _); injection E as <- <-; [apply U; exact K|discriminate].
    - injection E as <- <-. apply U. exact K.
    - injection E as <- <-. apply U. exact K.
    - unfold add_ord in E. destruct (existsb _ _); injection E as <- <-; [apply U; exact K|]. rewrite append_ord_abs; apply U; exact K.
    - unfold add_abs in E. destruct (_ || _); injection E as <- <-; [apply U; exact K|]. destruct (sAbs s) eqn:Q; [discriminate|]. injection K as <-. unfold append_abs. change (sAbs (add_points s (mX m x))) with (sAbs s). rewrite Q. reflexivity. }
  unfold view. cbn [base rX rO rI]. rewrite HO, HA. assert (HX : match keep_X s x with Some l => Some (mX m l) | None => sX s' end = sX s').
  { unfold keep_X. destruct (sX s) eqn:Q; [reflexivity|]. rewrite PX. unfold pts_of. now rewrite Q. }
  rewrite HX. apply store_eq.
Qed.
Lemma remove_parts s b : (deletes s = false -> sX (fst (remove_without_reference s b)) = sX s) /\ sOrd (fst (remove_without_reference s b)) = sOrd s /\ sAbs (fst (remove_without_reference s b)) = sAbs s.
Proof.
  unfold remove_without_reference, deletes. destruct (sX s) as [X|] eqn:EX; [|cbn; auto]. destruct (sRel s) as [ps|] eqn:ER; [|cbn; auto]. destruct (forallb _ _); [|cbn; auto]. split; [discriminate|]. destruct b; [|cbn; auto]. destruct (sPrior s) as [[? ?]|]; cbn; auto.
Qed.
Lemma view_remove m o b : view m (fst (aremove m o b)) = fst (remove_without_reference (view m o) b) /\ snd (aremove m o b) = snd (remove_without_reference (view m o) b).
Proof.
  unfold aremove. set (s := view m o). destruct (remove_parts s b) as [HX [HO HA]]. destruct (remove_without_reference s b) as [s' st]. cbn in *. split; [|reflexivity]. unfold view. cbn.
  assert (E1 : match (if deletes s then None else rX o) with Some l => Some (mX m l) | None => sX s' end = sX s').
  { destruct (deletes s); [reflexivity|]. destruct (rX o) eqn:R; [|reflexivity]. rewrite HX by reflexivity. unfold s, view. cbn. try rewrite R. reflexivity. }
  assert (E2 : match rO o with Some l => Some (map fst (mO m l), map snd (mO m l)) | None => sOrd s' end = sOrd s') by (destruct (rO o) eqn:R; [|reflexivity]; rewrite HO; unfold s, view; cbn; try rewrite R; reflexivity).
  assert (E3 : match sAbs s', rI o with Some (v, _), Some l => Some (v, mI m l) | a, _ => a end = sAbs s') by (rewrite HA; unfold s, view; cbn; destruct (rI o); destruct (sAbs (base o)) as [[? ?]|]; reflexivity).
  rewrite E1, E2, E3. apply store_eq.
Qed.
Lemma view_prior m o x : view m (fst (aprior m o x)) = fst (add_prior (view m o) (mX m x)).
Proof.
  unfold aprior, add_prior. destruct (negb (sPareto (view m o))); [reflexivity|]. set (o1 := mkObj _ _ _ _). destruct (view_add m o1 x (ACopied (LRel []))) as [V S]. cbn [labels_of] in V, S. change (view m o1) with (set_prior (view m o) (Some (Z.of_nat (npts (view m o)), Z.of_nat (npts (view m o) + length (mX m x))))) in V, S.
  destruct (aadd m o1 x _) as [o2 st]. destruct (add _ _ _) as [s2 st2]. cbn in V, S. subst st2. destruct st; cbn; auto. rewrite <- V. apply view_remove.
Qed.
Lemma view_reset m o : view m (areset o) = reset (view m o).
Proof. reflexivity. Qed.
(** a write to an array that is not kept does not show *)
Lemma view_WX m o l rows : rX o <> Some l -> view (mkMem (upd (mX m) l rows) (mO m) (mI m)) o = view m o.
Proof. intro H. unfold view. cbn. destruct (rX o) as [k|]; [|reflexivity]. unfold upd. destruct (Nat.eqb_spec k l); [congruence|reflexivity]. Qed.
Lemma view_WO m o l y : rO o <> Some l -> view (mkMem (mX m) (upd (mO m) l y) (mI m)) o = view m o.
Proof. intro H. unfold view. cbn. destruct (rO o) as [k|]; [|reflexivity]. unfold upd. destruct (Nat.eqb_spec k l); [congruence|reflexivity]. Qed.
Lemma view_WI m o l i : rI o <> Some l -> view (mkMem (mX m) (mO m) (upd (mI m) l i)) o = view m o.
Proof. intro H. unfold view. cbn. destruct (rI o) as [k|]; [|reflexivity]. unfold upd. destruct (Nat.eqb_spec k l); [congruence|reflexivity]. Qed.
(** only arrays passed before are kept *)
Definition linked (o : obj) (h : list aop) : Prop :=
  (forall l, rX o = Some l -> Exists (passed_X l) h) /\ (forall l, rO o = Some l -> Exists (passed_O l) h) /\ (forall l, rI o = Some l -> Exists (passed_I l) h).
Lemma linked_more o h p : linked o h -> linked o (h ++ [p]).
Proof. intros [A [B C]]. repeat split; intros l H; apply Exists_app; left; auto. Qed.
Lemma Ex_last {A} (P : A -> Prop) h p : P p -> Exists P (h ++ [p]).
Proof. intro H. apply Exists_app. right. now constructor. Qed.
Lemma linked_add m o x y h p : linked o h -> (passed_X x p) -> (forall l, y = AOrd2 l -> passed_O l p) -> (forall v l, y = AAbsT v l -> passed_I l p) -> linked (fst (aadd m o x y)) (h ++ [p]).
Proof.
  intros L PX PO PI. destruct (linked_more o h p L) as [A [B C]]. unfold aadd. destruct (add _ _ _) as [s' st]. cbn. repeat split; cbn; intros l H.
  - unfold keep_X in H. destruct (sX _); [discriminate|]. injection H as <-. now apply Ex_last.
  - unfold keep_O in H. destruct y as [[]|k|v k]; destruct st; destruct (sOrd (view m o)); try discriminate; try (now apply B); injection H as <-; apply Ex_last; now apply PO.
  - unfold keep_I in H. destruct y as [[]|k|v k]; destruct st; destruct (sAbs (view m o)); try discriminate; try (now apply C); injection H as <-; apply Ex_last; now apply (PI v).
Qed.
Lemma linked_remove m o b h : linked o h -> linked (fst (aremove m o b)) h.
Proof. intros [A [B C]]. unfold aremove. destruct (remove_without_reference _ _) as [s' st]. cbn. repeat split; cbn; auto. intros l H. destruct (deletes _); [discriminate|auto]. Qed.
Lemma linked_step m o h p : linked o h -> linked (snd (astep (m, o) p)) (h ++ [p]).
Proof.
  intro L. destruct p as [x y|x|b| | | |]; cbn; try (now apply linked_more); try (repeat split; discriminate).
  - apply linked_add; auto; [left; eauto|intros l ->; eexists; reflexivity|intros v l ->; eexists; eexists; reflexivity].
  - unfold aprior. destruct (negb _); [now apply linked_more|]. set (o1 := mkObj _ _ _ _). assert (L1 : linked (fst (aadd m o1 x (ACopied (LRel [])))) (h ++ [APrior x])) by (apply linked_add; [exact L|right; reflexivity|discriminate|discriminate]).
    destruct (aadd m o1 x _) as [o2 st]. destruct st; auto. now apply linked_remove.
  - apply linked_remove. now apply linked_more.
Qed.
Lemma snapshot h : forall h0 m o, linked o h0 -> (forall h1 p h2, h = h1 ++ p :: h2 -> (forall l rows, p = WX l rows -> Forall (fun q => ~ passed_X l q) (h0 ++ h1)) /\
    (forall l y, p = WO l y -> Forall (fun q => ~ passed_O l q) (h0 ++ h1)) /\ (forall l i, p = WI l i -> Forall (fun q => ~ passed_I l q) (h0 ++ h1))) ->
  seen (arun (m, o) h) = run (view m o) (contents m h).
Proof.
  induction h as [|p h IH]; intros h0 m o L H; [reflexivity|]. destruct (H [] p h eq_refl) as [HX [HO HI]]. rewrite app_nil_r in *.
  assert (H' : forall h1 q h2, h = h1 ++ q :: h2 -> (forall l rows, q = WX l rows -> Forall (fun r => ~ passed_X l r) ((h0 ++ [p]) ++ h1)) /\
    (forall l y, q = WO l y -> Forall (fun r => ~ passed_O l r) ((h0 ++ [p]) ++ h1)) /\ (forall l i, q = WI l i -> Forall (fun r => ~ passed_I l r) ((h0 ++ [p]) ++ h1))).
  { intros h1 q h2 ->. rewrite <- app_assoc. exact (H (p :: h1) q h2 eq_refl). }
  assert (NE : forall (P : aop -> Prop), Forall (fun q => ~ P q) h0 -> ~ Exists P h0) by (intros P F E; apply Exists_exists in E; destruct E as [q [Hq Pq]]; rewrite Forall_forall in F; exact (F q Hq Pq)).
  assert (L' := linked_step m o h0 p L). change (arun (m, o) (p :: h)) with (arun (astep (m, o) p) h). unfold run in *. destruct L as [A [B C]].
  destruct p as [x y|x|b| |l rows|l y|l i]; cbn [astep snd] in L' |- *; rewrite (IH _ _ _ L' H'); cbn [contents mem_after fold_left step].
  - now rewrite (proj1 (view_add m o x y)).
  - now rewrite view_prior.
  - now rewrite (proj1 (view_remove m o b)).
  - now rewrite view_reset.
  - rewrite view_WX; auto. intro R. exact (NE _ (HX l rows eq_refl) (A l R)).
  - rewrite view_WO; auto. intro R. exact (NE _ (HO l y eq_refl) (B l R)).
  - rewrite view_WI; auto. intro R. exact (NE _ (HI l i eq_refl) (C l R)).
Qed.
Lemma snapshot_new h m pareto : arrays_left_alone h -> seen (arun (m, anew pareto) h) = run (init pareto) (contents m h).
Proof. intro H. change (init pareto) with (view m (anew pareto)). apply (snapshot h []); [repeat split; discriminate|exact H]. Qed.

(** points are safe from the second call of [add] on *)
Lemma has_X m o p : p <> AReset -> sX (view m o) <> None -> sX (seen (astep (m, o) p)) <> None.
Proof.
  intros NR N. unfold seen. destruct p as [x y|x|b| |l rows|l y|l i]; cbn [astep fst snd]; [| | |congruence| | |].
  - rewrite (proj1 (view_add m o x y)). destruct (add_parts (view m o) (mX m x) (labels_of m y)) as [? [? [_ [_ [-> _]]]]]. discriminate.
  - rewrite view_prior. unfold add_prior. destruct (negb _); [exact N|]. set (s1 := set_prior _ _). destruct (add_parts s1 (mX m x) (LRel [])) as [? [? [_ [_ [P _]]]]]. destruct (add s1 _ _) as [s2 st]. cbn in P. destruct st; cbn; try (rewrite P; discriminate).
    unfold remove_without_reference. rewrite P. destruct (sRel s2); [|cbn; rewrite P; discriminate]. destruct (forallb _ _); [|cbn; rewrite P; discriminate]. destruct (sPrior s2) as [[? ?]|]; discriminate.
  - rewrite (proj1 (view_remove m o b)). unfold remove_without_reference. destruct (sX (view m o)) as [X|] eqn:E; [|congruence]. destruct (sRel (view m o)); [|cbn [fst]; rewrite E; discriminate]. destruct (forallb _ _); [|cbn [fst]; rewrite E; discriminate]. destruct b; [|discriminate]. destruct (sPrior _) as [[? ?]|]; discriminate.
  - unfold view in *. cbn in *. destruct (rX o); [discriminate|exact N].
  - exact N.
  - exact N.
Qed.
Lemma has_X_run h : forall w, ~ In AReset h -> sX (seen w) <> None -> sX (seen (arun w h)) <> None.
Proof. induction h as [|p h IH]; intros [m o] NR N; [exact N|]. change (arun (m, o) (p :: h)) with (arun (astep (m, o) p) h). apply IH; [intro; apply NR; now right|]. apply has_X; [intro; apply NR; now left|exact N]. Qed.
Lemma writes_obj ws : forall w, Forall is_write ws -> snd (arun w ws) = snd w.
Proof. induction ws as [|p ws IH]; intros [m o] F; [reflexivity|]. inversion F; subst. change (arun (m, o) (p :: ws)) with (arun (astep (m, o) p) ws). rewrite IH by auto. destruct p; cbn in *; try contradiction; reflexivity. Qed.
Lemma second_safe w x1 y1 h x2 y2 ws : ~ In AReset h -> Forall is_write ws ->
  sX (seen (arun w (AAdd x1 y1 :: h ++ AAdd x2 y2 :: ws))) = sX (seen (arun w (AAdd x1 y1 :: h ++ [AAdd x2 y2]))).
Proof.
  intros NR F. assert (E : forall l, arun w (AAdd x1 y1 :: h ++ AAdd x2 y2 :: l) = arun (astep (arun (astep w (AAdd x1 y1)) h) (AAdd x2 y2)) l) by (intro l; unfold arun; cbn [fold_left]; rewrite fold_left_app; reflexivity).
  rewrite !E. change (arun ?v []) with v. set (w1 := arun (astep w (AAdd x1 y1)) h). assert (N : sX (seen w1) <> None).
  { apply has_X_run; [exact NR|]. destruct w as [m o]. unfold seen. cbn. destruct (view_add m o x1 y1) as [V _]. unfold view in V at 1. change (sX (view m (fst (aadd m o x1 y1))) <> None). rewrite (proj1 (view_add m o x1 y1)). destruct (add_parts (view m o) (mX m x1) (labels_of m y1)) as [? [? [_ [_ [-> _]]]]]. discriminate. }
  destruct w1 as [m o]. cbn [astep]. set (o2 := fst (aadd m o x2 y2)). assert (R : rX o2 = None) by (unfold o2, aadd; destruct (add _ _ _); cbn; unfold keep_X, seen in *; cbn [fst snd] in N; destruct (sX (view m o)); [reflexivity|congruence]).
  unfold seen. rewrite (writes_obj ws (m, o2) F). unfold view. cbn [snd fst sX]. now rewrite R.
Qed.
(** pairs and values are copied at once; a write of the caller does not reset the flag *)
Lemma copied_at_once w ws : Forall is_write ws -> sRel (seen (arun w ws)) = sRel (seen w) /\ option_map fst (sAbs (seen (arun w ws))) = option_map fst (sAbs (seen w)) /\ sOpt (seen (arun w ws)) = sOpt (seen w).
Proof. intro F. unfold seen. rewrite (writes_obj ws w F). unfold view. cbn. repeat split. destruct (sAbs _) as [[? ?]|]; [|reflexivity]. destruct (rI _); reflexivity. Qed.
(** the first array stays shared *)
Lemma first_shared m pareto x y rows : sX (seen (arun (m, anew pareto) [AAdd x y; WX x rows])) = Some rows.
Proof. unfold seen, arun. cbn [fold_left astep]. unfold aadd. destruct (add _ _ _) as [s' st]. cbn. unfold upd. now rewrite Nat.eqb_refl. Qed.
Lemma ordinal_shared m pareto x l y : existsb (fun v => (v <=? 0)%Z) (map fst (mO m l)) = false ->
  sOrd (seen (arun (m, anew pareto) [AAdd x (AOrd2 l); WO l y])) = Some (map fst y, map snd y).
Proof.
  intro H. unfold seen, arun. cbn [fold_left astep]. unfold aadd. destruct (add_parts (view m (anew pareto)) (mX m x) (LOrd2 (mO m l))) as [s2 [st [E [Es _]]]]. cbn [labels_of]. destruct (add _ _ _) as [s' st']. cbn in Es. subst st'. cbn [add_labels] in E. unfold add_ord in E. rewrite H in E. injection E as _ <-. cbn. unfold upd. now rewrite Nat.eqb_refl.
Qed.
Lemma index_shared m pareto x v l i : existsb (fun a => Qlt_bool a 0) v || existsb (fun a => Qlt_bool 1 a) v = false ->
  option_map snd (sAbs (seen (arun (m, anew pareto) [AAdd x (AAbsT v l); WI l i]))) = Some i.
Proof.
  intro H. unfold seen, arun. cbn [fold_left astep]. unfold aadd. destruct (add_parts (view m (anew pareto)) (mX m x) (LAbsT v (mI m l))) as [s2 [st [E [Es [_ [_ PA]]]]]]. cbn [labels_of]. destruct (add _ _ _) as [s' st']. cbn in Es, PA. subst st'. cbn [add_labels] in E. unfold add_abs in E. rewrite H in E. injection E as <- <-. cbn. rewrite PA. cbn. unfold upd. now rewrite Nat.eqb_refl.
Qed.
(** a write between the first two calls gets into the data for good *)
Lemma folded_in m pareto x1 y1 rows x2 y2 : x2 <> x1 -> sX (seen (arun (m, anew pareto) [AAdd x1 y1; WX x1 rows; AAdd x2 y2])) = Some (rows ++ mX m x2).
Proof.
  intro D. assert (F := first_shared m pareto x1 y1 rows). unfold arun in *. cbn [fold_left] in *. set (w := astep (astep (m, anew pareto) (AAdd x1 y1)) (WX x1 rows)) in *. assert (M : mX (fst w) x2 = mX m x2) by (cbn; unfold upd; destruct (Nat.eqb_spec x2 x1); [congruence|reflexivity]).
  destruct w as [m' o']. cbn [astep]. unfold seen in *. cbn [fst snd] in *. rewrite (proj1 (view_add m' o' x2 y2)). destruct (add_parts (view m' o') (mX m' x2) (labels_of m' y2)) as [? [? [_ [_ [-> _]]]]]. unfold pts_of. now rewrite F, M.
Qed.
(** a removal of points makes a new array *)
Lemma removed_safe w X ps b ws : sX (seen w) = Some X -> sRel (seen w) = Some ps -> (forall l u v, In (l, u, v) ps -> u < length X /\ v < length X) -> Forall is_write ws ->
  sX (seen (arun w (ARemove b :: ws))) = sX (seen (arun w [ARemove b])).
Proof.
  intros HX HR HP F. destruct w as [m o]. change (arun (m, o) (ARemove b :: ws)) with (arun (astep (m, o) (ARemove b)) ws). change (arun (m, o) [ARemove b]) with (astep (m, o) (ARemove b)).
  cbn [astep]. set (o2 := fst (aremove m o b)). assert (D : deletes (view m o) = true).
  { unfold deletes, seen in *. cbn [fst snd] in *. rewrite HX, HR. apply forallb_forall. intros [[l u] v] I. destruct (HP l u v I). cbn. apply andb_true_iff. split; now apply Nat.ltb_lt. }
  assert (R : rX o2 = None) by (unfold o2, aremove; destruct (remove_without_reference _ _); cbn [fst rX]; now rewrite D).
  unfold seen. rewrite (writes_obj ws (m, o2) F). unfold view. cbn [snd fst sX]. now rewrite R.
Qed.
(** a removal that fails leaves the array shared *)
Lemma failed_shared m x l u v b rows : length (mX m x) <= u \/ length (mX m x) <= v ->
  sX (seen (arun (m, anew false) [AAdd x (ACopied (LRel [(l, u, v)])); ARemove b; WX x rows])) = Some rows.
Proof.
  intro H. unfold seen, arun. cbn [fold_left astep]. set (o := fst (aadd m (anew false) x (ACopied (LRel [(l, u, v)])))).
  assert (R : rX o = Some x) by (unfold o, aadd; destruct (add _ _ _); reflexivity).
  assert (V : sX (view m o) = Some (mX m x)) by (unfold view; cbn [sX]; now rewrite R).
  assert (P : sRel (view m o) = Some [(l, u, v)]) by reflexivity.
  assert (D : deletes (view m o) = false).
  { unfold deletes. rewrite V, P. cbn [forallb pair_in_range]. apply andb_false_iff. left. apply andb_false_iff. destruct H as [H|H]; [left|right]; now apply Nat.ltb_ge. }
  unfold aremove. destruct (remove_without_reference _ _) as [s' st]. cbn [fst snd view sX rX]. rewrite D, R. cbn. unfold upd. now rewrite Nat.eqb_refl.
Qed.
