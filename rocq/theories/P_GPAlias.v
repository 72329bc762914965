(** Lemmas about shared training data of a Gaussian process. *)
From Coq Require Import Lia.
From Verif Require Import M_Base M_RBase M_Kernel M_GP M_Fake M_GPAlias S_GPAlias.

Section alias.
Variable mean : option (point -> R).
(** what the object holds, as a value, and that it shares nothing which is written later *)
Lemma add_some X y s st st' : gp_add mean X y s st = Ok st' -> exists d, st' = Some d.
Proof. unfold gp_add. destruct mean as [f|]; [destruct (Nat.eqb _ _); cbn; [|discriminate]|cbn]; destruct st; intro H; injection H as <-; eauto. Qed.
Lemma galias_view m o x y s : gview m (galias_add mean m o x y s) = by_value mean (gview m o) (GAdd (gm_X m x) y (sigma_of m s)).
Proof.
  unfold galias_add. cbn [by_value]. destruct (gp_add mean (gm_X m x) y (sigma_of m s) (gview m o)) as [st|e] eqn:E; [|reflexivity].
  destruct (add_some _ _ _ _ _ E) as [d ->]. unfold gview in *. destruct (go_own o) as [d0|] eqn:O.
  - cbn. destruct d; reflexivity.
  - unfold gp_add in E. cbn. destruct mean as [f|]; [destruct (Nat.eqb _ _); cbn in E; [|discriminate]|cbn in E]; injection E as <-; cbn; destruct s; reflexivity.
Qed.
(** the state shares only what was passed in [past] *)
Definition shares (past : list gop) (o : gobj) : Prop :=
  (forall l, go_X o = Some l -> exists y s, In (GAAdd l y s) past) /\ (forall l, go_S o = Some l -> exists x y, In (GAAdd x y (GList l)) past).
Lemma gsnapshot_from h : forall past m o, shares past o -> left_alone (past ++ h) -> gseen (grun mean (m, o) h) = fold_left (by_value mean) (gcontents m h) (gview m o).
Proof.
  induction h as [|p h IH]; intros past m o S L; [reflexivity|]. assert (L' : left_alone ((past ++ [p]) ++ h)) by now rewrite <- app_assoc.
  destruct (L past p h eq_refl) as [LX LS].
  destruct p as [x y s| |l rows|l v]; cbn [grun fold_left gstep gcontents].
  - change (fold_left (gstep mean) h (m, galias_add mean m o x y s)) with (grun mean (m, galias_add mean m o x y s) h). rewrite (IH (past ++ [GAAdd x y s])); [|clear IH|exact L'].
    + now rewrite galias_view.
    + destruct S as [S1 S2]. unfold galias_add. destruct (gp_add _ _ _ _ _) as [st|e].
      * destruct (go_own o); split; cbn; try discriminate; intros l E.
        -- injection E as <-. exists y, s. apply in_or_app. right. now left.
        -- destruct s as [s|l']; [discriminate|]. injection E as <-. exists x, y. apply in_or_app. right. now left.
      * split; intros l E; [destruct (S1 l E) as (a & b & I)|destruct (S2 l E) as (a & b & I)]; exists a, b; apply in_or_app; now left.
  - change (fold_left (gstep mean) h ?w) with (grun mean w h). rewrite (IH (past ++ [GAReset])); [reflexivity| |exact L']. split; cbn; discriminate.
  - change (fold_left (gstep mean) h ?w) with (grun mean w h). rewrite (IH (past ++ [GWriteX l rows])); [|split|exact L'].
    + f_equal. unfold gview. destruct (go_own o) as [d|]; [|reflexivity]. cbn. destruct (go_X o) as [k|] eqn:E; [|reflexivity]. unfold gupd. destruct (Nat.eqb_spec k l) as [->|]; [|reflexivity].
      exfalso. destruct S as [S1 _]. destruct (S1 l E) as (y & s & I). exact (LX l rows y s eq_refl I).
    + intros k E. destruct S as [S1 _]. destruct (S1 k E) as (a & b & I). exists a, b. apply in_or_app. now left.
    + intros k E. destruct S as [_ S2]. destruct (S2 k E) as (a & b & I). exists a, b. apply in_or_app. now left.
  - change (fold_left (gstep mean) h ?w) with (grun mean w h). rewrite (IH (past ++ [GWriteS l v])); [|split|exact L'].
    + f_equal. unfold gview. destruct (go_own o) as [d|]; [|reflexivity]. cbn. destruct (go_S o) as [k|] eqn:E; [|reflexivity]. unfold gupd. destruct (Nat.eqb_spec k l) as [->|]; [|reflexivity].
      exfalso. destruct S as [_ S2]. destruct (S2 l E) as (x & y & I). exact (LS l v x y eq_refl I).
    + intros k E. destruct S as [S1 _]. destruct (S1 k E) as (a & b & I). exists a, b. apply in_or_app. now left.
    + intros k E. destruct S as [_ S2]. destruct (S2 k E) as (a & b & I). exists a, b. apply in_or_app. now left.
Qed.
Lemma gsnapshot h m : left_alone h -> gseen (grun mean (m, gnew) h) = fold_left (by_value mean) (gcontents m h) None.
Proof. intro L. apply (gsnapshot_from h [] m gnew); [split; discriminate|exact L]. Qed.
(** writes and an object that shares nothing *)
Lemma writes_owned ws : forall m o, go_X o = None -> go_S o = None -> Forall is_gwrite ws -> gseen (grun mean (m, o) ws) = gview m o.
Proof.
  induction ws as [|p ws IH]; intros m o X S F; [reflexivity|]. inversion F as [|? ? W F']; subst. destruct p; try contradiction; cbn [grun fold_left gstep]; change (fold_left (gstep mean) ws ?w) with (grun mean w ws); rewrite IH by assumption; unfold gview; cbn; now rewrite X, S.
Qed.
Lemma gsecond m o x y s ws : go_own o <> None -> length y = length (gm_X m x) -> Forall is_gwrite ws ->
  gseen (grun mean (m, o) (GAAdd x y s :: ws)) = gseen (grun mean (m, o) [GAAdd x y s]).
Proof.
  intros N L F. cbn [grun fold_left gstep]. change (fold_left (gstep mean) ws ?w) with (grun mean w ws). unfold galias_add. destruct (gp_add _ _ _ _ _) as [st|e] eqn:E.
  - destruct (go_own o) as [d|]; [|contradiction]. now apply writes_owned.
  - exfalso. unfold gp_add in E. rewrite L, Nat.eqb_refl in E. destruct mean, (gview m o); discriminate.
Qed.
(** the object has data after an add that was accepted *)
Lemma owned_after m o x y s : length y = length (gm_X m x) -> go_own (galias_add mean m o x y s) <> None.
Proof.
  intro L. unfold galias_add. destruct (gp_add _ _ _ _ _) as [st|e] eqn:E.
  - destruct (add_some _ _ _ _ _ E) as [d ->]. destruct (go_own o); discriminate.
  - exfalso. unfold gp_add in E. rewrite L, Nat.eqb_refl in E. destruct mean, (gview m o); discriminate.
Qed.
Lemma gsecond_new m x1 y1 s1 ws1 x2 y2 s2 ws2 : let m' := fst (grun mean (m, gnew) (GAAdd x1 y1 s1 :: ws1)) in
  length y1 = length (gm_X m x1) -> Forall is_gwrite ws1 -> length y2 = length (gm_X m' x2) -> Forall is_gwrite ws2 ->
  gseen (grun mean (m, gnew) (GAAdd x1 y1 s1 :: ws1 ++ GAAdd x2 y2 s2 :: ws2)) = gseen (grun mean (m, gnew) (GAAdd x1 y1 s1 :: ws1 ++ [GAAdd x2 y2 s2])).
Proof.
  intros m' L1 F1 L2 F2. unfold grun. change (GAAdd x1 y1 s1 :: ws1 ++ ?l) with ((GAAdd x1 y1 s1 :: ws1) ++ l). rewrite !fold_left_app. fold (grun mean (m, gnew) (GAAdd x1 y1 s1 :: ws1)).
  assert (O : go_own (snd (grun mean (m, gnew) (GAAdd x1 y1 s1 :: ws1))) <> None).
  { cbn [grun fold_left gstep]. assert (K := owned_after m gnew x1 y1 s1 L1). revert K. generalize (galias_add mean m gnew x1 y1 s1) as o. clear L2 m' L1. generalize m. induction F1 as [|p ws W F IH]; intros m0 o K; [exact K|]. destruct p; try contradiction; cbn [fold_left gstep]; now apply IH. }
  subst m'. destruct (grun mean (m, gnew) (GAAdd x1 y1 s1 :: ws1)) as [m' o]. cbn [fst snd] in *. now apply gsecond.
Qed.
Lemma glabels ws : forall m o, Forall is_gwrite ws -> option_map gy (gseen (grun mean (m, o) ws)) = option_map gy (gview m o).
Proof.
  induction ws as [|p ws IH]; intros m o F; [reflexivity|]. inversion F as [|? ? W F']; subst. destruct p; try contradiction; cbn [grun fold_left gstep]; change (fold_left (gstep mean) ws ?w) with (grun mean w ws); rewrite IH by assumption; unfold gview; now destruct (go_own o).
Qed.
End alias.
Lemma gfirst_shared mean m x y s rows : length y = length (gm_X m x) ->
  option_map gX (gseen (grun mean (m, gnew) [GAAdd x y s; GWriteX x rows])) = Some rows /\
  option_map gy (gseen (grun mean (m, gnew) [GAAdd x y s; GWriteX x rows])) = Some (match mean with None => y | Some f => zipw Rminus y (map f (gm_X m x)) end).
Proof. intro L. unfold gseen, gview. cbn. unfold galias_add, gp_add. rewrite L, Nat.eqb_refl. destruct mean; cbn; unfold gupd; rewrite Nat.eqb_refl; split; reflexivity. Qed.
Lemma gsigma_shared mean m x y l v : length y = length (gm_X m x) -> option_map gsig (gseen (grun mean (m, gnew) [GAAdd x y (GList l); GWriteS l v])) = Some v.
Proof. intro L. unfold gseen, gview. cbn. unfold galias_add, gp_add. rewrite L, Nat.eqb_refl. destruct mean; cbn; unfold gupd; now rewrite Nat.eqb_refl. Qed.
Lemma gpredict_shared k m x y s rows Q : exists d, gp_add None rows y (sigma_of m s) None = Ok d /\
  gp_predict None k (gseen (grun None (m, gnew) [GAAdd x y s; GWriteX x rows])) Q = gp_predict None k d Q.
Proof. eexists. split; [reflexivity|]. unfold gseen, gview. cbn. unfold gupd. rewrite Nat.eqb_refl. destruct s; reflexivity. Qed.
Lemma gfolded_in m x1 y1 s1 rows x2 y2 s2 : x2 <> x1 ->
  option_map gX (gseen (grun None (m, gnew) [GAAdd x1 y1 s1; GWriteX x1 rows; GAAdd x2 y2 s2])) = Some (rows ++ gm_X m x2) /\
  option_map gy (gseen (grun None (m, gnew) [GAAdd x1 y1 s1; GWriteX x1 rows; GAAdd x2 y2 s2])) = Some (y1 ++ y2).
Proof. intro N. unfold gseen, gview. cbn. unfold gupd. rewrite Nat.eqb_refl. destruct (Nat.eqb_spec x2 x1); [contradiction|]. split; reflexivity. Qed.
