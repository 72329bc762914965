(** Lemmas about arrays of plain numbers used as points. *)
From Coq Require Import Reals Lra Lia List.
From Verif Require Import M_Base M_RBase M_Pairs M_Pareto M_Store M_Kernel M_Acq M_GP M_OneD S_OneD.
Import ListNotations.
Local Open Scope R_scope.

(** kernel objects that differ only in zero points filled in by earlier calls *)
Fixpoint filled (d : nat) (k k' : kern) : Prop :=
  match k, k' with
  | ZRBF s l n z, ZRBF s' l' n' z' => s = s' /\ l = l' /\ n = n' /\ (z' = z \/ (z = None /\ z' = Some (repeat 0 d)))
  | KAdd a b, KAdd a' b' | KMul a b, KMul a' b' => filled d a a' /\ filled d b b'
  | RBF _ _ _, _ | Lin _ _ _, _ | Per _ _ _, _ => k' = k
  | _, _ => False
  end.
Lemma filled_refl d k : filled d k k.
Proof. induction k; cbn; auto. Qed.

Lemma bcast_same d X Y : holds d X -> holds d Y -> bcast X Y = Ok (arr_rows X, arr_rows Y).
Proof. intros [HX _] [HY _]; unfold bcast; rewrite HX, HY, Nat.eqb_refl; reflexivity. Qed.
Lemma rbf_cov_arr_same d s l n X Y : holds d X -> holds d Y -> rbf_cov_arr s l n X Y = rbf_cov s l n (arr_rows X) (arr_rows Y).
Proof. intros HX HY; unfold rbf_cov_arr; rewrite (bcast_same d X Y HX HY); reflexivity. Qed.
Lemma holds_row d (z : point) : length z = d -> holds d (Arr2 (length z) [z]).
Proof. intros H; split; [exact H|]. constructor; [exact H|constructor]. Qed.
Lemma zero_cov_arr_same d s l n z X Y : length z = d -> holds d X -> holds d Y ->
  zero_cov_arr s l n z X Y = zero_cov s l n z (arr_rows X) (arr_rows Y).
Proof.
  intros Hz HX HY; pose proof (holds_row d z Hz) as HZ; unfold zero_cov_arr, zero_cov.
  rewrite (rbf_cov_arr_same d _ _ _ _ _ HX HZ), (rbf_cov_arr_same d _ _ _ _ _ HZ HY); reflexivity.
Qed.
Lemma lazy_zero_spec d z X : holds d X -> (forall w, z = Some w -> length w = d) ->
  (exists x0, @getitem point (arr_rows X) 0 = Ok x0 /\ lazy_zero z X = Ok (zero_of z x0) /\ length (zero_of z x0) = d /\ (z = None -> zero_of z x0 = repeat 0 d)) \/
  (@getitem point (arr_rows X) 0 = Raise IndexError /\ lazy_zero z X = Raise IndexError).
Proof.
  intros [HX HF] Hz. destruct X as [[|x l]|w [|x M]]; cbn [arr_rows width map] in *.
  - right; split; [reflexivity|destruct z; reflexivity].
  - left; exists [x]; subst d; destruct z; cbn; repeat split; auto; intros; congruence.
  - right; split; [reflexivity|destruct z; reflexivity].
  - left; exists x; pose proof (Forall_inv HF) as Hx; subst w; destruct z as [z|]; cbn; rewrite ?repeat_length, ?Hx; repeat split; auto; intros; congruence.
Qed.

Lemma kcov_arr_same d X Y : holds d X -> holds d Y -> forall k k', zeros_fit d k -> filled d k k' ->
  filled d k (fst (kcov_arr k' X Y)) /\ snd (kcov_arr k' X Y) = kcov k (arr_rows X) (arr_rows Y).
Proof.
  intros HX HY; induction k as [s l n|s sb c|s l p|s l n z|a IHa b IHb|a IHa b IHb]; intros k' Hz Hf.
  - cbn in Hf; subst k'; split; [reflexivity|]. cbn [kcov_arr snd kcov]. apply (rbf_cov_arr_same d); assumption.
  - cbn in Hf; subst k'; split; [reflexivity|]. cbn [kcov_arr snd kcov]. rewrite (bcast_same d X Y HX HY); reflexivity.
  - cbn in Hf; subst k'; split; [reflexivity|]. cbn [kcov_arr snd kcov]. rewrite (bcast_same d X Y HX HY); reflexivity.
  - destruct k' as [| | |s' l' n' z'| |]; cbn in Hf; try contradiction.
    destruct Hf as (<- & <- & <- & Hzz).
    assert (Hw : forall w, z = Some w -> length w = d) by (intros w ->; exact Hz).
    assert (Hw' : forall w, z' = Some w -> length w = d).
    { intros w ->. destruct Hzz as [E|[_ E]]; [apply Hw; congruence|]. injection E as ->. apply repeat_length. }
    cbn [kcov_arr kcov].
    destruct (lazy_zero_spec d z' X HX Hw') as [(x0 & E & E1 & Hl & Hn)|[E E1]]; rewrite E1.
    + assert (Ez : zero_of z' x0 = zero_of z x0).
      { destruct Hzz as [->|[-> ->]]; [reflexivity|]. cbn. f_equal.
        destruct HX as [HX HF]. destruct (arr_rows X) as [|r M]; [discriminate|]. injection E as ->. symmetry; exact (Forall_inv HF). }
      cbn [fst snd]; split.
      * cbn [filled]; repeat split; auto. destruct z as [z|].
        -- left. destruct Hzz as [->|[H _]]; [reflexivity|discriminate].
        -- right; split; [reflexivity|]. rewrite Ez. cbn. f_equal. f_equal. destruct HX as [HX HF].
           destruct (arr_rows X) as [|r M]; [discriminate|]. injection E as ->. exact (Forall_inv HF).
      * rewrite E; cbn [bind]. rewrite (rbf_cov_arr_same d _ _ _ _ _ HX HY), (zero_cov_arr_same d _ _ _ _ _ _ Hl HX HY), Ez. reflexivity.
    + cbn [fst snd]; rewrite E; split; [|reflexivity]. cbn; auto.
  - destruct k' as [| | | |a' b'|]; cbn in Hf; try contradiction. destruct Hf as [Ha Hb]; destruct Hz as [Za Zb].
    specialize (IHa a' Za Ha); specialize (IHb b' Zb Hb). cbn [kcov_arr kcov].
    destruct (kcov_arr a' X Y) as [a2 A]; destruct (kcov_arr b' X Y) as [b2 B]; cbn [fst snd] in *.
    destruct IHa as [Fa <-]; destruct IHb as [Fb <-]. destruct A; cbn [fst snd bind filled]; auto.
  - destruct k' as [| | | | |a' b']; cbn in Hf; try contradiction. destruct Hf as [Ha Hb]; destruct Hz as [Za Zb].
    specialize (IHa a' Za Ha); specialize (IHb b' Zb Hb). cbn [kcov_arr kcov].
    destruct (kcov_arr a' X Y) as [a2 A]; destruct (kcov_arr b' X Y) as [b2 B]; cbn [fst snd] in *.
    destruct IHa as [Fa <-]; destruct IHb as [Fb <-]. destruct A; cbn [fst snd bind filled]; auto.
Qed.

Lemma kcalls_same d k : zeros_fit d k -> forall calls, (forall X Y, In (X, Y) calls -> holds d X /\ holds d Y) ->
  kcalls k calls = map (fun XY => kcov k (arr_rows (fst XY)) (arr_rows (snd XY))) calls.
Proof.
  intros Hz calls. assert (G : forall k', filled d k k' -> (forall X Y, In (X, Y) calls -> holds d X /\ holds d Y) ->
    kcalls k' calls = map (fun XY => kcov k (arr_rows (fst XY)) (arr_rows (snd XY))) calls).
  { induction calls as [|[X Y] calls IH]; intros k' Hf H; [reflexivity|]. cbn [kcalls map fst snd].
    destruct (H X Y (or_introl eq_refl)) as [HX HY]. destruct (kcov_arr_same d X Y HX HY k k' Hz Hf) as [F E].
    destruct (kcov_arr k' X Y) as [k2 M]; cbn [fst snd] in *. rewrite E, (IH k2 F); [reflexivity|]. intros; apply H; right; assumption. }
  intros H; exact (G k (filled_refl d k) H).
Qed.

(** ---- Gaussian processes ---- *)
Definition rows_data (d : agp_data) : gp_data := {| gX := arr_rows (agX d); gy := agy d; gsig := agsig d |}.
Lemma alen_rows {A} (X : arr A) : alen X = length (arr_rows X).
Proof. destruct X; cbn; [rewrite map_length|]; reflexivity. Qed.
Lemma enumerate_from_map {A B} (f : nat -> B) : forall (l : list A) s, map (fun ix => f (fst ix)) (enumerate_from s l) = map f (seq s (length l)).
Proof. induction l as [|x l IH]; intros s; cbn; [reflexivity|]. rewrite IH; reflexivity. Qed.
Lemma map_const {A B} (b : B) (l : list A) : map (fun _ => b) l = repeat b (length l).
Proof. induction l; cbn; congruence. Qed.
Lemma agp_predict_same d k st X : zeros_fit d k -> holds d X -> (forall t, st = Some t -> holds d (agX t)) ->
  snd (agp_predict k st X) = gp_predict None k (option_map rows_data st) (arr_rows X).
Proof.
  intros Hz HX Ht. destruct st as [t|]; cbn [agp_predict option_map gp_predict].
  - specialize (Ht t eq_refl). unfold rows_data; cbn [gX gy gsig].
    destruct (kcov_arr_same d X X HX HX k k Hz (filled_refl d k)) as [F1 E1].
    destruct (kcov_arr k X X) as [k1 XX]; cbn [fst snd] in F1, E1; rewrite <- E1.
    destruct XX as [XX|]; cbn [bind snd]; [|reflexivity].
    destruct (kcov_arr_same d X (agX t) HX Ht k k1 Hz F1) as [F2 E2].
    destruct (kcov_arr k1 X (agX t)) as [k2 XY]; cbn [fst snd] in F2, E2; rewrite <- E2.
    destruct XY as [XY|]; cbn [bind snd]; [|reflexivity].
    destruct (kcov_arr_same d (agX t) (agX t) Ht Ht k k2 Hz F2) as [F3 E3].
    destruct (kcov_arr k2 (agX t) (agX t)) as [k3 YY]; cbn [fst snd] in F3, E3; rewrite <- E3. cbn [snd].
    destruct YY as [YY|]; cbn [bind]; [|reflexivity]. rewrite !alen_rows.
    destruct (chol _ _) as [L|]; [|reflexivity]. destruct (negb _); [reflexivity|]. cbn zeta.
    f_equal. f_equal. cbn [mean_at]. unfold enumerate.
    symmetry; exact (enumerate_from_map (fun i => sum_to (length (arr_rows (agX t))) (fun j => mat_at XY i j * cho_solve (length (arr_rows (agX t))) L (fun j => nth j (agy t) 0) j) + 0) (arr_rows X) 0).
  - destruct (kcov_arr_same d X X HX HX k k Hz (filled_refl d k)) as [F1 E1].
    destruct (kcov_arr k X X) as [k1 XX]; cbn [fst snd] in F1, E1 |- *; rewrite <- E1.
    destruct XX as [XX|]; cbn [bind]; [|reflexivity]. rewrite alen_rows, map_const. reflexivity.
Qed.
Lemma holds_column {A} (l : list A) : holds 1 (Arr1 l).
Proof. split; [reflexivity|]. cbn. apply Forall_forall. intros r H. apply in_map_iff in H as (x & <- & _). reflexivity. Qed.
Lemma agp_run_same ops ops' : Forall2 same_gp_call ops ops' -> forall st, (forall t, st = Some t -> exists l, agX t = Arr1 l) ->
  exists st2, agp_run ops st = Ok st2 /\ gp_run None ops' (option_map rows_data st) = Ok (option_map rows_data st2) /\
  (forall t, st2 = Some t -> exists l, agX t = Arr1 l).
Proof.
  induction 1 as [|o o' ops ops' [l y s|] _ IH]; intros st Hst; cbn [agp_run gp_run].
  - exists st; auto.
  - destruct st as [t|]; cbn [agp_add gp_add option_map].
    + destruct (Hst t eq_refl) as [l0 E]. rewrite E. cbn [aappend bind].
      destruct (IH (Some {| agX := Arr1 (l0 ++ l); agy := agy t ++ y; agsig := agsig t ++ match s with SScalar s => repeat s (length y) | SSeq l => l end |})) as (st2 & H1 & H2 & H3).
      { intros t' [= <-]; cbn; eauto. }
      exists st2; split; [exact H1|]; split; [|exact H3]. rewrite <- H2. cbn [gp_add bind option_map]. unfold rows_data; cbn [agX agy agsig gX gy gsig].
      rewrite E. cbn [arr_rows]. rewrite map_app. reflexivity.
    + destruct (IH (Some {| agX := Arr1 l; agy := y; agsig := match s with SScalar s => repeat s (length y) | SSeq l => l end |})) as (st2 & H1 & H2 & H3).
      { intros t' [= <-]; cbn; eauto. }
      exists st2; split; [exact H1|]; split; [|exact H3]. rewrite <- H2. reflexivity.
  - destruct (IH None) as (st2 & H1 & H2 & H3); [discriminate|]. exists st2; auto.
Qed.

(** ---- the store ---- *)
Definition with_points (X : option (list row)) (l : store) : store := mkStore X (sRel l) (sOrd l) (sAbs l) (sPrior l) (sOpt l) (sPareto l).
Definition rows_of (a : astore) : store := with_points (option_map arr_rows (aX a)) (aL a).
Lemma same_store_iff a s : same_store a s <-> s = rows_of a /\ match aX a with Some (Arr2 _ _) => False | _ => True end.
Proof.
  unfold same_store, rows_of, with_points. destruct s as [X r o b p q f]; destruct a as [[[l|w M]|] L]; cbn; split.
  - intros (-> & <- & <- & <- & <- & <- & <-); auto.
  - intros [[= -> -> -> -> -> -> ->] _]; repeat split.
  - intros [[] _].
  - intros [_ []].
  - intros (-> & <- & <- & <- & <- & <- & <-); auto.
  - intros [[= -> -> -> -> -> -> ->] _]; repeat split.
Qed.
Lemma add_labels_points P l n y : add_labels (with_points P l) n y = (with_points P (fst (add_labels l n y)), snd (add_labels l n y)).
Proof.
  destruct y as [y|y|y|v|v i| |]; cbn [add_labels].
  - match goal with |- context [match ?y with [] => _ | _ => _ end] => destruct y end; [reflexivity|]. unfold append_rel, with_points; cbn. destruct (sRel l); reflexivity.
  - unfold add_ord. destruct (existsb _ y); [reflexivity|]. unfold append_ord, with_points; cbn. destruct (sOrd l) as [[? ?]|]; reflexivity.
  - unfold add_ord. destruct (existsb _ _); [reflexivity|]. unfold append_ord, with_points; cbn. destruct (sOrd l) as [[? ?]|]; reflexivity.
  - unfold add_abs. destruct (_ || _)%bool; [reflexivity|]. unfold append_abs, with_points; cbn. destruct (sAbs l) as [[? ?]|]; reflexivity.
  - unfold add_abs. destruct (_ || _)%bool; [reflexivity|]. unfold append_abs, with_points; cbn. destruct (sAbs l) as [[? ?]|]; reflexivity.
  - reflexivity.
  - reflexivity.
Qed.
Lemma add_labels_pareto l n y : sPareto (fst (add_labels l n y)) = sPareto l.
Proof.
  destruct y as [y|y|y|v|v i| |]; cbn [add_labels].
  - match goal with |- context [match ?y with [] => _ | _ => _ end] => destruct y end; [reflexivity|]. unfold append_rel; cbn. destruct (sRel l); reflexivity.
  - unfold add_ord. destruct (existsb _ y); [reflexivity|]. unfold append_ord; cbn. destruct (sOrd l) as [[? ?]|]; reflexivity.
  - unfold add_ord. destruct (existsb _ _); [reflexivity|]. unfold append_ord; cbn. destruct (sOrd l) as [[? ?]|]; reflexivity.
  - unfold add_abs. destruct (_ || _)%bool; [reflexivity|]. unfold append_abs; cbn. destruct (sAbs l) as [[? ?]|]; reflexivity.
  - unfold add_abs. destruct (_ || _)%bool; [reflexivity|]. unfold append_abs; cbn. destruct (sAbs l) as [[? ?]|]; reflexivity.
  - reflexivity.
  - reflexivity.
Qed.
Lemma add_labels_opt l n y : sOpt (fst (add_labels l n y)) = sOpt l.
Proof.
  destruct y as [y|y|y|v|v i| |]; cbn [add_labels].
  - match goal with |- context [match ?y with [] => _ | _ => _ end] => destruct y end; [reflexivity|]. unfold append_rel; cbn. destruct (sRel l); reflexivity.
  - unfold add_ord. destruct (existsb _ y); [reflexivity|]. unfold append_ord; cbn. destruct (sOrd l) as [[? ?]|]; reflexivity.
  - unfold add_ord. destruct (existsb _ _); [reflexivity|]. unfold append_ord; cbn. destruct (sOrd l) as [[? ?]|]; reflexivity.
  - unfold add_abs. destruct (_ || _)%bool; [reflexivity|]. unfold append_abs; cbn. destruct (sAbs l) as [[? ?]|]; reflexivity.
  - unfold add_abs. destruct (_ || _)%bool; [reflexivity|]. unfold append_abs; cbn. destruct (sAbs l) as [[? ?]|]; reflexivity.
  - reflexivity.
  - reflexivity.
Qed.
Lemma keep_rows_column ps (l : list Q) : keep_rows ps (column l) = column (map snd (filter (fun ir : nat * Q => mentioned ps (fst ir)) (enumerate l))).
Proof.
  unfold keep_rows, column, enumerate. generalize 0%nat. induction l as [|x l IH]; intros s; cbn; [reflexivity|].
  destruct (mentioned ps s); cbn; rewrite IH; reflexivity.
Qed.
Lemma npts_rows a : npts (rows_of a) = anpts a.
Proof. unfold npts, anpts, rows_of, with_points; cbn. destruct (aX a) as [X|]; [|reflexivity]. cbn. symmetry; apply alen_rows. Qed.

Lemma step_same a s o o' : same_call o o' -> same_store a s -> sPareto s = false ->
  same_store (fst (astep a o)) (fst (step s o')) /\ snd (astep a o) = snd (step s o') /\ sPareto (fst (step s o')) = false.
Proof.
  intros Ho Hs Hp. apply same_store_iff in Hs as [-> Hd]. assert (Hp' : sPareto (aL a) = false) by exact Hp. clear Hp. destruct Ho as [l y|b|]; cbn [astep step].
  - unfold arr_add, add. rewrite npts_rows.
    assert (E : (match aX a with None => Ok (Arr1 l) | Some X0 => aappend X0 (Arr1 l) end) =
                Ok (Arr1 ((match aX a with Some (Arr1 l0) => l0 | _ => [] end) ++ l))).
    { destruct (aX a) as [[l0|w M]|]; [reflexivity|contradiction|reflexivity]. }
    rewrite E. set (l2 := (match aX a with Some (Arr1 l0) => l0 | _ => [] end) ++ l) in *.
    assert (E2 : add_points (rows_of a) (column l) = with_points (Some (column l2)) (aL a)).
    { unfold add_points, rows_of, with_points, pts_of, l2; cbn. f_equal. f_equal.
      destruct (aX a) as [[l0|w M]|]; cbn; [unfold column; rewrite map_app; reflexivity|contradiction|reflexivity]. }
    rewrite E2, add_labels_points. pose proof (add_labels_pareto (aL a) (anpts a) y) as Hq.
    destruct (add_labels (aL a) (anpts a) y) as [L st]; cbn [fst snd] in *. rewrite Hp' in *. cbn [andb].
    assert (G : forall b, same_store {| aX := Some (Arr1 l2); aL := set_opt L b |} (set_opt (with_points (Some (column l2)) L) b)).
    { intros b; apply same_store_iff; split; [|exact I]. reflexivity. }
    assert (G0 : same_store {| aX := Some (Arr1 l2); aL := L |} (with_points (Some (column l2)) L)).
    { apply same_store_iff; split; [|exact I]. reflexivity. }
    destruct st; cbn [fst snd]; auto.
    unfold add_pareto. assert (E3 : sPareto (with_points (Some (column l2)) L) = false) by exact Hq. rewrite E3. cbn [andb]. auto.
  - destruct a as [X [x r o ab p q f]]; cbn [aX aL sPareto] in Hd, Hp'; subst f.
    unfold aremove, remove_without_reference, rows_of, with_points; cbn [aX aL sX sRel sOrd sAbs sPrior sOpt sPareto option_map].
    destruct X as [[l|w M]|]; [|contradiction|]; cbn [option_map].
    2: { cbn [fst snd sPareto]. split; [|split; reflexivity]. apply same_store_iff; split; [reflexivity|exact I]. }
    destruct r as [ps|].
    2: { cbn [fst snd sPareto]. split; [|split; reflexivity]. apply same_store_iff; split; [reflexivity|exact I]. }
    rewrite !alen_rows. cbn [arr_rows]. destruct (forallb _ ps).
    2: { cbn [fst snd sPareto]. split; [|split; reflexivity]. apply same_store_iff; split; [reflexivity|exact I]. }
    cbn [akeep arr_rows]. change (map (fun x => [x]) l) with (column l). rewrite keep_rows_column.
    set (l2 := map snd _). change (map (fun x => [x]) l2) with (column l2).
    destruct b; [|cbn [fst snd]; split; [|split; reflexivity]; apply same_store_iff; split; [reflexivity|exact I]].
    destruct p as [[u v]|]; cbn [fst snd]; (split; [|split; reflexivity]); apply same_store_iff; (split; [reflexivity|exact I]).
  - cbn [fst snd]. split; [|split; [reflexivity|exact Hp']]. apply same_store_iff; split; [reflexivity|exact I].
Qed.
Lemma run_same ops ops' : Forall2 same_call ops ops' -> forall a s, same_store a s -> sPareto s = false ->
  same_store (fst (arun a ops)) (fst (run_st s ops')) /\ snd (arun a ops) = snd (run_st s ops').
Proof.
  induction 1 as [|o o' ops ops' Ho _ IH]; intros a s Hs Hp; cbn [arun run_st]; [auto|].
  destruct (step_same a s o o' Ho Hs Hp) as (H1 & H2 & H3).
  destruct (astep a o) as [a1 st1]; destruct (step s o') as [s1 st1']; cbn [fst snd] in *; subst st1'.
  destruct (IH a1 s1 H1 H3) as [H4 H5]. destruct (arun a1 ops) as [a2 t]; destruct (run_st s1 ops') as [s2 t']; cbn [fst snd] in *; subst; auto.
Qed.

(** with Pareto pairs switched on every second plain number raises; points and labels are kept and the flag is not cleared *)
Lemma pareto_raises a l y : sPareto (aL a) = true -> match aX a with Some (Arr2 _ _) => False | _ => True end -> l <> [] ->
  (1 < anpts a + length l)%nat -> accepted (aL a) (anpts a) y ->
  exists a', arr_add a (Arr1 l) y = (a', Raised ValueError) /\ anpts a' = (anpts a + length l)%nat /\
             sOpt (aL a') = sOpt (aL a) /\ aL a' = fst (add_labels (aL a) (anpts a) y).
Proof.
  intros Hp Hd Hl Hn Hy. unfold arr_add.
  set (l0 := match aX a with Some (Arr1 l0) => l0 | _ => [] end).
  assert (E : (match aX a with None => Ok (Arr1 l) | Some X0 => aappend X0 (Arr1 l) end) = Ok (Arr1 (l0 ++ l))).
  { unfold l0; destruct (aX a) as [[?|? ?]|]; [reflexivity|contradiction|reflexivity]. }
  assert (E0 : anpts a = length l0). { unfold anpts, l0; destruct (aX a) as [[?|? ?]|]; [reflexivity|contradiction|reflexivity]. }
  rewrite E. unfold accepted in Hy. pose proof (add_labels_opt (aL a) (anpts a) y) as Ho.
  destruct (add_labels (aL a) (anpts a) y) as [L st]; cbn [fst snd] in *; subst st.
  rewrite Hp. cbn [alen andb]. assert (H1 : (1 <? length (l0 ++ l))%nat = true) by (apply Nat.ltb_lt; rewrite app_length; lia). rewrite H1.
  destruct l as [|x l]; [contradiction|]. cbn [apareto]. eexists; split; [reflexivity|]. split; [|split; [exact Ho|reflexivity]].
  rewrite E0. unfold anpts; cbn [aX alen]. apply app_length.
Qed.

(** points with another number of axes are refused and nothing changes *)
Lemma mixed_add_refused a l y w M : aX a = Some (Arr2 w M) -> arr_add a (Arr1 l) y = (a, Raised ValueError).
Proof. intros E; unfold arr_add; rewrite E; reflexivity. Qed.
Lemma mixed_add_refused2 a l y w M : aX a = Some (Arr1 l) -> arr_add a (Arr2 w M) y = (a, Raised ValueError).
Proof. intros E; unfold arr_add; rewrite E; reflexivity. Qed.

(** one point with several coordinates given as a 1-d array *)
Lemma vector_is_points p (x : list Q) y : accepted (init p) 0 y -> (p = true -> (length x <= 1)%nat) ->
  exists a, arr_add (ainit p) (Arr1 x) y = (a, Done) /\ anpts a = length x /\
            forall M y2, arr_add a (Arr2 (length x) M) y2 = (a, Raised ValueError).
Proof.
  intros Hy Hp. unfold arr_add; cbn [ainit aX aL anpts]. unfold accepted in Hy.
  destruct (add_labels (init p) 0 y) as [L st] eqn:EL; cbn [fst snd] in *; subst st.
  change (sPareto (init p)) with p. cbn [alen].
  assert (E : (p && (1 <? length x))%bool = false).
  { destruct p; [|reflexivity]. cbn [andb]. apply Nat.ltb_ge. auto. }
  rewrite E. eexists; split; [reflexivity|]; split; [reflexivity|]. intros; reflexivity.
Qed.

(** the linear model never predicts for plain numbers *)
Lemma linear_never o T w f dr l : exists e, alin_predict o T w f dr (Arr1 l) = Raise e.
Proof.
  unfold alin_predict, lin_matmul. destruct T as [[t|v M]|]; [| |eexists; reflexivity].
  - destruct o; [|eexists; reflexivity]. destruct (Nat.eqb _ _); eexists; reflexivity.
  - destruct o; destruct (Nat.eqb _ _); eexists; reflexivity.
Qed.
Lemma linear_rows T w f dr v M : (forall t, T = Some t -> exists u N, t = Arr2 u N) -> length w = v -> length f = v -> length (dr v) = v ->
  forall o, exists F, alin_predict o T w f dr (Arr2 v M) = Ok F /\ length F = length M.
Proof.
  intros HT Hw Hf Hd o. unfold alin_predict, lin_matmul. destruct T as [t|].
  - destruct (HT t eq_refl) as (u & N & ->). destruct o; rewrite ?Hw, ?Hf, Nat.eqb_refl; eexists; split; try reflexivity; apply map_length.
  - rewrite Hd, Nat.eqb_refl; eexists; split; try reflexivity; apply map_length.
Qed.
Lemma simplest_same l : simplest_predict (Arr1 l) = simplest_predict (Arr2 1 (column l)).
Proof.
  cbn [simplest_predict]. unfold column. rewrite map_map. rewrite <- (map_id l) at 1. apply map_ext. intros x. cbn. lra.
Qed.

(** plain numbers against rows: each number stands for a point with all coordinates equal *)
Lemma stretched s l n xs w M : w <> 1%nat ->
  rbf_cov_arr s l n (Arr1 xs) (Arr2 w M) = rbf_cov s l n (map (fun x => repeat x w) xs) M.
Proof.
  intros Hw; unfold rbf_cov_arr, bcast; cbn [width arr_rows]. rewrite (proj2 (Nat.eqb_neq 1 w)) by congruence. cbn [Nat.eqb bind fst snd].
  rewrite map_map. reflexivity.
Qed.

Lemma gp_plain : forall ops ops' k l, Forall2 same_gp_call ops ops' -> zeros_fit 1 k ->
  exists st st', agp_run ops None = Ok st /\ gp_run None ops' None = Ok st' /\
    snd (agp_predict k st (Arr1 l)) = gp_predict None k st' (column l).
Proof.
  intros ops ops' k l H Hz. destruct (agp_run_same ops ops' H None) as (st & H1 & H2 & H3); [discriminate|].
  exists st, (option_map rows_data st); split; [exact H1|]; split; [exact H2|].
  apply (agp_predict_same 1 k st (Arr1 l) Hz (holds_column l)). intros t E. destruct (H3 t E) as [l' ->]. apply holds_column.
Qed.
Lemma store_plain : forall ops ops', Forall2 same_call ops ops' ->
  same_store (fst (arun (ainit false) ops)) (fst (run_st (init false) ops')) /\ snd (arun (ainit false) ops) = snd (run_st (init false) ops').
Proof. intros ops ops' H; apply (run_same ops ops' H); [|reflexivity]. repeat split. Qed.
Lemma no_mixture : forall a l w M y,
  (aX a = Some (Arr2 w M) -> arr_add a (Arr1 l) y = (a, Raised ValueError)) /\
  (aX a = Some (Arr1 l) -> arr_add a (Arr2 w M) y = (a, Raised ValueError)) /\
  (forall v N, aX a = Some (Arr2 v N) -> v <> w -> arr_add a (Arr2 w M) y = (a, Raised ValueError)).
Proof.
  intros a l w M y. split; [|split].
  - exact (mixed_add_refused a l y w M).
  - exact (mixed_add_refused2 a l y w M).
  - intros v N H D. unfold arr_add. rewrite H. cbn [aappend]. now rewrite (proj2 (Nat.eqb_neq v w) D).
Qed.
Lemma kernels_plain : forall (d : nat) (k : kern) (calls : list (arr R * arr R)),
  zeros_fit d k -> (forall X Y, In (X, Y) calls -> holds d X /\ holds d Y) ->
  kcalls k calls = map (fun XY => kcov k (arr_rows (fst XY)) (arr_rows (snd XY))) calls.
Proof. intros d k calls H; exact (kcalls_same d k H calls). Qed.
Lemma leading_fixed s l n X Y : (0 < alen X)%nat -> forall k, leading k = ZRBF s l n None -> leading (fst (kcov_arr k X Y)) = ZRBF s l n (Some (repeat 0 (width X))).
Proof.
  intros L. induction k as [| | |s' l' n' z|a IHa b IHb|a IHa b IHb]; cbn [leading]; intro H; try discriminate H.
  - injection H as -> -> -> ->. cbn [kcov_arr]. destruct X as [[|x xs]|w [|r M]]; cbn in L |- *; try lia; reflexivity.
  - specialize (IHa H). cbn [kcov_arr]. destruct (kcov_arr a X Y) as [a' [A|e]]; cbn [fst] in *; [destruct (kcov_arr b X Y)|]; cbn [fst leading]; exact IHa.
  - specialize (IHa H). cbn [kcov_arr]. destruct (kcov_arr a X Y) as [a' [A|e]]; cbn [fst] in *; [destruct (kcov_arr b X Y)|]; cbn [fst leading]; exact IHa.
Qed.
Lemma simplest_sums X i : (i < alen X)%nat -> nth i (simplest_predict X) 0 = rsum (nth i (arr_rows X) []).
Proof.
  destruct X as [l|w M]; cbn [alen simplest_predict arr_rows]; intro L.
  - rewrite (nth_indep (map _ l) [] [0]) by now rewrite map_length. rewrite (map_nth (fun x : R => [x])). cbn. lra.
  - rewrite (nth_indep _ 0 (rsum [])) by now rewrite map_length. now rewrite map_nth.
Qed.
