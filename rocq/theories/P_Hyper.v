(** Lemmas about hyper-parameter vectors. *)
From Verif Require Import P_Base P_RBase P_Util P_Kernel P_KernelGrad.
From Coq Require Import Lra Lia.
From Verif Require Import M_RBase M_Util M_Kernel M_Hyper S_Kernel S_Hyper.
Local Open Scope R_scope.

Lemma last_linspace b n : (2 <= n)%nat -> last (linspace0 b n) 0 = b.
Proof.
  intro H. destruct n as [|[|n]]; try lia. unfold linspace0.
  replace (seq 0 (S (S n))) with (seq 0 (S n) ++ [S n]) by (symmetry; apply (seq_S (S n) 0)).
  rewrite map_app. cbn [map]. rewrite last_last. replace (S (S n) - 1)%nat with (S n) by lia. field. apply not_0_INR. lia.
Qed.
Lemma pref_rt p x : length x = length (pref_get p) -> exists p', pref_set p x = Ok p' /\ pref_get p' = x /\ p_opt p' = p_opt p.
Proof.
  unfold pref_get, pref_set. destruct (p_opt p) eqn:E; destruct x as [|s [|? ?]]; try discriminate; intros _; cbn; eexists; (split; [reflexivity|]); cbn; rewrite ?E; auto.
Qed.
Lemma ord_rt o x : length x = 2%nat -> (3 <= o_n o)%nat -> 0 <= nth 1 x 0 -> exists o', ord_set o x = Ok o' /\ ord_get o' = x /\ o_n o' = o_n o.
Proof.
  destruct x as [|s [|b [|? ?]]]; try discriminate. intros _ H Hb. cbn [nth] in Hb. cbn. eexists. split; [reflexivity|]. unfold ord_get, ord_set_b. cbn [o_sigma o_b o_n].
  rewrite last_linspace by lia. rewrite Rabs_pos_eq by auto. auto.
Qed.
Lemma abs_rt a x : length x = length (abs_get a) -> exists a', abs_set a x = Ok a' /\ abs_get a' = x /\ a_opt a' = a_opt a /\ a_v_only a' = a_v_only a.
Proof.
  unfold abs_get, abs_set. destruct (a_opt a) eqn:E; [destruct (a_v_only a) eqn:F|]; destruct x as [|s [|v [|? ?]]]; try discriminate; intros _; cbn; eexists; (split; [reflexivity|]); cbn; rewrite ?E, ?F; auto.
Qed.
Lemma firstn_exact {A} (a b : list A) : firstn (length a) (a ++ b) = a.
Proof. rewrite firstn_app, firstn_all, Nat.sub_diag. cbn. apply app_nil_r. Qed.
Lemma skipn_exact {A} (a b : list A) : skipn (length a) (a ++ b) = b.
Proof. rewrite skipn_app, skipn_all, Nat.sub_diag. reflexivity. Qed.
Lemma skipn_plus {A} (a b : nat) (l : list A) : skipn (a + b) l = skipn b (skipn a l).
Proof. revert l. induction a as [|a IH]; intros [|x l]; cbn [skipn Nat.add]; auto. now rewrite skipn_nil. Qed.
Lemma nth_error_skipn {A} (n k : nat) (l : list A) : nth_error (skipn n l) k = nth_error l (n + k).
Proof. revert l. induction n as [|n IH]; intros [|x l]; cbn [skipn Nat.add nth_error]; auto. now destruct k. Qed.
(** what set_probit_hyper does with a vector made of the right parts *)
Lemma set_probit_parts m x0 x1 x2 rest :
  length x0 = (if h_rel m then length (pref_get (h_p m)) else 0%nat) -> length x1 = (if h_ord m then 2%nat else 0%nat) ->
  length x2 = (if h_abs m then length (abs_get (h_a m)) else 0%nat) ->
  set_probit_hyper m (x0 ++ x1 ++ x2 ++ rest) =
    (do p <- if h_rel m then pref_set (h_p m) x0 else Ok (h_p m);
     do o <- if h_ord m then ord_set (h_o m) x1 else Ok (h_o m);
     do a <- if h_abs m then abs_set (h_a m) x2 else Ok (h_a m);
     Ok (mkH (h_rel m) (h_ord m) (h_abs m) p o a (h_only_probit m) (h_kern m))).
Proof.
  intros H0 H1 H2. unfold set_probit_hyper. cbv zeta. rewrite <- H0. change (length (ord_get (h_o m))) with 2%nat. rewrite <- H1.
  rewrite firstn_exact, skipn_exact, firstn_exact. rewrite skipn_plus, !skipn_exact.
  destruct (h_abs m); [rewrite <- H2, firstn_exact|]; reflexivity.
Qed.
Lemma probit_rt m x rest : length x = length (probit_hyper m) ->
  (h_ord m = true -> (3 <= o_n (h_o m))%nat /\ forall b, nth_error x (bias_pos m) = Some b -> 0 <= b) ->
  exists m', set_probit_hyper m (x ++ rest) = Ok m' /\ probit_hyper m' = x /\ same_setup m m' /\ h_kern m' = h_kern m.
Proof.
  intros HL Hb. unfold probit_hyper in HL. rewrite !app_length in HL.
  set (n0 := length (if h_rel m then pref_get (h_p m) else [])) in *. set (n1 := length (if h_ord m then ord_get (h_o m) else [])) in *.
  set (n2 := length (if h_abs m then abs_get (h_a m) else [])) in *.
  set (x0 := firstn n0 x). set (x1 := firstn n1 (skipn n0 x)). set (x2 := skipn (n0 + n1) x).
  assert (EX : x = x0 ++ x1 ++ x2).
  { unfold x0, x1, x2. rewrite skipn_plus, (firstn_skipn n1 (skipn n0 x)). symmetry. apply firstn_skipn. }
  assert (L0 : length x0 = n0) by (unfold x0; rewrite firstn_length; lia).
  assert (L1 : length x1 = n1) by (unfold x1; rewrite firstn_length, skipn_length; lia).
  assert (L2 : length x2 = n2) by (unfold x2; rewrite skipn_length; lia).
  assert (K0 : length x0 = (if h_rel m then length (pref_get (h_p m)) else 0%nat)) by (rewrite L0; unfold n0; destruct (h_rel m); auto).
  assert (K1 : length x1 = (if h_ord m then 2%nat else 0%nat)) by (rewrite L1; unfold n1; destruct (h_ord m); auto).
  assert (K2 : length x2 = (if h_abs m then length (abs_get (h_a m)) else 0%nat)) by (rewrite L2; unfold n2; destruct (h_abs m); auto).
  rewrite EX, <- !app_assoc, set_probit_parts by auto.
  assert (A0 : exists p', (if h_rel m then pref_set (h_p m) x0 else Ok (h_p m)) = Ok p' /\ (if h_rel m then pref_get p' else []) = x0 /\ p_opt p' = p_opt (h_p m) /\ (h_rel m = false -> p' = h_p m)).
  { destruct (h_rel m); [destruct (pref_rt _ _ K0) as [p' [E [F G]]]; exists p'; repeat split; auto; discriminate|]. exists (h_p m). destruct x0; [auto|discriminate]. }
  assert (A2 : exists a', (if h_abs m then abs_set (h_a m) x2 else Ok (h_a m)) = Ok a' /\ (if h_abs m then abs_get a' else []) = x2 /\ a_opt a' = a_opt (h_a m) /\ a_v_only a' = a_v_only (h_a m) /\ (h_abs m = false -> a' = h_a m)).
  { destruct (h_abs m); [destruct (abs_rt _ _ K2) as [p' [E [F [G I]]]]; exists p'; repeat split; auto; discriminate|]. exists (h_a m). destruct x2; [auto|discriminate]. }
  assert (A1 : exists o', (if h_ord m then ord_set (h_o m) x1 else Ok (h_o m)) = Ok o' /\ (if h_ord m then ord_get o' else []) = x1 /\ o_n o' = o_n (h_o m) /\ (h_ord m = false -> o' = h_o m)).
  { destruct (h_ord m) eqn:Eo.
    - destruct (Hb eq_refl) as [Hn Hbb]. destruct (ord_rt (h_o m) x1 K1 Hn) as [o' [E [F G]]].
      + apply Hbb. rewrite EX. assert (Ebp : bias_pos m = (length x0 + 1)%nat).
        { unfold bias_pos. rewrite K0. unfold pref_get. destruct (h_rel m), (p_opt (h_p m)); reflexivity. }
        rewrite Ebp, nth_error_app2 by lia. replace (length x0 + 1 - length x0)%nat with 1%nat by lia. rewrite nth_error_app1 by (rewrite K1; lia).
        destruct x1 as [|s [|b [|? ?]]]; try discriminate. reflexivity.
      + exists o'. repeat split; auto. discriminate.
    - exists (h_o m). destruct x1; [auto|discriminate]. }
  destruct A0 as [p' [E0 [F0 [G0 I0]]]]. destruct A1 as [o' [E1 [F1 [G1 I1]]]]. destruct A2 as [a' [E2 [F2 [G2 [J2 I2]]]]].
  rewrite E0, E1, E2. cbn [bind]. eexists. split; [reflexivity|]. split.
  - unfold probit_hyper. cbn [h_rel h_ord h_abs h_p h_o h_a]. now rewrite F0, F1, F2.
  - split; [|reflexivity]. unfold same_setup. cbn. repeat split; auto.
Qed.
Lemma hyper_rt m x : length x = length (get_hyper m) ->
  (h_ord m = true -> (3 <= o_n (h_o m))%nat /\ forall b, nth_error x (bias_pos m) = Some b -> 0 <= b) ->
  exists m', set_hyper m x = Ok m' /\ get_hyper m' = x /\ same_setup m m'.
Proof.
  unfold get_hyper, set_hyper. destruct (h_kern m) as [k|] eqn:Ek; intros HL Hb.
  - destruct (h_only_probit m) eqn:Eop.
    + rewrite <- HL, firstn_all. destruct (probit_rt m x [] HL Hb) as [m' [E [F [G H]]]]. rewrite app_nil_r in E. rewrite E. cbn [bind]. exists m'. split; auto. split; auto.
      rewrite H, Ek. destruct G as [_ [_ [_ [G _]]]]. now rewrite G, Eop.
    + rewrite app_length in HL. set (n := length (probit_hyper m)) in *.
      assert (L1 : length (firstn n x) = n) by (rewrite firstn_length; lia).
      assert (Hb' : h_ord m = true -> (3 <= o_n (h_o m))%nat /\ forall b, nth_error (firstn n x) (bias_pos m) = Some b -> 0 <= b).
      { intro Ho. destruct (Hb Ho) as [H1 H2]. split; auto. intros b Hbb. apply H2. rewrite <- (firstn_skipn n x). rewrite nth_error_app1; auto.
        apply nth_error_Some. rewrite Hbb. discriminate. }
      destruct (probit_rt m (firstn n x) [] L1 Hb') as [m' [E [F [G H]]]]. rewrite app_nil_r in E. rewrite E. cbn [bind].
      destruct (kset_ok k (skipn n x)) as [k' [Ek' Pk]]; [rewrite skipn_length; lia|]. rewrite Ek'. cbn [bind]. eexists. split; [reflexivity|].
      destruct G as [G1 [G2 [G3 [G4 [G5 [G6 [G7 [G8 [G9 [G10 G11]]]]]]]]]]. split.
      * cbn [h_kern h_only_probit]. rewrite Pk. transitivity (firstn n x ++ skipn n x); [f_equal|apply firstn_skipn].
        rewrite <- F. unfold probit_hyper. cbn [h_rel h_ord h_abs h_p h_o h_a]. now rewrite G1, G2, G3.
      * unfold same_setup. cbn [h_rel h_ord h_abs h_p h_o h_a h_only_probit]. repeat split; auto.
  - destruct (probit_rt m x [] HL Hb) as [m' [E [F [G H]]]]. rewrite app_nil_r in E. exists m'. split; auto. split; auto. now rewrite H, Ek.
Qed.
Lemma bias_entry m : h_ord m = true -> nth_error (get_hyper m) (bias_pos m) = Some (last (o_b (h_o m)) 0).
Proof.
  intro H. assert (E : nth_error (probit_hyper m) (bias_pos m) = Some (last (o_b (h_o m)) 0)).
  { unfold probit_hyper, bias_pos. rewrite H. unfold pref_get. destruct (h_rel m), (p_opt (h_p m)); reflexivity. }
  unfold get_hyper. destruct (h_kern m) as [k|]; [destruct (h_only_probit m)|]; auto. rewrite nth_error_app1; auto. apply nth_error_Some. congruence.
Qed.
Lemma hyper_id m : (h_ord m = true -> (3 <= o_n (h_o m))%nat /\ 0 <= last (o_b (h_o m)) 0) ->
  exists m', set_hyper m (get_hyper m) = Ok m' /\ get_hyper m' = get_hyper m /\ same_setup m m'.
Proof.
  intro H. apply hyper_rt; auto. intro Ho. destruct (H Ho) as [H1 H2]. split; auto. intros b Hb. rewrite bias_entry in Hb by auto. injection Hb as <-. auto.
Qed.
(** the bias stored is the absolute value; with two ordinals it is always 0 *)
Lemma probit_set_bias m x m' : set_probit_hyper m x = Ok m' -> h_ord m = true ->
  exists b, nth_error x (bias_pos m) = Some b /\ o_b (h_o m') = linspace0 (Rabs b) (o_n (h_o m) - 1) /\ h_ord m' = true /\ bias_pos m' = bias_pos m.
Proof.
  intros E Ho. unfold set_probit_hyper in E. rewrite Ho in E.
  destruct (if h_rel m then pref_set (h_p m) _ else _) as [p|] eqn:Ep; [|discriminate]. cbn [bind] in E.
  destruct (ord_set (h_o m) _) as [o|] eqn:Eo; [|discriminate]. cbn [bind] in E.
  destruct (if h_abs m then _ else _) as [a|] eqn:Ea; [|discriminate]. cbn [bind] in E. injection E as <-. cbn [h_ord h_o].
  assert (Pp : (h_rel m = true -> p_opt p = p_opt (h_p m))).
  { intro Hr. rewrite Hr in Ep. unfold pref_set in Ep. destruct (p_opt (h_p m)) eqn:F; [|now injection Ep as <-].
    destruct (getitem _ 0); [|discriminate]. cbn [bind] in Ep. now injection Ep as <-. }
  unfold bias_pos. cbn [h_rel h_p].
  set (n0 := if h_rel m then length (pref_get (h_p m)) else 0%nat) in *. unfold ord_set in Eo.
  set (sl := firstn (length (ord_get (h_o m))) (skipn n0 x)) in *.
  unfold getitem in Eo. destruct (nth_error sl 0) as [s|] eqn:F0; [|discriminate]. cbn [bind] in Eo. destruct (nth_error sl 1) as [b|] eqn:F1; [|discriminate]. cbn [bind] in Eo. injection Eo as <-.
  exists b. assert (N : n0 = (if (h_rel m && p_opt (h_p m))%bool then 1%nat else 0%nat)) by (unfold n0, pref_get; destruct (h_rel m), (p_opt (h_p m)); reflexivity).
  split; [|split; [reflexivity|split; [reflexivity|]]].
  - rewrite <- N. unfold sl in F1. change (length (ord_get (h_o m))) with 2%nat in F1.
    assert (G : nth_error (skipn n0 x) 1 = Some b) by (destruct (skipn n0 x) as [|? [|? ?]]; try discriminate; exact F1).
    rewrite <- G. symmetry. apply nth_error_skipn.
  - destruct (h_rel m); cbn [andb]; [rewrite Pp by auto|]; reflexivity.
Qed.
Lemma probit_set_kern m x m' : set_probit_hyper m x = Ok m' -> h_kern m' = h_kern m /\ h_only_probit m' = h_only_probit m.
Proof.
  unfold set_probit_hyper. destruct (if h_rel m then _ else _); [|discriminate]. cbn [bind]. destruct (if h_ord m then _ else _); [|discriminate]. cbn [bind].
  destruct (if h_abs m then _ else _); [|discriminate]. cbn [bind]. intro E. now injection E as <-.
Qed.
Lemma set_hyper_kern m x m' : set_hyper m x = Ok m' ->
  match h_kern m with
  | None => h_kern m' = None
  | Some k => if h_only_probit m then h_kern m' = Some k
              else exists k', kset k (skipn (length (probit_hyper m)) x) = Ok k' /\ h_kern m' = Some k'
  end.
Proof.
  unfold set_hyper. destruct (h_kern m) as [k|] eqn:Ek.
  - destruct (set_probit_hyper m _) as [m1|] eqn:E1; [|discriminate]. cbn [bind]. apply probit_set_kern in E1 as [E1 _]. destruct (h_only_probit m).
    + intro E. injection E as <-. congruence.
    + destruct (kset k _) as [k'|] eqn:E2; [|discriminate]. cbn [bind]. intro E. injection E as <-. exists k'. auto.
  - intro E. apply probit_set_kern in E as [E _]. congruence.
Qed.
(** the ordinal bias after set_hyper *)
Lemma set_hyper_bias m x m' : set_hyper m x = Ok m' -> h_ord m = true ->
  exists b, nth_error x (bias_pos m) = Some b /\ o_b (h_o m') = linspace0 (Rabs b) (o_n (h_o m) - 1) /\ nth_error (get_hyper m') (bias_pos m) = Some (last (linspace0 (Rabs b) (o_n (h_o m) - 1)) 0).
Proof.
  intros E Ho. assert (K : exists y m1, set_probit_hyper m y = Ok m1 /\ (forall i v, nth_error y i = Some v -> nth_error x i = Some v) /\ h_o m' = h_o m1 /\ bias_pos m' = bias_pos m1 /\ h_ord m' = h_ord m1).
  { unfold set_hyper in E. destruct (h_kern m) as [k|].
    - destruct (set_probit_hyper m (firstn _ x)) as [m1|] eqn:E1; [|discriminate]. cbn [bind] in E. exists (firstn (length (probit_hyper m)) x), m1. split; auto.
      split. { intros i v H. rewrite <- (firstn_skipn (length (probit_hyper m)) x). rewrite nth_error_app1; auto. apply nth_error_Some. congruence. }
      destruct (h_only_probit m); [now injection E as <-|]. destruct (kset k _); [|discriminate]. cbn [bind] in E. injection E as <-.
      unfold set_probit_hyper in E1. destruct (if h_rel m then _ else _); [|discriminate]. cbn [bind] in E1. destruct (if h_ord m then _ else _); [|discriminate]. cbn [bind] in E1.
      destruct (if h_abs m then _ else _); [|discriminate]. cbn [bind] in E1. injection E1 as <-. auto.
    - exists x, m'. auto. }
  destruct K as [y [m1 [E1 [Hy [Eo [Eb Eh]]]]]]. destruct (probit_set_bias m y m1 E1 Ho) as [b [H1 [H2 [H3 H4]]]]. exists b. split; auto. rewrite Eo. split; auto.
  rewrite <- H4, <- Eb, bias_entry by congruence. now rewrite Eo, H2.
Qed.
Lemma negative_bias m x m' b : set_hyper m x = Ok m' -> h_ord m = true -> nth_error x (bias_pos m) = Some b -> b < 0 -> get_hyper m' <> x.
Proof.
  intros E Ho Hb Hn F. destruct (set_hyper_bias m x m' E Ho) as [b' [H1 [_ H3]]]. rewrite H1 in Hb. injection Hb as ->. rewrite F, H1 in H3. injection H3 as H3.
  assert (0 <= last (linspace0 (Rabs b) (o_n (h_o m) - 1)) 0).
  { destruct (o_n (h_o m) - 1)%nat as [|[|n]]; [cbn; lra|cbn; lra|]. rewrite last_linspace by lia. apply Rabs_pos. }
  lra.
Qed.
Lemma two_ordinals m x m' b : set_hyper m x = Ok m' -> h_ord m = true -> (o_n (h_o m) <= 2)%nat -> nth_error x (bias_pos m) = Some b -> b <> 0 -> get_hyper m' <> x.
Proof.
  intros E Ho Hn Hb Hz F. destruct (set_hyper_bias m x m' E Ho) as [b' [H1 [_ H3]]]. rewrite H1 in Hb. injection Hb as ->. rewrite F, H1 in H3. injection H3 as H3.
  destruct (o_n (h_o m) - 1)%nat as [|[|n]] eqn:En; [| |lia]; cbn in H3; congruence.
Qed.
(** a vector of breakpoints is replaced by equally spaced ones *)
Lemma breakpoints_lost m x m' : set_hyper m x = Ok m' -> h_ord m = true -> exists b, o_b (h_o m') = linspace0 b (o_n (h_o m) - 1).
Proof. intros E Ho. destruct (set_hyper_bias m x m' E Ho) as [b [_ [H _]]]. eauto. Qed.
(** too short a vector raises *)
Lemma kset_short k th k' : kset k th = Ok k' -> (length (kparam k) <= length th)%nat.
Proof.
  revert th k'. induction k as [s l e|s sb c|s l p|s l e z|a IHa b IHb|a IHa b IHb]; intros th k'; cbn [kset kparam]; intro E.
  1,4: destruct th as [|? [|? ?]]; try discriminate; cbn [length]; lia.
  1,2: destruct th as [|? [|? [|? ?]]]; try discriminate; cbn [length]; lia.
  all: destruct (kset a _) as [a'|] eqn:Ea; [|discriminate]; cbn [bind] in E; destruct (kset b _) as [b'|] eqn:Eb; [|discriminate];
    apply IHa in Ea; apply IHb in Eb; rewrite firstn_length in Ea; rewrite skipn_length in Eb; rewrite app_length; lia.
Qed.
Lemma probit_short m x m' : set_probit_hyper m x = Ok m' -> (length (probit_hyper m) <= length x)%nat.
Proof.
  unfold set_probit_hyper. cbv zeta. set (n0 := if h_rel m then length (pref_get (h_p m)) else 0%nat). set (n1 := if h_ord m then length (ord_get (h_o m)) else 0%nat).
  destruct (if h_rel m then pref_set (h_p m) _ else _) as [p|] eqn:Ep; [|discriminate]. cbn [bind]. destruct (if h_ord m then ord_set (h_o m) _ else _) as [o|] eqn:Eo; [|discriminate]. cbn [bind].
  destruct (if h_abs m then abs_set (h_a m) _ else _) as [a|] eqn:Ea; [|discriminate]. intros _.
  assert (L0 : (n0 <= length x)%nat).
  { unfold n0 in *. destruct (h_rel m); [|lia]. unfold pref_set, pref_get in *. destruct (p_opt (h_p m)); cbn [length] in *; [|lia]. destruct x; [cbn in Ep; discriminate|cbn; lia]. }
  assert (L1 : (n1 + n0 <= length x)%nat).
  { unfold n1 in *. destruct (h_ord m); [|lia]. cbn [length ord_get] in *. unfold ord_set in Eo. assert (K := skipn_length n0 x). destruct (skipn n0 x) as [|? [|? ?]]; try discriminate. cbn [length] in K. lia. }
  assert (L2 : ((if h_abs m then length (abs_get (h_a m)) else 0) + n1 + n0 <= length x)%nat).
  { destruct (h_abs m); [|lia]. unfold abs_set, abs_get in *. destruct (a_opt (h_a m)); [|cbn [length]; lia]. assert (K := skipn_length (n0 + n1) x).
    destruct (a_v_only (h_a m)); cbn [length firstn] in *; destruct (skipn (n0 + n1) x) as [|? [|? ?]]; try discriminate; cbn [length] in *; lia. }
  unfold probit_hyper. rewrite !app_length. unfold n0, n1 in L2. destruct (h_rel m), (h_ord m), (h_abs m); cbn [length ord_get] in *; lia.
Qed.
Lemma set_hyper_short m x m' : set_hyper m x = Ok m' -> (length (get_hyper m) <= length x)%nat.
Proof.
  unfold set_hyper, get_hyper. destruct (h_kern m) as [k|].
  - destruct (set_probit_hyper m _) as [m1|] eqn:E1; [|discriminate]. cbn [bind]. apply probit_short in E1. rewrite firstn_length in E1. destruct (h_only_probit m); [lia|].
    destruct (kset k _) as [k'|] eqn:E2; [|discriminate]. intros _. apply kset_short in E2. rewrite skipn_length in E2. rewrite app_length. lia.
  - apply probit_short.
Qed.
