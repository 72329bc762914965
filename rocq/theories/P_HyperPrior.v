(** Lemmas about random hyper-parameters and the gradient of their prior. *)
From Verif Require Import P_Base P_RBase P_Util P_Kernel P_KernelGrad P_Hyper.
From Coquelicot Require Import Coquelicot.
From Coq Require Import Lra Lia.
From Verif Require Import M_RBase M_Util M_Kernel M_Hyper S_Kernel S_Hyper.
Local Open Scope R_scope.

Lemma atomic_samples k d : atomic k -> (length (kparam k) <= length (d_k d))%nat -> kern_samples k d = firstn (length (kparam k)) (d_k d) /\ length (kern_samples k d) = length (kparam k).
Proof. destruct k; cbn [atomic kern_samples]; try tauto; intros _ H; (split; [reflexivity|]); rewrite firstn_length; lia. Qed.
Lemma abs_samples_len a d : a_opt a = true -> length (abs_samples a d) = length (abs_get a).
Proof. unfold abs_samples, abs_get. intros ->. destruct (a_v_only a); reflexivity. Qed.
Lemma pref_sample_set p d : p_opt p = true -> pref_set p (pref_samples p d) = Ok (mkPref (d_p d) true).
Proof. unfold pref_set, pref_samples. intros ->. reflexivity. Qed.
Lemma abs_sample_set a d : a_opt a = true -> exists a', abs_set a (abs_samples a d) = Ok a' /\ a_v a' = d_av d /\ (a_v_only a = false -> a_sigma a' = d_as d) /\ a_opt a' = true /\ a_v_only a' = a_v_only a.
Proof. unfold abs_set, abs_samples. intros E. rewrite E. destruct (a_v_only a); eexists; (split; [reflexivity|]); cbn; auto; repeat split; discriminate. Qed.
(** what set_hyper does to the probits with the samples in front *)
Lemma set_samples m d rest : h_ord m = false -> (p_opt (h_p m) = true -> h_rel m = true) -> (h_abs m = true -> a_opt (h_a m) = true -> length (abs_samples (h_a m) d) = length (abs_get (h_a m))) ->
  exists m', set_probit_hyper m (pref_samples (h_p m) d ++ abs_samples (h_a m) d ++ rest) = Ok m' /\ h_kern m' = h_kern m /\ h_only_probit m' = h_only_probit m /\
    h_rel m' = h_rel m /\ h_ord m' = h_ord m /\ h_abs m' = h_abs m /\ p_opt (h_p m') = p_opt (h_p m) /\ a_opt (h_a m') = a_opt (h_a m) /\ a_v_only (h_a m') = a_v_only (h_a m) /\
    (h_rel m = true -> p_opt (h_p m) = true -> p_sigma (h_p m') = d_p d) /\
    (h_abs m = true -> a_opt (h_a m) = true -> a_v (h_a m') = d_av d /\ (a_v_only (h_a m) = false -> a_sigma (h_a m') = d_as d)).
Proof.
  intros Ho Hp Hl. assert (N0 : length (pref_samples (h_p m) d) = (if h_rel m then length (pref_get (h_p m)) else 0%nat)).
  { unfold pref_samples, pref_get in *. destruct (p_opt (h_p m)) eqn:E; [rewrite Hp by auto; reflexivity|]. destruct (h_rel m); reflexivity. }
  assert (A0 : exists p, (if h_rel m then pref_set (h_p m) (pref_samples (h_p m) d) else Ok (h_p m)) = Ok p /\ p_opt p = p_opt (h_p m) /\ (h_rel m = true -> p_opt (h_p m) = true -> p_sigma p = d_p d)).
  { destruct (p_opt (h_p m)) eqn:E.
    - rewrite Hp by auto. rewrite pref_sample_set by auto. eexists. split; [reflexivity|]. auto.
    - exists (h_p m). split; [|split; auto; discriminate]. destruct (h_rel m); auto. unfold pref_set. now rewrite E. }
  destruct A0 as [p [E0 [F0 G0]]]. unfold set_probit_hyper. cbv zeta. rewrite Ho, <- N0, firstn_exact, E0. cbn [bind]. rewrite Nat.add_0_r, skipn_exact.
  assert (A1 : exists a, (if h_abs m then abs_set (h_a m) (firstn (length (abs_get (h_a m))) (abs_samples (h_a m) d ++ rest)) else Ok (h_a m)) = Ok a /\ a_opt a = a_opt (h_a m) /\ a_v_only a = a_v_only (h_a m) /\
    (h_abs m = true -> a_opt (h_a m) = true -> a_v a = d_av d /\ (a_v_only (h_a m) = false -> a_sigma a = d_as d))).
  { destruct (h_abs m) eqn:Ea; [|exists (h_a m); repeat split; auto; discriminate]. destruct (a_opt (h_a m)) eqn:E.
    - rewrite <- Hl by auto. rewrite firstn_exact. destruct (abs_sample_set (h_a m) d E) as [a [H1 [H2 [H3 [H4 H5]]]]]. exists a. rewrite H1. auto.
    - exists (h_a m). unfold abs_set. rewrite E. repeat split; auto; discriminate. }
  destruct A1 as [a [E1 [F1 [F2 G1]]]]. rewrite E1. cbn [bind]. eexists. split; [reflexivity|]. cbn [h_kern h_only_probit h_rel h_ord h_abs h_p h_a]. repeat split; auto; apply G1; auto.
Qed.
Lemma pref_samples_eq p p' d : p_opt p' = p_opt p -> pref_samples p' d = pref_samples p d.
Proof. unfold pref_samples. now intros ->. Qed.
Lemma abs_samples_eq a a' d : a_v_only a' = a_v_only a -> abs_samples a' d = abs_samples a d.
Proof. unfold abs_samples. now intros ->. Qed.
Lemma probit_hyper_len m : length (probit_hyper m) = ((if h_rel m then (if p_opt (h_p m) then 1 else 0) else 0) + ((if h_ord m then 2 else 0) + (if h_abs m then (if a_opt (h_a m) then (if a_v_only (h_a m) then 1 else 2) else 0) else 0)))%nat.
Proof. unfold probit_hyper. rewrite !app_length. unfold pref_get, abs_get. destruct (h_rel m), (h_ord m), (h_abs m), (p_opt (h_p m)), (a_opt (h_a m)), (a_v_only (h_a m)); reflexivity. Qed.
(** the slice x[:n] of PreferenceGP.set_hyper keeps what the probits need *)
Lemma firstn_samples m d rest : h_ord m = false -> (p_opt (h_p m) = true -> h_rel m = true) ->
  exists rest', firstn (length (probit_hyper m)) (pref_samples (h_p m) d ++ abs_samples (h_a m) d ++ rest) = pref_samples (h_p m) d ++ (if (h_abs m && a_opt (h_a m))%bool then abs_samples (h_a m) d ++ rest' else []).
Proof.
  intros Ho Hp. rewrite probit_hyper_len, Ho. unfold pref_samples, abs_samples. destruct (p_opt (h_p m)) eqn:E.
  - rewrite Hp by auto. destruct (h_abs m), (a_opt (h_a m)), (a_v_only (h_a m)); exists nil; reflexivity.
  - destruct (h_rel m), (h_abs m), (a_opt (h_a m)), (a_v_only (h_a m)); exists nil; reflexivity.
Qed.
Lemma set_probit_samples m d rest : h_ord m = false -> (p_opt (h_p m) = true -> h_rel m = true) ->
  exists m', set_probit_hyper m (firstn (length (probit_hyper m)) (pref_samples (h_p m) d ++ abs_samples (h_a m) d ++ rest)) = Ok m' /\ h_kern m' = h_kern m /\ h_only_probit m' = h_only_probit m /\
    h_rel m' = h_rel m /\ h_ord m' = h_ord m /\ h_abs m' = h_abs m /\ p_opt (h_p m') = p_opt (h_p m) /\ a_opt (h_a m') = a_opt (h_a m) /\ a_v_only (h_a m') = a_v_only (h_a m) /\
    (h_rel m = true -> p_opt (h_p m) = true -> p_sigma (h_p m') = d_p d) /\
    (h_abs m = true -> a_opt (h_a m) = true -> a_v (h_a m') = d_av d /\ (a_v_only (h_a m) = false -> a_sigma (h_a m') = d_as d)).
Proof.
  intros Ho Hp. destruct (firstn_samples m d rest Ho Hp) as [rest' ->]. destruct (h_abs m && a_opt (h_a m))%bool eqn:E.
  - apply andb_prop in E as [Ea Eo]. destruct (set_samples m d rest' Ho Hp (fun _ H => abs_samples_len _ _ H)) as [m' H]. exists m'. exact H.
  - rewrite app_nil_r.
    assert (K : set_probit_hyper m (pref_samples (h_p m) d) = set_probit_hyper m (pref_samples (h_p m) d ++ abs_samples (h_a m) d ++ rest)).
    { unfold set_probit_hyper. cbv zeta. rewrite Ho. rewrite Nat.add_0_r.
      assert (N0 : length (pref_samples (h_p m) d) = (if h_rel m then length (pref_get (h_p m)) else 0%nat)).
      { unfold pref_samples, pref_get in *. destruct (p_opt (h_p m)) eqn:E'; [rewrite Hp by auto; reflexivity|]. destruct (h_rel m); reflexivity. }
      rewrite <- N0, firstn_exact, firstn_all. destruct (if h_rel m then pref_set _ _ else _); cbn [bind]; [|reflexivity].
      destruct (h_abs m); [|reflexivity]. cbn [andb] in E. unfold abs_set. now rewrite E. }
    rewrite K. apply set_samples; auto. intros H1 H2. rewrite H1, H2 in E. discriminate.
Qed.
Lemma randomize_aligned m d k : aligned m -> h_kern m = Some k -> (length (kparam k) <= length (d_k d))%nat ->
  exists m', randomize_hyper m d = Ok m' /\ own_draws d m m'.
Proof.
  intros [Ho [Hp Hc]] Ek Hd. unfold randomize_hyper. rewrite Ek. cbn [app]. unfold set_hyper. rewrite Ek.
  destruct (h_only_probit m) eqn:Eop.
  - destruct (set_probit_samples m d nil Ho Hp) as [m1 H1]. rewrite app_nil_r in H1. destruct H1 as [E1 [K1 [O1 [R1 [D1 [B1 [P1 [A1 [V1 [S1 T1]]]]]]]]]].
    rewrite E1. cbn [bind]. rewrite K1, Ek.
    assert (Ho1 : h_ord m1 = false) by congruence. assert (Hp1 : p_opt (h_p m1) = true -> h_rel m1 = true) by (rewrite P1, R1; auto).
    destruct (set_probit_samples m1 d (kern_samples k d) Ho1 Hp1) as [m2 [E2 [K2 [O2 [R2 [D2 [B2 [P2 [A2 [V2 [S2 T2]]]]]]]]]]].
    rewrite (pref_samples_eq _ _ d P1), (abs_samples_eq _ _ d V1) in E2. rewrite <- app_assoc. rewrite E2. cbn [bind]. rewrite O1, Eop. exists m2. split; auto.
    split; [rewrite <- P1; intros; apply S2; congruence|]. split; [intros H H'; rewrite <- V1; apply T2; congruence|]. intros k0 _ H. congruence.
  - destruct Hc as [Hc|[Ha [Hao Hk]]]; [congruence|]. cbn [bind]. rewrite Ek, Eop. destruct (set_probit_samples m d (kern_samples k d) Ho Hp) as [m1 [E1 [K1 [O1 [R1 [D1 [B1 [P1 [A1 [V1 [S1 T1]]]]]]]]]]].
    rewrite <- app_assoc. rewrite E1. cbn [bind].
    assert (L : length (probit_hyper m) = length (pref_samples (h_p m) d ++ abs_samples (h_a m) d)).
    { rewrite probit_hyper_len, Ho, Ha, Hao, app_length. unfold pref_samples, abs_samples. destruct (p_opt (h_p m)); [rewrite Hp by auto|destruct (h_rel m)]; destruct (a_v_only (h_a m)); reflexivity. }
    rewrite app_assoc, L, skipn_exact. destruct (atomic_samples k d (Hk k Ek) Hd) as [F1 F2]. destruct (kset_ok k _ F2) as [k' [E2 F3]]. rewrite E2. cbn [bind]. eexists. split; [reflexivity|].
    split; [exact S1|]. split; [exact T1|]. intros k0 Hk0 _. rewrite Ek in Hk0. injection Hk0 as <-. exists k'. split; [reflexivity|]. congruence.
Qed.
(** misalignments *)
Lemma randomize_pairs_only m d s l e x1 xs : h_rel m = true -> p_opt (h_p m) = true -> h_ord m = false -> h_abs m = false -> a_v_only (h_a m) = true ->
  h_only_probit m = false -> h_kern m = Some (RBF s l e) -> d_k d = x1 :: xs -> xs <> nil ->
  exists m', randomize_hyper m d = Ok m' /\ h_kern m' = Some (RBF (d_av d) x1 e).
Proof.
  intros Hr Hp Ho Ha Hv Hop Hk Hd Hx. unfold randomize_hyper. rewrite Hk, Hop. cbn [bind app]. unfold set_hyper. rewrite Hk, Hop, probit_hyper_len, Hr, Hp, Ho, Ha.
  unfold pref_samples, abs_samples. rewrite Hp, Hv. cbn [kern_samples kparam length firstn app Nat.add skipn]. rewrite Hd. destruct xs as [|x2 xs]; [congruence|]. cbn [firstn app].
  unfold set_probit_hyper. rewrite Hr, Ho, Ha. unfold pref_set, pref_get. rewrite Hp. cbn. eexists. split; reflexivity.
Qed.
Lemma randomize_ratings_only m d k : h_rel m = false -> p_opt (h_p m) = true -> h_ord m = false -> h_abs m = true -> a_opt (h_a m) = true -> a_v_only (h_a m) = true ->
  h_kern m = Some k -> h_only_probit m = true -> exists m', randomize_hyper m d = Ok m' /\ a_v (h_a m') = d_p d.
Proof.
  intros Hr Hp Ho Ha Hao Hv Hk Hop. unfold randomize_hyper. rewrite Hk, Hop. cbn [bind app]. unfold set_hyper. rewrite Hk, Hop, probit_hyper_len, Hr, Ho, Ha, Hao, Hv.
  unfold pref_samples, abs_samples. rewrite Hp, Hv. cbn [length firstn app Nat.add].
  unfold set_probit_hyper at 1. rewrite Hr, Ho, Ha. unfold abs_set, abs_get. rewrite Hao, Hv. cbn [length firstn skipn getitem nth_error bind Nat.add]. cbn [h_kern]. rewrite Hk, Hop.
  rewrite probit_hyper_len. cbn [h_rel h_ord h_abs h_a a_opt a_v_only h_only_probit]. rewrite ?Hr, ?Ho, ?Ha, ?Hao, ?Hv. cbn. eexists. split; reflexivity.
Qed.
Lemma randomize_ordinal m d s l e x1 x2 : h_rel m = true -> p_opt (h_p m) = true -> h_ord m = true -> h_abs m = false -> a_v_only (h_a m) = true ->
  h_only_probit m = false -> h_kern m = Some (RBF s l e) -> d_k d = x1 :: x2 :: nil -> randomize_hyper m d = Raise IndexError.
Proof.
  intros Hr Hp Ho Ha Hv Hop Hk Hd. unfold randomize_hyper. rewrite Hk, Hop. cbn [bind app]. unfold set_hyper. rewrite Hk, Hop, probit_hyper_len, Hr, Hp, Ho, Ha.
  unfold pref_samples, abs_samples. rewrite Hp, Hv. cbn [kern_samples kparam length firstn app Nat.add skipn]. rewrite Hd. cbn [firstn app].
  unfold set_probit_hyper. rewrite Hr, Ho, Ha. unfold pref_set, pref_get. rewrite Hp. reflexivity.
Qed.
Lemma randomize_combination m d a b : h_rel m = true -> p_opt (h_p m) = true -> h_ord m = false -> h_abs m = true -> a_opt (h_a m) = true ->
  h_only_probit m = false -> h_kern m = Some (KAdd a b) \/ h_kern m = Some (KMul a b) -> exists e, randomize_hyper m d = Raise e.
Proof.
  intros Hr Hp Ho Ha Hao Hop Hk. destruct (randomize_hyper m d) as [m'|e] eqn:E; [|eauto]. exfalso. unfold randomize_hyper in E.
  assert (L : length (pref_samples (h_p m) d ++ abs_samples (h_a m) d) = length (probit_hyper m)).
  { rewrite probit_hyper_len, Hr, Ho, Ha, Hao, Hp, app_length. unfold pref_samples, abs_samples. rewrite Hp. destruct (a_v_only (h_a m)); reflexivity. }
  assert (P : forall k, (2 <= length (kparam k))%nat) by (clear; intro k; induction k; cbn [kparam length]; rewrite ?app_length; lia).
  assert (P1 := P a). 
  destruct Hk as [Hk|Hk]; rewrite Hk, Hop in E; cbn [bind app kern_samples] in E; rewrite app_nil_r in E; apply set_hyper_short in E; rewrite L in E; unfold get_hyper in E; rewrite Hk, Hop in E; cbn [kparam] in E;
    rewrite !app_length in E; lia.
Qed.

(** ---- gradient of the prior ---- *)
Definition kpart (g : R -> R) (m : hmodel) : R := match h_kern m with Some k => if h_only_probit m then 0 else kpv g k | None => 0 end.
Lemma likelihood_value g m : h_ord m = false -> (h_abs m = true -> a_opt (h_a m) = true -> a_v_only (h_a m) = true) -> (forall x, In x (get_hyper m) -> 0 < x) ->
  hyper_likelihood g m = Some (kpart g m).
Proof.
  intros Ho Hv Hx. assert (Hpr : forall x, In x (probit_hyper m) -> 0 < x).
  { intros x H. apply Hx. unfold get_hyper. destruct (h_kern m); [destruct (h_only_probit m)|]; auto. apply in_or_app; auto. }
  assert (E0 : (if h_rel m then pref_prior (h_p m) else Some 0) = Some 0).
  { unfold probit_hyper, pref_get in Hpr. unfold pref_prior. destruct (h_rel m); auto. destruct (p_opt (h_p m)); auto. rewrite (proj2 (Rleb_false _ _)); auto. apply Hpr. simpl. auto. }
  assert (E1 : (if h_abs m then abs_prior g (h_a m) else Some 0) = Some 0).
  { destruct (h_abs m) eqn:Ea; auto. unfold abs_prior. destruct (a_opt (h_a m)) eqn:Eo; auto. assert (Ev := Hv eq_refl eq_refl). rewrite Ev. rewrite (proj2 (Rltb_false _ _)); auto.
    left. apply Hpr. unfold probit_hyper, abs_get. rewrite Ea, Eo, Ev. apply in_or_app. right. apply in_or_app. right. simpl. auto. }
  unfold hyper_likelihood. rewrite E0, E1. cbn [oplus]. rewrite !Rplus_0_r. unfold kpart, get_hyper in *. destruct (h_kern m) as [k|]; auto. destruct (h_only_probit m); auto.
  rewrite kprior_some; [cbn [oplus]; now rewrite Rplus_0_r|]. intros x H. left. apply Hx. apply in_or_app; auto.
Qed.
Lemma kset_fun_kpv g k i t : (i < length (kparam k))%nat -> kpv_at g k i t = match kset k (set_nth i t (kparam k)) with Ok k' => kpv g k' | Raise _ => 0 end.
Proof. reflexivity. Qed.
Lemma grad_len m : h_ord m = false -> length (grad_hyper_likelihood m) = length (get_hyper m).
Proof.
  intro Ho. assert (HL : forall k, length (kprior_grad k) = length (kparam k)) by (clear; intro k; induction k; cbn [kprior_grad kparam]; rewrite ?app_length; auto).
  assert (E : length ((if h_rel m then pref_prior_grad (h_p m) else nil) ++ nil ++ (if h_abs m then abs_prior_grad (h_a m) else nil)) = length (probit_hyper m)).
  { rewrite probit_hyper_len, Ho, !app_length. unfold pref_prior_grad, abs_prior_grad. destruct (h_rel m), (h_abs m), (p_opt (h_p m)), (a_opt (h_a m)), (a_v_only (h_a m)); reflexivity. }
  unfold grad_hyper_likelihood, get_hyper. cbv zeta. destruct (h_kern m) as [k|]; [destruct (h_only_probit m)|]; auto. rewrite app_length, E, HL, app_length. reflexivity.
Qed.
Lemma grad_len_ordinal m : h_ord m = true -> length (get_hyper m) = (length (grad_hyper_likelihood m) + 2)%nat.
Proof.
  intro Ho. assert (HL : forall k, length (kprior_grad k) = length (kparam k)) by (clear; intro k; induction k; cbn [kprior_grad kparam]; rewrite ?app_length; auto).
  assert (E : length (probit_hyper m) = (length ((if h_rel m then pref_prior_grad (h_p m) else nil) ++ nil ++ (if h_abs m then abs_prior_grad (h_a m) else nil)) + 2)%nat).
  { rewrite probit_hyper_len, Ho, !app_length. unfold pref_prior_grad, abs_prior_grad. destruct (h_rel m), (h_abs m), (p_opt (h_p m)), (a_opt (h_a m)), (a_v_only (h_a m)); reflexivity. }
  unfold grad_hyper_likelihood, get_hyper. cbv zeta. destruct (h_kern m) as [k|]; [destruct (h_only_probit m)|]; auto. rewrite !app_length, HL in *. lia.
Qed.
Lemma prior_derive g m i : h_ord m = false -> (h_abs m = true -> a_opt (h_a m) = true -> a_v_only (h_a m) = true) -> (forall x, In x (get_hyper m) -> 1 / 1000000 < x) ->
  (i < length (get_hyper m))%nat -> is_derive (likelihood_at g m i) (nth i (get_hyper m) 0) (nth i (grad_hyper_likelihood m) 0).
Proof.
  intros Ho Hv Hx Hi. set (x0 := nth i (get_hyper m) 0). assert (Hx0 : 1 / 1000000 < x0) by (apply Hx, nth_In; auto).
  set (n := length (probit_hyper m)).
  assert (K : forall t : R, 0 < t -> exists m', set_hyper m (set_nth i t (get_hyper m)) = Ok m' /\ likelihood_at g m i t = kpart g m' /\ h_only_probit m' = h_only_probit m).
  { intros t Ht. destruct (hyper_rt m (set_nth i t (get_hyper m)) (set_nth_length _ _ _)) as [m' [E [F G]]]; [rewrite Ho; discriminate|]. exists m'. split; auto.
    destruct G as [G1 [G2 [G3 [G4 [_ [_ [_ [_ [_ [G10 G11]]]]]]]]]]. split; auto. unfold likelihood_at. rewrite E, likelihood_value; auto.
    - congruence.
    - rewrite G3, G10, G11. auto.
    - intros x H. rewrite F in H. apply In_set_nth in H as [-> |H]; auto. apply Hx in H. lra. }
  assert (Hloc : forall f : R -> R, (forall t : R, 0 < t -> f t = likelihood_at g m i t) -> forall l, is_derive f x0 l -> is_derive (likelihood_at g m i) x0 l).
  { intros f Hf l Hl. apply (is_derive_ext_loc f); auto. exists (mkposreal x0 ltac:(lra)). intros t Ht. unfold ball in Ht. simpl in Ht. unfold AbsRing_ball in Ht. unfold abs, minus, plus, opp in Ht. simpl in Ht. apply Rabs_def2 in Ht. apply Hf. lra. }
  assert (Hgl : length ((if h_rel m then pref_prior_grad (h_p m) else nil) ++ nil ++ (if h_abs m then abs_prior_grad (h_a m) else nil)) = n).
  { unfold n. rewrite probit_hyper_len, Ho, !app_length. unfold pref_prior_grad, abs_prior_grad. destruct (h_rel m), (h_abs m), (p_opt (h_p m)), (a_opt (h_a m)), (a_v_only (h_a m)); reflexivity. }
  assert (Hz : forall j, nth j ((if h_rel m then pref_prior_grad (h_p m) else nil) ++ nil ++ (if h_abs m then abs_prior_grad (h_a m) else nil)) 0 = 0).
  { intro j. unfold pref_prior_grad, abs_prior_grad. destruct (h_abs m) eqn:Ea; [destruct (a_opt (h_a m)) eqn:Eo; [rewrite Hv by auto|]|]; destruct (h_rel m); try destruct (p_opt (h_p m)); cbn [app nth]; destruct j as [|[|[|j]]]; reflexivity. }
  destruct (Nat.lt_ge_cases i n) as [Hlt|Hge].
  - (* a probit parameter: constant prior *)
    replace (nth i (grad_hyper_likelihood m) 0) with 0.
    2: { unfold grad_hyper_likelihood. cbv zeta. destruct (h_kern m); [destruct (h_only_probit m)|]; rewrite ?app_nth1 by lia; rewrite ?Hz; auto. }
    apply (Hloc (fun _ => kpart g m)); [|apply @is_derive_const]. intros t Ht. destruct (K t Ht) as [m' [E [-> G]]]. apply set_hyper_kern in E. unfold kpart. rewrite G.
    unfold get_hyper in E. destruct (h_kern m) as [k|]; [|now rewrite E]. destruct (h_only_probit m); [now rewrite E|]. destruct E as [k' [E1 ->]].
    rewrite set_nth_app_l in E1 by auto. replace (length (probit_hyper m)) with (length (set_nth i t (probit_hyper m))) in E1 by apply set_nth_length.
    rewrite skipn_exact, kset_id in E1. now injection E1 as <-.
  - unfold get_hyper in Hi, x0. destruct (h_kern m) as [k|] eqn:Ek; [|fold n in Hi; lia]. destruct (h_only_probit m) eqn:Eop; [fold n in Hi; lia|]. rewrite app_length in Hi. fold n in Hi.
    assert (X0 : x0 = nth (i - n) (kparam k) 0) by (unfold x0; rewrite app_nth2 by auto; reflexivity).
    replace (nth i (grad_hyper_likelihood m) 0) with (nth (i - n) (kprior_grad k) 0).
    2: { unfold grad_hyper_likelihood. cbv zeta. rewrite Ek, Eop, app_nth2 by lia. now rewrite Hgl. }
    apply (Hloc (kpv_at g k (i - n))); [|rewrite X0; apply kpv_derive; [lia|rewrite <- X0; auto]].
    intros t Ht. destruct (K t Ht) as [m' [E [-> G]]]. apply set_hyper_kern in E. rewrite Ek, Eop in E. destruct E as [k' [E1 E2]]. unfold kpart, kpv_at. rewrite E2, G.
    unfold get_hyper in E1. rewrite Ek, Eop, set_nth_app_r, skipn_exact in E1 by auto. fold n in E1. now rewrite E1.
Qed.
Lemma prior_v_wrong g p o s v op : 0 <= s -> 1 / 1000000 < v -> v <> 25 ->
  let m := mkH false false true p o (mkAbs s v true false) op None in
  is_derive (likelihood_at g m 1) v 0 /\ nth 1 (get_hyper m) 0 = v /\ nth 1 (grad_hyper_likelihood m) 0 <> 0.
Proof.
  intros Hs Hv H25 m. split; [|split; [reflexivity|]].
  - assert (K : forall t : R, 0 < t -> lp g s 1 1 = likelihood_at g m 1 t).
    { intros t Ht. unfold likelihood_at. cbn [set_hyper m h_kern get_hyper probit_hyper h_rel h_ord h_abs h_a abs_get a_opt a_v_only app set_nth].
      unfold set_probit_hyper. cbn [m h_kern h_rel h_ord h_abs h_a abs_get a_opt a_v_only length Nat.add skipn firstn bind abs_set getitem nth_error].
      unfold hyper_likelihood. cbn [m h_kern h_rel h_ord h_abs h_a oplus]. unfold abs_prior. cbn [a_opt a_v_only a_v a_sigma]. rewrite lp_some by auto. rewrite (proj2 (Rltb_false t 0)) by lra. cbn [oplus]. ring. }
    apply (is_derive_ext_loc (fun _ => lp g s 1 1)); [|apply @is_derive_const].
    exists (mkposreal v ltac:(lra)). intros t Ht. unfold ball in Ht. simpl in Ht. unfold AbsRing_ball in Ht. unfold abs, minus, plus, opp in Ht. simpl in Ht. apply Rabs_def2 in Ht. apply K. lra.
  - cbn [grad_hyper_likelihood m h_kern h_rel h_ord h_abs h_a app abs_prior_grad a_opt a_v_only nth a_v]. unfold d_log_pdf_gamma. rewrite gamma_clip_id by lra. intro E. apply H25.
    assert (E2 : 1 / v = 1 / 25) by lra. apply (Rmult_eq_compat_r (25 * v)) in E2. field_simplify in E2; lra.
Qed.
(** the sigma of the same probit has the right gradient *)
Lemma prior_sigma_right g p o s v op : 1 / 1000000 < s -> 0 <= v ->
  let m := mkH false false true p o (mkAbs s v true false) op None in
  is_derive (likelihood_at g m 0) s (nth 0 (grad_hyper_likelihood m) 0) /\ nth 0 (get_hyper m) 0 = s.
Proof.
  intros Hs Hv m. split; [|reflexivity].
  assert (K : forall t : R, 0 < t -> lp g t 1 1 = likelihood_at g m 0 t).
  { intros t Ht. unfold likelihood_at. cbn [set_hyper m h_kern get_hyper probit_hyper h_rel h_ord h_abs h_a abs_get a_opt a_v_only app set_nth].
    unfold set_probit_hyper. cbn [m h_kern h_rel h_ord h_abs h_a abs_get a_opt a_v_only length Nat.add skipn firstn bind abs_set getitem nth_error].
    unfold hyper_likelihood. cbn [m h_kern h_rel h_ord h_abs h_a oplus]. unfold abs_prior. cbn [a_opt a_v_only a_v a_sigma]. rewrite lp_some by lra. rewrite (proj2 (Rltb_false v 0)) by lra. cbn [oplus]. ring. }
  apply (is_derive_ext_loc (fun t => lp g t 1 1)).
  - exists (mkposreal s ltac:(lra)). intros t Ht. unfold ball in Ht. simpl in Ht. unfold AbsRing_ball in Ht. unfold abs, minus, plus, opp in Ht. simpl in Ht. apply Rabs_def2 in Ht. apply K. lra.
  - cbn [grad_hyper_likelihood m h_kern h_rel h_ord h_abs h_a app abs_prior_grad a_opt a_v_only nth a_sigma]. apply log_pdf_derive; lra.
Qed.
Lemma breakpoints_example : exists m m', h_ord m = true /\ (3 <= o_n (h_o m))%nat /\ 0 <= last (o_b (h_o m)) 0 /\ set_hyper m (get_hyper m) = Ok m' /\ o_b (h_o m') <> o_b (h_o m).
Proof.
  exists (mkH false true false (mkPref 1 false) (mkOrd 4 1 (0 :: 2 :: 3 :: nil)) (mkAbs 1 1 false false) false None). eexists. split; [reflexivity|]. split; [cbn; lia|]. split; [cbn; lra|].
  split; [reflexivity|]. cbn. intro H. injection H as H1 H2 H3. rewrite Rabs_pos_eq in H2 by lra. lra.
Qed.
