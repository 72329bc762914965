(** Lemmas about assignments of hyper-parameters that fail half-way. *)
From Coq Require Import Reals Lra Lia List.
From Verif Require Import M_RBase M_Util M_Kernel M_Hyper M_SetParam.
Import ListNotations.
Local Open Scope R_scope.

(** new entries, then old ones *)
Definition mixed (old theta : list R) : list R := firstn (length old) theta ++ skipn (length theta) old.
Lemma mixed_both pa pb theta : (length pa <= length theta)%nat ->
  mixed pa (firstn (length pa) theta) ++ mixed pb (skipn (length pa) theta) = mixed (pa ++ pb) theta.
Proof.
  intro L. unfold mixed. rewrite app_length, firstn_firstn, Nat.min_id, firstn_length, Nat.min_l, skipn_all, app_nil_r, skipn_length, skipn_app by exact L.
  rewrite (skipn_all2 pa) by exact L. cbn [app]. rewrite app_assoc. f_equal.
  rewrite <- (firstn_skipn (length pa) theta) at 3. rewrite firstn_app, firstn_length, Nat.min_l by exact L.
  rewrite (firstn_all2 (n := (length pa + length pb)%nat) (firstn (length pa) theta)) by (rewrite firstn_length; lia). f_equal. f_equal. lia.
Qed.
Lemma mixed_first pa pb theta : (length theta < length pa)%nat -> mixed pa (firstn (length pa) theta) ++ pb = mixed (pa ++ pb) theta.
Proof.
  intro L. unfold mixed. rewrite !(firstn_all2 (n := length pa) theta) by lia. 
  rewrite (firstn_all2 (n := length (pa ++ pb)) theta) by (rewrite app_length; lia).
  rewrite skipn_app. replace (length theta - length pa)%nat with 0%nat by lia. cbn [skipn]. now rewrite app_assoc.
Qed.
Lemma leaf_spec k theta : (forall a b, k <> KAdd a b) -> (forall a b, k <> KMul a b) ->
  kparam (fst (kassign k theta)) = mixed (kparam k) theta /\ snd (kassign k theta) = if Nat.leb (length (kparam k)) (length theta) then None else Some IndexError.
Proof.
  intros NA NM. unfold mixed.
  destruct k; try (now exfalso; eapply NA); try (now exfalso; eapply NM); destruct theta as [|x [|y [|z theta]]]; cbn; rewrite ?skipn_nil, ?app_nil_r; split; reflexivity.
Qed.
Lemma kassign_spec k : forall theta,
  kparam (fst (kassign k theta)) = mixed (kparam k) theta /\ snd (kassign k theta) = if Nat.leb (length (kparam k)) (length theta) then None else Some IndexError.
Proof.
  induction k as [s l n|s sb c|s l p|s l n z|a IHa b IHb|a IHa b IHb]; intro theta; try (apply leaf_spec; discriminate).
  all: specialize (IHa (firstn (length (kparam a)) theta)); specialize (IHb (skipn (length (kparam a)) theta));
    destruct IHa as [A1 A2]; destruct IHb as [B1 B2]; cbn [kassign kparam]; rewrite A2; rewrite firstn_length in A2 |- *; rewrite skipn_length in B2; rewrite app_length;
    destruct (Nat.leb_spec (length (kparam a)) (Nat.min (length (kparam a)) (length theta))) as [E|E];
    [assert (L : (length (kparam a) <= length theta)%nat) by lia; cbn [fst snd kparam]; split;
      [rewrite A1, B1; now apply mixed_both
      |rewrite B2; destruct (Nat.leb_spec (length (kparam b)) (length theta - length (kparam a))); destruct (Nat.leb_spec (length (kparam a) + length (kparam b)) (length theta)); (reflexivity || lia)]
    |assert (L : (length theta < length (kparam a))%nat) by lia; cbn [fst snd kparam]; split;
      [rewrite A1; now apply mixed_first
      |destruct (Nat.leb_spec (length (kparam a) + length (kparam b)) (length theta)); [lia|reflexivity]]].
Qed.
Lemma kassign_enough k theta : (length (kparam k) <= length theta)%nat -> snd (kassign k theta) = None /\ kparam (fst (kassign k theta)) = firstn (length (kparam k)) theta.
Proof.
  intro L. destruct (kassign_spec k theta) as [A B]. rewrite A, B. unfold mixed. rewrite skipn_all2, app_nil_r by exact L. split; [|reflexivity].
  destruct (Nat.leb_spec (length (kparam k)) (length theta)); [reflexivity|lia].
Qed.
Lemma kassign_few k theta : (length theta < length (kparam k))%nat -> snd (kassign k theta) = Some IndexError /\ kparam (fst (kassign k theta)) = theta ++ skipn (length theta) (kparam k).
Proof.
  intro L. destruct (kassign_spec k theta) as [A B]. rewrite A, B. unfold mixed. rewrite firstn_all2 by lia. split; [|reflexivity].
  destruct (Nat.leb_spec (length (kparam k)) (length theta)); [lia|reflexivity].
Qed.
Lemma kassign_kset k : forall theta, kset k theta = match snd (kassign k theta) with None => Ok (fst (kassign k theta)) | Some e => Raise e end.
Proof.
  induction k as [s l n|s sb c|s l p|s l n z|a IHa b IHb|a IHa b IHb]; intro theta.
  1-4: destruct theta as [|x [|y [|w theta]]]; reflexivity.
  all: cbn [kset kassign]; rewrite IHa; destruct (snd (kassign a (firstn (length (kparam a)) theta))); cbn; [reflexivity|]; rewrite IHb;
    destruct (snd (kassign b (skipn (length (kparam a)) theta))); reflexivity.
Qed.
Lemma two_at_least k : exists x y rest, kparam k = x :: y :: rest.
Proof.
  induction k as [s l n|s sb c|s l p|s l n z|a IHa b IHb|a IHa b IHb]; cbn [kparam]; eauto;
  destruct IHa as (x & y & r & ->); cbn; eauto.
Qed.
Lemma visualize_fails m k : exists m' k' rest, visualize m k None = (m', if Nat.eqb (length (kparam k)) 2 then Some TypeError else Some IndexError) /\
  h_kern m' = Some k' /\ kparam k = nth 0 (kparam k) 0 :: nth 1 (kparam k) 0 :: rest /\ kparam k' = 1 / 2 :: first_log :: rest /\
  (length (kparam k) = 2%nat -> p_sigma (h_p m') = first_log).
Proof.
  destruct (two_at_least k) as (x & y & r & E). unfold visualize. destruct (kassign_spec k [1 / 2; first_log]) as [A B]. rewrite B, E. cbn [length].
  unfold mixed in A. rewrite E in A. cbn in A. destruct r as [|z r].
  - cbn [Nat.leb Nat.eqb]. eexists _, _, []. split; [reflexivity|]. cbn [h_kern h_p p_sigma nth]. repeat split. exact A.
  - cbn [Nat.leb Nat.eqb]. eexists _, _, (z :: r). split; [reflexivity|]. cbn [h_kern h_p p_sigma nth]. repeat split; [|discriminate].
    rewrite A. destruct r; reflexivity.
Qed.
