(** The pairwise tuning objective in binary64 against the exact one. *)
From Coq Require Import Reals ZArith Lra Lia List Bool Permutation.
From Flocq Require Import Core.
From Verif Require Import M_Base M_RBase M_Normal M_User M_Float M_FloatProbit M_FloatPer M_FloatTune S_User S_Float P_RBase P_Float P_FloatKern P_FloatKern5 P_FloatTune P_FloatTune3 P_User2 P_User4.
Import ListNotations.
Local Open Scope R_scope.

Lemma threshold_near : exists t, rnd b64 (50000001 / 100000000) = Fin t /\ t <= 50000001 / 100000000 + 2 * u64.
Proof.
  destruct (rnd_unit b64 R64 (50000001 / 100000000)) as [E B]; [lra|]. exists (rd b64 (50000001 / 100000000)). split; [exact E|].
  assert (O := rd_off (50000001 / 100000000) ltac:(lra)). apply Rabs_le_inv in O. pose proof u64_pos. lra.
Qed.
Lemma u64_small : u64 <= / 1000000000000.
Proof. change u64 with uu. rewrite uu_val. lra. Qed.
Lemma kept_near b d : 0 <= b -> 5000001 / 10000000 <= pair_probability b d ->
  exists x, kept_fl b64 b d = Fin x /\ 1 / 2 <= x <= 1 /\ Rabs (x - pair_probability b d) <= 64 * u64.
Proof.
  intros Hb Hp. destruct (chance_near b d Hb) as [x [E B]]. destruct (chance_ok b d Hb) as [x' [E' [R _]]]. rewrite E in E'. injection E' as <-.
  assert (U47 : bpow radix2 (-47) = 64 * u64) by (unfold u64; change (-47)%Z with (6 + -53)%Z; rewrite bpow_plus; reflexivity). rewrite U47 in B.
  exists x. split; [|auto]. unfold kept_fl. cbv zeta. rewrite E. destruct threshold_near as [t [-> Ht]]. rewrite fltb_fin.
  pose proof u64_small. apply Rabs_le_inv in B. rewrite (proj2 (Rltb_false x t)) by lra. reflexivity.
Qed.
Lemma kept_total b ds : 0 <= b -> Forall (fun d => 5000001 / 10000000 <= pair_probability b d) ds ->
  map fill (map (kept_fl b64 b) ds) = map (kept_fl b64 b) ds /\ cnt (map (kept_fl b64 b) ds) = length ds /\
  Rabs (total (map (kept_fl b64 b) ds) - rsum (map (pair_probability b) ds)) <= INR (length ds) * (64 * u64) /\
  0 <= total (map (kept_fl b64 b) ds) <= INR (length ds).
Proof.
  intros Hb H. unfold cnt. induction H as [|d ds Hd H [IH1 [IH2 [IH3 IH4]]]].
  - cbn. rewrite Rminus_diag_eq, Rabs_R0 by reflexivity. repeat split; lra.
  - destruct (kept_near b d Hb Hd) as [x [E [B D]]]. cbn [map total rsum filter]. rewrite E, IH1. cbn [fill fisnan negb re length]. split; [reflexivity|].
    split; [now rewrite IH2|]. rewrite S_INR. apply Rabs_le_inv in IH3. apply Rabs_le_inv in D. split; [apply Rabs_le; lra|lra].
Qed.
Lemma counts_pos (n : nat) : n <> 0%nat -> 1 <= INR n.
Proof. intros H. destruct n; [contradiction|]. rewrite S_INR. pose proof (pos_INR n). lra. Qed.
Lemma mean_near sm b ds : sums b64 sm -> 0 <= b -> ds <> [] -> (Z.of_nat (length ds) <= 2 ^ 20)%Z -> Forall (fun d => 5000001 / 10000000 <= pair_probability b d) ds ->
  exists m, nanmean_fl b64 sm (map (kept_fl b64 b) ds) = Fin m /\ 0 <= m <= 1 /\
    Rabs (m - rsum (map (pair_probability b) ds) / INR (length ds)) <= bpow radix2 22 * u64.
Proof.
  intros Hsm Hb Hne N H. set (l := map (kept_fl b64 b) ds). pose proof u64_pos as Pu.
  destruct (kept_total b ds Hb H) as [F1 [F2 [F3 F4]]]. fold l in F1, F2, F3, F4.
  assert (Hl : l <> []) by (unfold l; destruct ds; [contradiction|discriminate]). assert (Ll : length l = length ds) by apply map_length.
  destruct (mean_ok sm l Hsm Hl) as [_ [M _]]; [rewrite Ll; lia|intros v; now apply kept_counted|].
  destruct M as [m [E B]].
  { destruct ds as [|d ds]; [contradiction|]. exists (kept_fl b64 b d). split; [now left|]. inversion H as [|? ? Hd _]; subst. destruct (kept_near b d Hb Hd) as [x [-> _]]. discriminate. }
  exists m. split; [exact E|]. split; [lra|].
  unfold nanmean_fl in E. change (map (fun v => if fisnan v then Fin 0 else v) l) with (map fill l) in E. fold (cnt l) in E. rewrite F1, F2 in E.
  destruct (adds_err l (sm l) (Hsm l Hl)) as [r [Er [Pr Or]]]; [rewrite Ll; exact N| |].
  { intros v Hv. unfold l in Hv. apply in_map_iff in Hv. destruct Hv as [d [<- Hd]]. rewrite Forall_forall in H. destruct (kept_near b d Hb (H d Hd)) as [x [-> [Bx _]]].
    exists x. split; [reflexivity|]. assert (1 <= bpow radix2 900) by (change 1 with (bpow radix2 0); apply bpow_le; lia). lra. }
  rewrite Er in E. cbn [fdiv] in E. set (n := INR (length ds)) in *. rewrite Ll in Or. fold n in Or.
  assert (N1 : 1 <= n) by (apply counts_pos; destruct ds; [contradiction|discriminate]).
  assert (N20 : n <= bpow radix2 20) by (unfold n; rewrite INR_IZR_INZ; change (bpow radix2 20) with (IZR (2 ^ 20)); apply IZR_le; exact N).
  destruct (Req_EM_T n 0) as [Z|_]; [lra|].
  assert (T : ee <= u64) by (apply bpow_le; lia). change uu with u64 in Or. set (t := total l) in *. set (S := rsum (map (pair_probability b) ds)) in *.
  assert (Or' : Rabs (r - t) <= 2 * n * (u64 * (n + 1))).
  { eapply Rle_trans; [exact Or|]. assert (u64 * t + ee <= u64 * (n + 1)) by nra. assert (0 <= u64 * t + ee) by (assert (0 < ee) by apply bpow_gt_0; nra). nra. }
  apply Rabs_le_inv in Or'. apply Rabs_le_inv in F3.
  assert (Q : Rabs (r / n - S / n) <= 2 * (u64 * (n + 1)) + 64 * u64).
  { replace (r / n - S / n) with ((r - S) * / n) by (field; lra). rewrite Rabs_mult, (Rabs_pos_eq (/ n)) by (apply Rlt_le, Rinv_0_lt_compat; lra).
    apply (Rmult_le_reg_r n); [lra|]. rewrite Rmult_assoc, Rinv_l, Rmult_1_r by lra. apply Rabs_le. nra. }
  assert (K20 : bpow radix2 20 = 1048576) by reflexivity. assert (K22 : bpow radix2 22 = 4194304) by reflexivity. rewrite K20 in N20. rewrite K22.
  assert (R0 : 0 <= r / n) by (apply Rmult_le_pos; [exact Pr|apply Rlt_le, Rinv_0_lt_compat; lra]).
  assert (Us := u64_small).
  assert (R2 : r / n <= 2).
  { apply (Rmult_le_reg_r n); [lra|]. replace (r / n * n) with r by (field; lra). assert (u64 * (n + 1) <= 1 / 4) by nra. nra. }
  destruct (rnd_between b64 R64 (r / n) 0 2) as [Rr _]; [lia|lia|lra|]. rewrite Rr in E. assert (Em : rd b64 (r / n) = m) by congruence.
  assert (O := rd_off (r / n) R0). rewrite Em in O. apply Rabs_le_inv in O. apply Rabs_le_inv in Q. apply Rabs_le. nra.
Qed.
Lemma square_near a e eta : Rabs a <= 1 -> Rabs e <= 1 -> Rabs (e - a) <= eta -> Rabs (e * e - a * a) <= 2 * eta.
Proof.
  intros Ha He H. replace (e * e - a * a) with ((e - a) * (e + a)) by ring. rewrite Rabs_mult. pose proof (Rabs_triang e a). pose proof (Rabs_pos (e - a)). pose proof (Rabs_pos (e + a)). nra.
Qed.
Lemma obj_near sm b ds p : sums b64 sm -> 0 <= b -> 0 <= p <= 1 -> ds <> [] -> (Z.of_nat (length ds) <= 2 ^ 20)%Z -> Forall (fun d => 5000001 / 10000000 <= pair_probability b d) ds ->
  exists v w, obj_fl b64 sm b ds p = Fin v /\ obj b ds p = Some w /\ Rabs (v - w) <= bpow radix2 (-29).
Proof.
  intros Hsm Hb Hp Hne N H. destruct (mean_near sm b ds Hsm Hb Hne N H) as [m [E [B D]]]. unfold obj_fl. rewrite E.
  assert (I : Forall (informative b) ds) by (eapply Forall_impl; [|exact H]; intros d Hd; unfold informative; cbv beta in Hd; lra).
  rewrite (pair_value b ds p Hne I). set (M := rsum (map (pair_probability b) ds) / INR (length ds)) in *.
  assert (BM : 0 < M < 1).
  { unfold M. rewrite <- (map_length (pair_probability b)). apply mean_bounds; [destruct ds; [contradiction|discriminate]|]. intros x Hx. apply in_map_iff in Hx. destruct Hx as [d [<- _]]. apply luce2_range. }
  unfold miss_fl, fsub. cbn [fneg fadd]. destruct (rnd_between b64 R64 (m + - p) (-1) 1) as [-> Be]; [lia|lia|lra|]. cbn [fmul].
  assert (Oe := rd_err (m + - p)). set (e := rd b64 (m + - p)) in *. assert (T : ee <= u64) by (apply bpow_le; lia). pose proof u64_pos as Pu. change uu with u64 in Oe.
  assert (Ae : Rabs (m + - p) <= 1) by (apply Rabs_le; lra). assert (Oe' : Rabs (e - (m + - p)) <= 2 * u64) by nra.
  assert (E1 : 0 <= e * e <= 1) by (clear - Be; split; nra). destruct (rnd_unit b64 R64 (e * e) E1) as [-> Bv]. do 2 eexists. split; [reflexivity|]. split; [reflexivity|].
  assert (Ov := rd_off (e * e) (proj1 E1)). assert (Ov' : Rabs (rd b64 (e * e) - e * e) <= 2 * u64).
  { eapply Rle_trans; [exact Ov|]. clear - E1 Pu. nra. }
  assert (Q : Rabs (e * e - (M - p) * (M - p)) <= 2 * (bpow radix2 22 * u64 + 2 * u64)).
  { apply square_near; [apply Rabs_le; lra|apply Rabs_le; lra|]. replace (e - (M - p)) with ((e - (m + - p)) + (m - M)) by ring. eapply Rle_trans; [apply Rabs_triang|]. lra. }
  replace (rd b64 (e * e) - (M - p) * (M - p)) with ((rd b64 (e * e) - e * e) + (e * e - (M - p) * (M - p))) by ring. eapply Rle_trans; [apply Rabs_triang|].
  assert (K : bpow radix2 (-29) = 4 * (bpow radix2 22 * u64)) by (unfold u64; rewrite <- bpow_plus; change (-29)%Z with (2 + (22 + -53))%Z; rewrite (bpow_plus radix2 2); reflexivity).
  assert (K22 : bpow radix2 22 = 4194304) by reflexivity. rewrite K, K22 in *. lra.
Qed.
