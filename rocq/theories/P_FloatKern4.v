(** The factorisation for two points over the reals. *)
From Coq Require Import Reals ZArith Lra Lia List Bool.
From Verif Require Import M_Base M_RBase M_Kernel M_GP P_RBase P_Base P_Kernel S_Kernel.
Import ListNotations.
Local Open Scope R_scope.

Lemma rbf_call_range s l u v : l <> 0 -> 0 <= rbf_call s l u v <= s * s.
Proof.
  intro Hl. unfold rbf_call. assert (D : 0 <= sqdist u v).
  { unfold sqdist. induction (combine u v) as [|ab c IH]; [apply Rle_refl|]. change (0 <= (fst ab - snd ab) * (fst ab - snd ab) + rsum (map (fun ab : R * R => (fst ab - snd ab) * (fst ab - snd ab)) c)). apply Rplus_le_le_0_compat; [apply Rle_0_sqr|exact IH]. }
  assert (Q : - sqdist u v / (2 * l * l) <= 0).
  { unfold Rdiv. assert (0 < / (2 * l * l)) by (apply Rinv_0_lt_compat; nra). nra. }
  assert (E : exp (- sqdist u v / (2 * l * l)) <= 1). { rewrite <- exp_0. destruct Q as [Q| ->]; [left; now apply exp_increasing|apply Rle_refl]. }
  assert (P := exp_pos (- sqdist u v / (2 * l * l))). assert (S := Rle_0_sqr s). unfold Rsqr in S. split; [apply Rmult_le_pos; lra|]. rewrite <- (Rmult_1_r (s * s)) at 2. apply Rmult_le_compat_l; lra.
Qed.
Lemma real_factor s l n (x y : point) sx sy : l <> 0 -> 0 < n -> 0 <= sx -> 0 <= sy ->
  exists M L, kcov (RBF s l n) [x; y] [x; y] = Ok M /\ chol 2 (gp_cov M [sx; sy]) = Some L.
Proof.
  intros Hl Hn Hsx Hsy. destruct (kcov_spec (RBF s l n) [x; y] [x; y] ltac:(discriminate) (or_introl I)) as [M [E [_ K]]].
  assert (ST : same_start [x; y] [x; y] = true) by (unfold same_start; now rewrite Nat.eqb_refl, point_eqb_refl).
  assert (K00 := K 0%nat 0%nat ltac:(cbn; lia) ltac:(cbn; lia)). assert (K11 := K 1%nat 1%nat ltac:(cbn; lia) ltac:(cbn; lia)).
  assert (K10 := K 1%nat 0%nat ltac:(cbn; lia) ltac:(cbn; lia)). rewrite ST in K00, K11, K10. cbn [andb Nat.eqb kentry pt nth] in K00, K11, K10. unfold pt in *. cbn [nth] in *. rewrite rbf_call_self in K00, K11.
  assert (R := rbf_call_range s l y x Hl). exists M. cbn [chol]. unfold gp_cov, mat_at. cbn [Nat.eqb length].
  change (nth 0 (nth 0 M []) 0) with (entry M 0 0). change (nth 1 (nth 1 M []) 0) with (entry M 1 1). change (nth 0 (nth 1 M []) 0) with (entry M 1 0).
  change (0 mod 2)%nat with 0%nat. change (1 mod 2)%nat with 1%nat. cbn [nth]. rewrite K00, K11, K10.
  assert (S := Rle_0_sqr s). unfold Rsqr in S. set (q := s * s) in *. set (b := rbf_call s l y x) in *.
  rewrite (proj2 (Rltb_true _ _)) by lra. rewrite (proj2 (Rltb_true _ _)); [eexists; split; [exact E|reflexivity]|].
  assert (P : 0 < q + n + sx) by lra. apply (Rmult_lt_reg_r (q + n + sx)); [exact P|]. rewrite Rmult_0_l.
  replace ((q + n + sy - (b + 0 + 0) * (b + 0 + 0) / (q + n + sx)) * (q + n + sx)) with ((q + n + sy) * (q + n + sx) - b * b) by (field; lra).
  assert (b * b <= q * q) by nra. nra.
Qed.
