(** Averages over independent yes-no answers. *)
From Coquelicot Require Import Coquelicot.
From Coq Require Import Reals Lra Lia List Bool.
From Verif Require Import M_Base M_RBase M_Normal M_Util M_Select M_Tune S_Util S_Tune P_RBase P_Normal P_Util.
Import ListNotations.
Local Open Scope R_scope.

Fixpoint bern (c : list R) (g : list bool -> R) : R :=
  match c with
  | [] => g []
  | p :: c' => p * bern c' (fun l => g (true :: l)) + (1 - p) * bern c' (fun l => g (false :: l))
  end.
Definition chance_list (c : list R) : Prop := forall p, In p c -> 0 <= p <= 1.
Lemma bern_ext c : forall g h, (forall l, length l = length c -> g l = h l) -> bern c g = bern c h.
Proof.
  induction c as [|p c IH]; intros g h E; cbn [bern]; [now apply E|]. rewrite (IH (fun l => g (true :: l)) (fun l => h (true :: l))), (IH (fun l => g (false :: l)) (fun l => h (false :: l))); auto; intros l L; apply E; cbn; now rewrite L.
Qed.
Lemma bern_le c : chance_list c -> forall g h, (forall l, length l = length c -> g l <= h l) -> bern c g <= bern c h.
Proof.
  induction c as [|p c IH]; intros C g h E; cbn [bern]; [now apply E|]. assert (Hp := C p (or_introl eq_refl)). assert (C' : chance_list c) by (intros x Hx; apply C; now right).
  apply Rplus_le_compat; apply Rmult_le_compat_l; try lra; apply IH; auto; intros l L; apply E; cbn; now rewrite L.
Qed.
Lemma bern_scale c k : forall g, bern c (fun l => k * g l) = k * bern c g.
Proof. induction c as [|p c IH]; intro g; cbn [bern]; auto. rewrite (IH (fun l => g (true :: l))), (IH (fun l => g (false :: l))). ring. Qed.
Lemma count_cons b l : num_true (b :: l) = (if b then 1 else 0) + num_true l.
Proof. reflexivity. Qed.
Lemma bern_square c : forall a, bern c (fun l => (num_true l - a) ^ 2) = (rsum c - a) ^ 2 + rsum (map (fun p => p * (1 - p)) c).
Proof.
  induction c as [|p c IH]; intro a; cbn [bern map]; [unfold num_true; cbn; ring|].
  rewrite (bern_ext c _ (fun l => (num_true l - (a - 1)) ^ 2)) by (intros l _; rewrite count_cons; ring).
  rewrite (bern_ext c (fun l => (num_true (false :: l) - a) ^ 2) (fun l => (num_true l - a) ^ 2)) by (intros l _; rewrite count_cons; ring).
  rewrite !IH. change (rsum (p :: c)) with (p + rsum c). change (rsum (p * (1 - p) :: map (fun p => p * (1 - p)) c)) with (p * (1 - p) + rsum (map (fun p => p * (1 - p)) c)). ring.
Qed.
(** the estimate by the fraction of yes answers *)
Lemma bern_fraction c a : c <> [] -> bern c (fun l => (num_true l / INR (length c) - a) ^ 2) = (average c - a) ^ 2 + spread c.
Proof.
  intro N. assert (P : 0 < INR (length c)) by (apply lt_0_INR; destruct c; [congruence|cbn; lia]).
  rewrite (bern_ext c _ (fun l => / INR (length c) ^ 2 * (num_true l - a * INR (length c)) ^ 2)) by (intros l _; field; lra).
  rewrite (bern_scale c (/ INR (length c) ^ 2) (fun l => (num_true l - a * INR (length c)) ^ 2)), bern_square. unfold average, spread. field. lra.
Qed.
Lemma spread_bound c : c <> [] -> chance_list c -> 0 <= spread c <= / (4 * INR (length c)).
Proof.
  intros N C. assert (P : 0 < INR (length c)) by (apply lt_0_INR; destruct c; [congruence|cbn; lia]).
  assert (B : 0 <= rsum (map (fun p => p * (1 - p)) c) <= INR (length c) / 4).
  { clear N P. induction c as [|p c IH]; [cbn; lra|]. cbn [map]. change (rsum (p * (1 - p) :: ?l)) with (p * (1 - p) + rsum l). rewrite (S_INR (length c)) || (cbn [length]; rewrite S_INR). assert (Hp := C p (or_introl eq_refl)). assert (IH' := IH (fun x Hx => C x (or_intror Hx))).
    assert (0 <= p * (1 - p)) by (apply Rmult_le_pos; lra). assert (0 <= (p - 1 / 2) ^ 2) by apply pow2_ge_0. lra. }
  unfold spread. split; [apply Rdiv_le_0_compat; [lra|now apply pow_lt]|]. apply Rmult_le_reg_r with (INR (length c) ^ 2); [now apply pow_lt|]. replace (rsum (map (fun p => p * (1 - p)) c) / INR (length c) ^ 2 * INR (length c) ^ 2) with (rsum (map (fun p => p * (1 - p)) c)) by (field; lra). replace (/ (4 * INR (length c)) * INR (length c) ^ 2) with (INR (length c) / 4) by (field; lra). apply B.
Qed.
(** a bad setting is rarely accepted *)
Definition accepted (r : R) (v : R) : R := if Rltb v r then 1 else 0.
Lemma bern_accept c a r t : c <> [] -> chance_list c -> 0 < r -> 0 < t -> r + t <= Rabs (average c - a) ->
  bern c (fun l => accepted (r ^ 2) ((num_true l / INR (length c) - a) ^ 2)) <= / (4 * INR (length c) * t ^ 2).
Proof.
  intros N C Hr Ht G. assert (P : 0 < INR (length c)) by (apply lt_0_INR; destruct c; [congruence|cbn; lia]). assert (T2 : 0 < t ^ 2) by now apply pow_lt.
  apply Rle_trans with (bern c (fun l => / t ^ 2 * (num_true l / INR (length c) - average c) ^ 2)).
  - apply bern_le; auto. intros l _. unfold accepted. destruct (Rltb _ _) eqn:E.
    + apply Rltb_true in E. set (x := num_true l / INR (length c)) in *. assert (Q : t ^ 2 <= (x - average c) ^ 2).
      { assert (Ax : Rabs (x - a) < r). { apply Rsqr_lt_abs_0 in E || idtac. rewrite <- (Rabs_right r) by lra. apply Rsqr_lt_abs_0. unfold Rsqr. lra. }
        assert (A2 : t <= Rabs (x - average c)). { assert (K := Rabs_triang (average c - x) (x - a)). replace (average c - x + (x - a)) with (average c - a) in K by ring. rewrite (Rabs_minus_sym (average c) x) in K. lra. }
        rewrite <- (pow2_abs (x - average c)). apply pow_incr. lra. }
      apply Rmult_le_reg_l with (t ^ 2); auto. rewrite <- Rmult_assoc, Rinv_r, Rmult_1_l, Rmult_1_r by lra. exact Q.
    + apply Rmult_le_pos; [apply Rlt_le, Rinv_0_lt_compat; auto|apply pow2_ge_0].
  - rewrite (bern_scale c (/ t ^ 2) (fun l => (num_true l / INR (length c) - average c) ^ 2)), bern_fraction by auto. destruct (spread_bound c N C) as [_ B]. replace ((average c - average c) ^ 2 + spread c) with (spread c) by ring.
    replace (/ (4 * INR (length c) * t ^ 2)) with (/ t ^ 2 * / (4 * INR (length c))) by (field; split; lra). apply Rmult_le_compat_l; [apply Rlt_le, Rinv_0_lt_compat; auto|exact B].
Qed.

(** ---- uniform draws ---- *)
Lemma unit_mean_ext n : forall (Phi Psi : list R -> R) l, (forall us, length us = n -> Forall (fun u => 0 <= u <= 1) us -> Phi us = Psi us) -> unit_mean n Phi l -> unit_mean n Psi l.
Proof.
  induction n as [|n IH]; intros Phi Psi l E M; cbn [unit_mean] in *; [rewrite <- (E []); auto|]. destruct M as [g [G I]]. exists g. split; [|exact I]. intros u Hu. apply (IH (fun us => Phi (u :: us))); [|now apply G]. intros us L F. apply E; [cbn; congruence|now constructor].
Qed.
Lemma step_int p A B : 0 <= p <= 1 -> is_RInt (fun u => if Rleb u p then A else B) 0 1 (p * A + (1 - p) * B).
Proof.
  intro Hp. change (p * A + (1 - p) * B) with (plus (p * A) ((1 - p) * B)). apply (is_RInt_Chasles (V := R_NormedModule)) with p.
  - apply (is_RInt_ext (V := R_NormedModule) (fun _ => A)); [intros x Hx; rewrite Rmin_left, Rmax_right in Hx by lra; replace (Rleb x p) with true by (symmetry; apply Rleb_true; lra); reflexivity|]. evar_last; [apply (is_RInt_const (V := R_NormedModule))|]. change (@eq R ((p - 0) * A) (p * A)). ring.
  - apply (is_RInt_ext (V := R_NormedModule) (fun _ => B)); [intros x Hx; rewrite Rmin_left, Rmax_right in Hx by lra; replace (Rleb x p) with false by (symmetry; apply Rleb_false; lra); reflexivity|]. evar_last; [apply (is_RInt_const (V := R_NormedModule))|]. reflexivity.
Qed.
Lemma unit_bern c : chance_list c -> forall g, unit_mean (length c) (fun us => g (map (fun up => Rleb (fst up) (snd up)) (combine us c))) (bern c g).
Proof.
  induction c as [|p c IH]; intros C g; cbn [length unit_mean bern]; auto.
  assert (C' : chance_list c) by (intros x Hx; apply C; now right). exists (fun u => if Rleb u p then bern c (fun l => g (true :: l)) else bern c (fun l => g (false :: l))). split.
  - intros u _. cbn [combine map fst snd]. destruct (Rleb u p); [apply (IH C' (fun l => g (true :: l)))|apply (IH C' (fun l => g (false :: l)))].
  - apply step_int. apply C. now left.
Qed.
Lemma unit_mean_unique n : forall Phi l l', unit_mean n Phi l -> unit_mean n Phi l' -> l = l'.
Proof.
  induction n as [|n IH]; intros Phi l l' M M'; cbn [unit_mean] in *; [congruence|]. destruct M as [g [G I]]. destruct M' as [g' [G' I']].
  apply (is_RInt_ext g' g) in I'; [|intros u Hu; rewrite Rmin_left, Rmax_right in Hu by lra; apply (IH (fun us => Phi (u :: us))); [apply G'; lra|apply G; lra]].
  rewrite <- (is_RInt_unique (V := R_CompleteNormedModule) _ _ _ _ I). exact (is_RInt_unique (V := R_CompleteNormedModule) _ _ _ _ I').
Qed.
