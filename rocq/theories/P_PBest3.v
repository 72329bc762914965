(** Lemmas: the methods of calc_cdf. *)
From Verif Require Import M_Base M_RBase M_Select M_Normal M_GP M_Acq M_OrdProbit M_HyperGrad M_PBest.
From Verif Require Import P_RBase P_Select P_Normal P_Psd P_Det P_GP3 P_PBest P_PBest2 S_PBest S_GP S_Psd M_UCB.
From Coq Require Import Reals Lra Lia List.
Import ListNotations.
Local Open Scope R_scope.

Lemma cdf_independent_seq mu cov : cdf_independent mu cov = fold_right Rmult 1 (map (fun i => ndtr ((0 - nth i mu 0) / mat_at cov i i)) (seq 0 (length mu))).
Proof. unfold cdf_independent, enumerate, rprod. rewrite (enumerate_from_map mu 0), map_map. reflexivity. Qed.
Lemma combine_seq (mu var : list R) : length mu = length var -> combine mu var = map (fun i => (nth i mu 0, nth i var 0)) (seq 0 (length mu)).
Proof.
  revert var. induction mu as [|a mu IH]; intros [|b var] H; try discriminate; auto. cbn [combine length seq map nth]. f_equal.
  rewrite IH by (simpl in H; lia). rewrite <- seq_shift, map_map. reflexivity.
Qed.
Lemma independent_cdf_seq mu var : length mu = length var ->
  independent_cdf mu var = fold_right Rmult 1 (map (fun i => ndtr (- nth i mu 0 / sqrt (nth i var 0))) (seq 0 (length mu))).
Proof. intro H. unfold independent_cdf. rewrite combine_seq, map_map by auto. reflexivity. Qed.
Lemma independent_unit mu cov : (forall i, (i < length mu)%nat -> mat_at cov i i = 1) ->
  cdf_independent mu cov = independent_cdf mu (map (fun i => mat_at cov i i) (seq 0 (length mu))).
Proof.
  intro H. rewrite cdf_independent_seq, independent_cdf_seq by now rewrite map_length, seq_length. f_equal. apply map_ext_in.
  intros i Hi. apply in_seq in Hi. rewrite nth_map_seq by lia. rewrite H by lia. rewrite sqrt_1. f_equal. field.
Qed.
Lemma prod_range l : (forall x, In x l -> 0 < x < 1) -> 0 < fold_right Rmult 1 l /\ fold_right Rmult 1 l <= 1 /\ (l <> [] -> fold_right Rmult 1 l < 1).
Proof.
  induction l as [|x l IH]; intro H; simpl. { repeat split; try lra. congruence. }
  assert (Hx : 0 < x < 1) by (apply H; now left). destruct IH as [A [B _]]; [intros y Hy; apply H; now right|].
  assert (0 < x * fold_right Rmult 1 l) by (apply Rmult_lt_0_compat; lra).
  assert (x * fold_right Rmult 1 l <= x * 1) by (apply Rmult_le_compat_l; lra). repeat split; intros; lra.
Qed.
Lemma independent_range mu cov : mu <> [] -> 0 < cdf_independent mu cov < 1.
Proof.
  intro H. rewrite cdf_independent_seq. destruct (prod_range (map (fun i => ndtr ((0 - nth i mu 0) / mat_at cov i i)) (seq 0 (length mu)))) as [A [_ B]].
  - intros x Hx. apply in_map_iff in Hx. destruct Hx as [i [<- _]]. apply ndtr_range.
  - split; auto. apply B. destruct mu; [congruence|]. discriminate.
Qed.
Lemma prod_mono (f g : nat -> R) l : (forall i, In i l -> 0 < f i <= g i) -> fold_right Rmult 1 (map f l) <= fold_right Rmult 1 (map g l).
Proof.
  intro H. assert (0 < fold_right Rmult 1 (map f l) <= fold_right Rmult 1 (map g l)); [|tauto].
  induction l as [|i l IH]; simpl; [lra|]. assert (A := H i (or_introl eq_refl)). destruct IH as [B C]; [intros j Hj; apply H; now right|].
  split; [apply Rmult_lt_0_compat; lra|]. apply Rmult_le_compat; lra.
Qed.
Lemma independent_monotone mu mu' cov : length mu = length mu' -> (forall i, (i < length mu)%nat -> 0 < mat_at cov i i /\ nth i mu 0 <= nth i mu' 0) ->
  cdf_independent mu' cov <= cdf_independent mu cov.
Proof.
  intros L H. rewrite !cdf_independent_seq, <- L. apply prod_mono. intros i Hi. apply in_seq in Hi. split; [apply ndtr_range|].
  apply ndtr_le. destruct (H i) as [Hv Hm]; [lia|]. apply Rmult_le_compat_r; [left; now apply Rinv_0_lt_compat|lra].
Qed.
Lemma independent_one_wrong m v : m <> 0 -> 0 < v -> v <> 1 -> cdf_independent [m] [[v]] <> independent_cdf [m] [v].
Proof.
  intros Hm Hv H1 E. unfold cdf_independent, independent_cdf, enumerate in E. cbn [enumerate_from map fst snd combine rprod fold_right] in E.
  unfold rprod in E. cbn [fold_right] in E. change (mat_at [[v]] 0 0) with v in E. rewrite !Rmult_1_r in E.
  assert (Inj : forall x y, ndtr x = ndtr y -> x = y).
  { intros x y K. destruct (Rtotal_order x y) as [L|[L|L]]; auto; apply ndtr_increasing in L; lra. }
  apply Inj in E. assert (Hs : 0 < sqrt v) by now apply sqrt_lt_R0. assert (Hq : sqrt v * sqrt v = v) by (apply sqrt_sqrt; lra).
  assert (F : sqrt v = v). { apply (f_equal (fun t => t * v * sqrt v)) in E.
    replace ((0 - m) / v * v * sqrt v) with (- m * sqrt v) in E by (field; lra). replace (- m / sqrt v * v * sqrt v) with (- m * v) in E by (field; lra).
    apply (Rmult_eq_reg_l (- m)); lra. }
  rewrite F in Hq. apply H1. apply (Rmult_eq_reg_l v); lra.
Qed.

(** ---- switch ---- *)
Lemma argmax_zeros l : l <> [] -> (forall x, In x l -> x = 0) -> argmax Rltb l = Ok O.
Proof.
  intros N H. destruct (argmax Rltb l) as [k|e] eqn:E.
  - apply argmax_first in E. destruct E as [Hk [_ F]]. destruct k as [|k]; auto. assert (A := F O ltac:(lia)).
    rewrite (H (nth 0 l 0)) in A by (apply nth_In; lia). rewrite (H (nth (S k) l 0)) in A by (apply nth_In; lia). lra.
  - destruct l; [congruence|discriminate].
Qed.
Lemma switch_diagonal ext mu cov : rejects_singular (ext_full ext) -> (2 <= length cov)%nat ->
  (forall i j, (i < length cov)%nat -> (j < length cov)%nat -> i <> j -> mat_at cov i j = 0) -> exists e, calc_cdf ext CdfSwitch mu cov = Raise e.
Proof.
  intros R2 L D. unfold calc_cdf. destruct (length cov) as [|[|n]] eqn:En; [lia|lia|]. cbn [cdf_switch]. rewrite En.
  change (Nat.ltb 1 (S (S n))) with true. cbn iota. rewrite argmax_zeros.
  - cbn [bind]. rewrite Nat.div_0_l, Nat.mod_0_l by lia.
    destruct (R2 [nth 0 mu 0; nth 0 mu 0] [[mat_at cov 0 0; mat_at cov 0 0]; [mat_at cov 0 0; mat_at cov 0 0]]) as [e He].
    + intro P. set (c := fun i : nat => match i with O => 1 | S O => -1 | _ => 0 end).
      assert (Q : 0 < qform 2 (fun i j => nth j (nth i [[mat_at cov 0 0; mat_at cov 0 0]; [mat_at cov 0 0; mat_at cov 0 0]] nil) 0) c).
      { apply P. exists O. simpl. split; [lia|lra]. }
      unfold qform, c in Q. simpl in Q. lra.
    + rewrite He. cbn [bind]. eauto.
  - unfold mod_cov. discriminate.
  - intros x Hx. unfold mod_cov in Hx. apply in_concat in Hx. destruct Hx as [r [Hr Hx]]. apply in_map_iff in Hr. destruct Hr as [i [<- Hi]].
    apply in_map_iff in Hx. destruct Hx as [j [<- Hj]]. apply in_seq in Hi, Hj. destruct (Nat.eqb_spec i j); auto.
    rewrite D by lia. apply Rabs_R0.
Qed.
Lemma switch_two ext m0 m1 a b c : b <> 0 -> calc_cdf ext CdfSwitch [m0; m1] [[a; b]; [b; c]] = calc_cdf ext CdfFull [m0; m1] [[a; b]; [b; c]].
Proof.
  intro Hb. unfold calc_cdf. cbn [length]. cbn [cdf_switch length]. change (Nat.ltb 1 2) with true. cbn iota.
  change (mod_cov 2 [[a; b]; [b; c]]) with [0; Rabs b; Rabs b; 0]. assert (Hp := Rabs_pos_lt b Hb).
  assert (E : argmax Rltb [0; Rabs b; Rabs b; 0] = Ok 1%nat).
  { destruct (argmax Rltb [0; Rabs b; Rabs b; 0]) as [k|e] eqn:E; [|discriminate]. apply argmax_first in E. destruct E as [Hk [M F]]. simpl in Hk.
    destruct k as [|[|[|[|k]]]]; auto; try lia.
    - assert (A := M 1%nat ltac:(simpl; lia)). simpl in A. lra.
    - assert (A := F 1%nat ltac:(simpl; lia)). simpl in A. lra.
    - assert (A := F 1%nat ltac:(simpl; lia)). simpl in A. lra. }
  rewrite E. cbn [bind]. change (1 / 2)%nat with 0%nat. change (1 mod 2)%nat with 1%nat.
  change (mat_at [[a; b]; [b; c]] 0 0) with a. change (mat_at [[a; b]; [b; c]] 0 1) with b. change (mat_at [[a; b]; [b; c]] 1 0) with b.
  change (mat_at [[a; b]; [b; c]] 1 1) with c. cbn [nth].
  destruct (ext_full ext [m0; m1] [[a; b]; [b; c]]) as [q|e]; cbn [bind]; auto.
  change (map (del_two 0 1) (del_two 0 1 [[a; b]; [b; c]])) with (@nil (list R)). cbn [length]. change (Nat.ltb 1 0) with false. cbn iota. cbn [bind].
  now rewrite Rmult_1_l.
Qed.
Lemma independent_wrong ext m v : m <> 0 -> 0 < v -> v <> 1 ->
  calc_cdf ext CdfIndependent [m] [[v]] <> Ok (Some (independent_cdf [m] [v])).
Proof. intros Hm Hv H1 E. injection E as E. exact (independent_one_wrong m v Hm Hv H1 E). Qed.
Lemma independent_right (ext : cdf_ext) mu cov : (forall i, (i < length mu)%nat -> mat_at cov i i = 1) ->
  calc_cdf ext CdfIndependent mu cov = Ok (Some (independent_cdf mu (map (fun i => mat_at cov i i) (seq 0 (length mu))))).
Proof. intro H. unfold calc_cdf. now rewrite independent_unit. Qed.
Lemma independent_range' ext mu cov p : mu <> [] -> calc_cdf ext CdfIndependent mu cov = Ok (Some p) -> 0 < p < 1.
Proof. intros H E. injection E as <-. now apply independent_range. Qed.
Lemma independent_monotone' ext mu mu' cov p p' : length mu = length mu' ->
  (forall i, (i < length mu)%nat -> 0 < mat_at cov i i /\ nth i mu 0 <= nth i mu' 0) ->
  calc_cdf ext CdfIndependent mu cov = Ok (Some p) -> calc_cdf ext CdfIndependent mu' cov = Ok (Some p') -> p' <= p.
Proof. intros L H E E'. injection E as <-. injection E' as <-. now apply independent_monotone. Qed.
