(** Line searches with missing values: lemmas. *)
From Coq Require Import Reals Lra Lia List.
From Verif Require Import M_Base M_RBase M_Float M_Search M_LineNaN S_LineNaN P_RBase P_Search.
Import ListNotations.
Local Open Scope R_scope.

Lemma fltb_fin x y : fltb (Fin x) (Fin y) = Rltb x y.
Proof. unfold fltb. cbn [fleb]. unfold Rltb, Rleb. destruct (Rle_dec y x), (Rlt_dec x y); cbn; try reflexivity; lra. Qed.
Lemma fltb_false a b : a <> NaN -> b <> NaN -> fltb a b = false -> notabove b a.
Proof. destruct a as [| | |x], b as [| | |y]; intros A B; try congruence; cbn; auto; try discriminate. unfold Rleb. destruct (Rle_dec y x); [auto|discriminate]. Qed.
Lemma fltb_true a b : fltb a b = true -> a <> NaN /\ b <> NaN /\ b <> NInf /\ notabove a b.
Proof. destruct a as [| | |x], b as [| | |y]; cbn; try discriminate; intro H; repeat split; try discriminate; auto. unfold Rleb in H. destruct (Rle_dec y x); [discriminate|lra]. Qed.
Lemma last_pair phi n : forall lo hi, lo < hi -> exists a b, lo <= a /\ a < b /\ b <= hi /\ b - a = (hi - lo) / 2 ^ n /\
  let l1 := a + (b - a) / 4 in let l2 := a + 3 * (b - a) / 4 in
  (binary_search_x phi lo hi (S n) = l1 /\ phi l1 <> NaN /\ phi l2 <> NaN /\ notabove (phi l2) (phi l1)) \/ (binary_search_x phi lo hi (S n) = l2 /\ (phi l1 <> NaN -> phi l2 <> NaN -> notabove (phi l1) (phi l2))).
Proof.
  induction n as [|n IH]; intros lo hi H.
  - exists lo, hi. split; [lra|]. split; [lra|]. split; [lra|]. split; [cbn; field|]. cbv zeta. cbn [binary_search_x]. replace ((hi - lo) * (25 / 100) + lo) with (lo + (hi - lo) / 4) by field. replace ((hi - lo) * (75 / 100) + lo) with (lo + 3 * (hi - lo) / 4) by field.
    destruct (fltb _ _) eqn:E.
    + left. apply fltb_true in E. destruct E as [E1 [E2 [_ E3]]]. repeat split; auto. field.
    + right. split; [field|]. intros A B. now apply fltb_false.
  - assert (M : lo < (hi - lo) * (5 / 10) + lo < hi) by lra. cbn [binary_search_x]. assert (P : 0 < 2 ^ n) by (apply pow_lt; lra). destruct (fltb _ _).
    + destruct (IH lo ((hi - lo) * (5 / 10) + lo) ltac:(lra)) as [a [b [H1 [H2 [H3 [H4 H5]]]]]]. exists a, b. split; [lra|]. split; [lra|]. split; [lra|]. split; [rewrite H4; cbn [pow]; field; lra|exact H5].
    + destruct (IH ((hi - lo) * (5 / 10) + lo) hi ltac:(lra)) as [a [b [H1 [H2 [H3 [H4 H5]]]]]]. exists a, b. split; [lra|]. split; [lra|]. split; [lra|]. split; [rewrite H4; cbn [pow]; field; lra|exact H5].
Qed.
Lemma stays_inside phi t n : until phi t NInf -> forall lo hi, lo < hi -> lo + (hi - lo) / 4 <= t -> binary_search_x phi lo hi (S n) <= t.
Proof.
  intros [U1 U2]. assert (K : forall n lo hi, lo < hi -> lo + (hi - lo) / 4 <= t -> (n = O -> lo + (hi - lo) / 2 <= t) -> binary_search_x phi lo hi n <= t).
  { clear n. induction n as [|n IH]; intros lo hi H L B; [cbn; specialize (B eq_refl); lra|]. clear B. cbn [binary_search_x]. destruct (U1 ((hi - lo) * (25 / 100) + lo) ltac:(lra)) as [x E1]. rewrite E1. destruct (Rle_or_lt ((hi - lo) * (75 / 100) + lo) t) as [C|C].
    - destruct (U1 _ C) as [y E2]. rewrite E2. destruct (fltb _ _); (apply IH; [lra|lra|intros _; lra]).
    - rewrite (U2 _ C). cbn [fltb fleb negb]. apply IH; [lra|lra|intros _; lra]. }
  intros lo hi H L. apply K; auto. discriminate.
Qed.
Lemma goes_right phi n : forall lo hi, lo < hi -> (forall lam, lo + 3 * (hi - lo) / 4 <= lam -> lam < hi -> fltb (phi lam) (phi (lo + (hi - lo) / 4)) = false) ->
  (forall a b, lo + 3 * (hi - lo) / 4 <= b -> b < hi -> lo + (hi - lo) / 2 < a -> a < hi -> fltb (phi b) (phi a) = false) -> binary_search_x phi lo hi n = hi - (hi - lo) / 2 ^ S n.
Proof.
  induction n as [|n IH]; intros lo hi H H1 H2; [cbn; field|]. cbn [binary_search_x]. replace ((hi - lo) * (75 / 100) + lo) with (lo + 3 * (hi - lo) / 4) by field. replace ((hi - lo) * (25 / 100) + lo) with (lo + (hi - lo) / 4) by field. rewrite H1 by lra.
  assert (P : 0 < 2 ^ n) by (apply pow_lt; lra). rewrite IH; [cbn [pow]; field; lra|lra| |].
  - intros lam L1 L2. apply H2; lra.
  - intros a b L1 L2 L3 L4. apply H2; lra.
Qed.
Lemma too_far phi t n lo hi : until phi t NInf -> lo < hi -> t < lo + (hi - lo) / 4 -> binary_search_x phi lo hi n = hi - (hi - lo) / 2 ^ S n.
Proof. intros [_ U] H L. apply goes_right; [exact H| |]; intros; rewrite !U by lra; reflexivity. Qed.
Lemma nan_right phi t n lo hi : until phi t NaN -> lo < hi -> t < lo + 3 * (hi - lo) / 4 -> binary_search_x phi lo hi n = hi - (hi - lo) / 2 ^ S n.
Proof. intros [_ U] H L. apply goes_right; [exact H| |]; intros; rewrite (U lam) || rewrite (U b); try lra; reflexivity. Qed.
Lemma right_end lo hi n : lo < hi -> (0 < n)%nat -> lo + 3 * (hi - lo) / 4 <= hi - (hi - lo) / 2 ^ S n < hi.
Proof.
  intros H N. destruct n as [|n]; [lia|]. assert (P : 1 <= 2 ^ n) by (apply pow_R1_Rle; lra). cbn [pow]. assert (I : 0 < / 2 ^ n <= 1) by (split; [apply Rinv_0_lt_compat; lra|rewrite <- Rinv_1; apply Rinv_le_contravar; lra]).
  replace ((hi - lo) / (2 * (2 * 2 ^ n))) with ((hi - lo) / 4 * / 2 ^ n) by (field; lra). split; [|assert (0 < (hi - lo) / 4 * / 2 ^ n) by (apply Rmult_lt_0_compat; lra); lra].
  assert ((hi - lo) / 4 * / 2 ^ n <= (hi - lo) / 4 * 1) by (apply Rmult_le_compat_l; lra). lra.
Qed.
(** ---- iterative search ---- *)
Lemma notabove_refl a : a <> NaN -> notabove a a.
Proof. destruct a; cbn; auto; try congruence. intros _. apply Rle_refl. Qed.
Lemma notabove_trans a b c : notabove a b -> notabove b c -> notabove a c.
Proof. destruct a as [| | |x], b as [| | |y], c as [| | |z]; cbn; tauto || lra || auto. Qed.
Lemma iter_best phi pts : forall b v, v <> NaN -> exists v', v' <> NaN /\ (forall p, In p pts -> phi p <> NaN -> notabove (phi p) v') /\ notabove v v' /\
  ((iter_loop_x phi pts b v = b /\ v' = v) \/ (In (iter_loop_x phi pts b v) pts /\ v' = phi (iter_loop_x phi pts b v) /\ v' <> NInf)).
Proof.
  induction pts as [|q pts IH]; intros b v V; cbn [iter_loop_x].
  - exists v. repeat split; auto; [intros p []|now apply notabove_refl].
  - destruct (fltb v (phi q)) eqn:E.
    + apply fltb_true in E. destruct E as [_ [E2 [E3 E4]]]. destruct (IH q (phi q) E2) as [v' [N [A [B C]]]]. exists v'. split; [exact N|]. split; [intros p [<-|Hp] Hn; [exact B|now apply A]|]. split; [eapply notabove_trans; eauto|].
      right. destruct C as [[C1 C2]|[C1 [C2 C3]]]; [rewrite C1; split; [now left|]; split; [exact C2|congruence]|split; [now right|]; split; assumption].
    + destruct (IH b v V) as [v' [N [A [B C]]]]. exists v'. split; [exact N|]. split; [intros p [<-|Hp] Hn; [eapply notabove_trans; [|exact B]; now apply fltb_false|now apply A]|]. split; [exact B|].
      destruct C as [C|[C1 C2]]; [now left|right; split; [now right|exact C2]].
Qed.
Lemma iter_spec phi lo hi n : -1 < lo -> lo <= hi -> n <> 0%nat ->
  match iterative_search_x phi lo hi n with
  | Ok lam => In lam (arange lo hi n) /\ phi lam <> NaN /\ phi lam <> NInf /\ forall x, In x (arange lo hi n) -> phi x <> NaN -> notabove (phi x) (phi lam)
  | Raise e => e = GenericException /\ forall x, In x (arange lo hi n) -> phi x = NaN \/ phi x = NInf
  end.
Proof.
  intros L H N. unfold iterative_search_x. destruct n as [|n]; [congruence|]. destruct (iter_best phi (arange lo hi (S n)) (-1) NInf ltac:(discriminate)) as [v' [V [A [_ C]]]]. cbv zeta. destruct (Req_EM_T _ _) as [E|E].
  - split; [reflexivity|]. destruct C as [[_ ->]|[C _]].
    + intros x Hx. specialize (A x Hx). destruct (phi x); auto; [|]; exfalso; apply A; discriminate.
    + rewrite E in C. apply arange_ge in C; lra.
  - destruct C as [[C _]|[C1 [C2 C3]]]; [congruence|]. rewrite C2 in *. repeat split; assumption.
Qed.
Lemma arange_first lo hi n : n <> 0%nat -> In lo (arange lo hi n).
Proof. intro N. apply arange_in. exists O. split; [lia|]. cbn. ring. Qed.
Lemma iter_inside phi t v lo hi n : -1 < lo -> lo <= hi -> n <> 0%nat -> until phi t v -> v = NaN \/ v = NInf -> lo <= t -> exists lam x, iterative_search_x phi lo hi n = Ok lam /\ lam <= t /\ phi lam = Fin x.
Proof.
  intros L H N [U1 U2] V T. assert (S := iter_spec phi lo hi n L H N). destruct (iterative_search_x phi lo hi n) as [lam|e].
  - destruct S as [_ [S1 [S2 _]]]. destruct (Rle_or_lt lam t) as [C|C]; [destruct (U1 lam C) as [x E]; exists lam, x; auto|]. apply U2 in C. destruct V as [-> | ->]; congruence.
  - destruct S as [_ S]. destruct (U1 lo T) as [x E]. destruct (S lo (arange_first lo hi n N)); congruence.
Qed.
(** ---- the other model ---- *)
Lemma plain_binary phi psi n : plain phi psi -> forall lo hi, binary_search_x phi lo hi n = binary_line_search psi lo hi n.
Proof.
  intro P. induction n as [|n IH]; intros lo hi; [reflexivity|]. cbn [binary_search_x binary_line_search]. rewrite !P, !IH. set (l1 := (hi - lo) * (25 / 100) + lo). set (l2 := (hi - lo) * (75 / 100) + lo). destruct (psi l1) as [x|], (psi l2) as [y|]; try reflexivity. cbn [ogtb]. now rewrite fltb_fin.
Qed.
Lemma plain_iter phi psi lo hi n : plain phi psi -> iterative_search_x phi lo hi n = iterative_line_search psi lo hi n.
Proof.
  intro P. unfold iterative_search_x, iterative_line_search. destruct n as [|n]; [reflexivity|]. cbv zeta. assert (K : forall pts b v, iter_loop_x phi pts b (match v with Some x => Fin x | None => NInf end) = iter_loop psi pts b v).
  { induction pts as [|q pts IH]; intros b v; [reflexivity|]. cbn [iter_loop_x iter_loop]. rewrite P. replace (fltb (match v with Some x => Fin x | None => NInf end) (match psi q with Some x => Fin x | None => NInf end)) with (ogtb (psi q) v); [destruct (ogtb _ _); [rewrite <- (IH q (psi q)); f_equal; apply P|apply IH]|]. destruct (psi q), v; try reflexivity. cbn [ogtb]. now rewrite fltb_fin. }
  rewrite (K _ (-1) None). reflexivity.
Qed.
(** ---- the Newton update ---- *)
Lemma newton_missing n : exists F descent loss F', newton_update_x F descent loss Binary (S n) = Ok F' /\ loss F' = NaN /\ (exists x, loss F = Fin x) /\
  forall lam, 0 <= lam <= 1 -> exists x, loss (step_from F descent lam) = Fin x.
Proof.
  set (loss := fun F : list R => if Rle_dec (nth 0 F 0) 1 then Fin (nth 0 F 0) else NaN). exists [0], [-1], loss.
  assert (U : until (fun lam => loss (step_from [0] [-1] lam)) 1 NaN). { split; intros lam L; unfold loss, step_from; cbn [combine map fst snd nth]; destruct (Rle_dec _ _); try lra; eauto. }
  eexists. split; [reflexivity|]. split; [|split].
  - rewrite (nan_right _ 1 (S n) 0 (15 / 10) U) by lra. apply (proj2 U). assert (R := right_end 0 (15 / 10) (S n) ltac:(lra) ltac:(lia)). lra.
  - exists 0. unfold loss. cbn [nth]. destruct (Rle_dec 0 1); [reflexivity|lra].
  - intros lam L. apply (proj1 U). lra.
Qed.
Lemma newton_plain F d loss loss' t n : plain (fun lam => loss (step_from F d lam)) (fun lam => loss' (step_from F d lam)) -> newton_update_x F d loss t n = newton_update F d loss' t n.
Proof.
  intros P. unfold newton_update_x, newton_update. destruct t; try reflexivity.
  - rewrite (plain_binary _ _ n P). reflexivity.
  - rewrite (plain_iter _ _ _ _ n P). reflexivity.
Qed.
Lemma newton_refused F d loss n : newton_update_x F d loss Other n = Raise ValueError /\ newton_update_x F d loss Static n = Raise AttributeError.
Proof. split; reflexivity. Qed.
