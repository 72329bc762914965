(** Integrals of continuous functions over boxes: linearity, order, exchange of the order of integration, translation, nested boxes. *)
From Coquelicot Require Import Coquelicot.
From Coq Require Import Reals Lra Lia List Arith.
From Verif Require Import M_RBase S_MH S_MHR.
Import ListNotations.
Local Open Scope R_scope.

Local Arguments RInt {V} f a b : simpl never.
Ltac sc := unfold plus, minus, opp, scal, zero; cbn; unfold mult, plus, opp; cbn.
Lemma tri s t : Rabs s <= Rabs (s - t) + Rabs t.
Proof. assert (T := Rabs_triang (s - t) t). replace (s - t + t) with s in T by ring. exact T. Qed.
Lemma cts_ex (f : R -> R) a b : (forall t, continuous f t) -> ex_RInt f a b.
Proof. intro H. apply (ex_RInt_continuous (V := R_CompleteNormedModule)). intros z _. apply H. Qed.
Lemma rint_plus (f g : R -> R) a b : (forall t, continuous f t) -> (forall t, continuous g t) -> RInt (fun t => f t + g t) a b = RInt f a b + RInt g a b.
Proof. intros Hf Hg. apply (RInt_plus (V := R_CompleteNormedModule)); now apply cts_ex. Qed.
Lemma rint_scal c (f : R -> R) a b : (forall t, continuous f t) -> RInt (fun t => c * f t) a b = c * RInt f a b.
Proof. intros Hf. apply (RInt_scal (V := R_CompleteNormedModule)); now apply cts_ex. Qed.
Lemma rint_point (f : R -> R) a : RInt f a a = 0.
Proof. exact (RInt_point (V := R_CompleteNormedModule) a f). Qed.
(** a box integral all of whose inner integrals are continuous *)
Fixpoint good (A : list (R * R)) (f : list R -> R) : Prop :=
  match A with
  | [] => True
  | (a, b) :: A' => a <= b /\ (forall t, good A' (fun v => f (t :: v))) /\ forall t, continuous (fun t => box_int A' (fun v => f (t :: v))) t
  end.
Definition sides (A : list (R * R)) : Prop := Forall (fun ab => fst ab <= snd ab) A.
Fixpoint vol (A : list (R * R)) : R := match A with [] => 1 | (a, b) :: A' => (b - a) * vol A' end.
Definition inside (A : list (R * R)) (v : list R) : Prop := Forall2 (fun ab t => fst ab <= t <= snd ab) A v.
Lemma vol_nonneg A : sides A -> 0 <= vol A.
Proof. induction 1 as [|[a b] A H _ IH]; cbn in *; [lra|]. apply Rmult_le_pos; lra. Qed.
Lemma box_ext A : forall f g, (forall v, length v = length A -> f v = g v) -> box_int A f = box_int A g.
Proof.
  induction A as [|[a b] A IH]; intros f g H; cbn; [now apply H|]. apply RInt_ext. intros t _. apply IH. intros v Hv. apply H. cbn. now rewrite Hv.
Qed.
Lemma good_ext A : forall f g, (forall v, length v = length A -> f v = g v) -> good A f -> good A g.
Proof.
  induction A as [|[a b] A IH]; intros f g H G; cbn in *; [trivial|]. destruct G as [L [G C]]. split; [exact L|]. split.
  - intro t. apply (IH (fun v => f (t :: v))); [|apply G]. intros v Hv. apply H. cbn. now rewrite Hv.
  - intro t. apply (continuous_ext (fun t => box_int A (fun v => f (t :: v)))); [|apply C]. intro s. apply box_ext. intros v Hv. apply H. cbn. now rewrite Hv.
Qed.
Lemma good_sides A : forall f, good A f -> sides A.
Proof. induction A as [|[a b] A IH]; intros f G; constructor; [apply G|]. destruct G as [_ [G _]]. exact (IH _ (G 0)). Qed.
Lemma good_plus A : forall f g, good A f -> good A g -> good A (fun v => f v + g v) /\ box_int A (fun v => f v + g v) = box_int A f + box_int A g.
Proof.
  induction A as [|[a b] A IH]; intros f g Gf Gg; cbn in *; [split; [trivial|reflexivity]|]. destruct Gf as [L [Gf Cf]], Gg as [_ [Gg Cg]].
  assert (E : forall t, box_int A (fun v => f (t :: v) + g (t :: v)) = box_int A (fun v => f (t :: v)) + box_int A (fun v => g (t :: v))) by (intro t; apply (IH (fun v => f (t :: v)) (fun v => g (t :: v))); auto).
  split; [split; [exact L|split]|].
  - intro t. apply (IH (fun v => f (t :: v)) (fun v => g (t :: v))); auto.
  - intro t. apply (continuous_ext (fun t => plus (box_int A (fun v => f (t :: v))) (box_int A (fun v => g (t :: v))))); [intro s; now rewrite E|]. now apply (continuous_plus (V := R_NormedModule)).
  - rewrite (RInt_ext _ (fun t => box_int A (fun v => f (t :: v)) + box_int A (fun v => g (t :: v)))) by (intros t _; now rewrite E). now apply rint_plus.
Qed.
Lemma good_scal c A : forall f, good A f -> good A (fun v => c * f v) /\ box_int A (fun v => c * f v) = c * box_int A f.
Proof.
  induction A as [|[a b] A IH]; intros f Gf; cbn in *; [split; [trivial|reflexivity]|]. destruct Gf as [L [Gf Cf]].
  assert (E : forall t, box_int A (fun v => c * f (t :: v)) = c * box_int A (fun v => f (t :: v))) by (intro t; apply (IH (fun v => f (t :: v))); auto).
  split; [split; [exact L|split]|].
  - intro t. apply (IH (fun v => f (t :: v))); auto.
  - intro t. apply (continuous_ext (fun t => scal c (box_int A (fun v => f (t :: v))))); [intro s; now rewrite E|]. apply (continuous_scal_r (V := R_NormedModule)). apply Cf.
  - rewrite (RInt_ext _ (fun t => c * box_int A (fun v => f (t :: v)))) by (intros t _; now rewrite E). now apply rint_scal.
Qed.
Lemma good_minus A f g : good A f -> good A g -> good A (fun v => f v - g v) /\ box_int A (fun v => f v - g v) = box_int A f - box_int A g.
Proof.
  intros Gf Gg. destruct (good_scal (-1) A g Gg) as [G1 E1]. destruct (good_plus A f _ Gf G1) as [G2 E2]. split.
  - apply (good_ext A (fun v => f v + -1 * g v)); [intros; ring|exact G2].
  - rewrite (box_ext A _ (fun v => f v + -1 * g v)) by (intros; ring). rewrite E2, E1. ring.
Qed.
Lemma box_le A : forall f g, good A f -> good A g -> (forall v, inside A v -> f v <= g v) -> box_int A f <= box_int A g.
Proof.
  induction A as [|[a b] A IH]; intros f g Gf Gg H; cbn in *; [apply H; constructor|]. destruct Gf as [L [Gf Cf]], Gg as [_ [Gg Cg]].
  apply RInt_le; [exact L|now apply cts_ex|now apply cts_ex|]. intros t Ht. apply IH; auto. intros v Hv. apply H. constructor; [cbn; lra|exact Hv].
Qed.
Lemma good_const c A : sides A -> good A (fun _ => c) /\ box_int A (fun _ => c) = c * vol A.
Proof.
  induction 1 as [|[a b] A H _ [G E]]; [split; cbn; [trivial|ring]|]. cbn. split; [split; [exact H|split]|].
  - intros _. exact G.
  - intro t. apply continuous_const.
  - rewrite RInt_const, E. sc. ring.
Qed.
Lemma box_dist A f g e : good A f -> good A g -> (forall v, inside A v -> Rabs (f v - g v) <= e) -> Rabs (box_int A f - box_int A g) <= e * vol A.
Proof.
  intros Gf Gg H. destruct (good_minus A f g Gf Gg) as [G E]. rewrite <- E. assert (S := good_sides A f Gf). destruct (good_const e A S) as [K1 K2]. destruct (good_const (- e) A S) as [K3 K4].
  apply Rabs_le. split.
  - replace (- (e * vol A)) with (- e * vol A) by ring. rewrite <- K4. apply box_le; [exact K3|exact G|]. intros v Hv. specialize (H v Hv). apply Rabs_le_between in H. lra.
  - rewrite <- K2. apply box_le; [exact G|exact K1|]. intros v Hv. specialize (H v Hv). apply Rabs_le_between in H. lra.
Qed.
(** ---- continuous functions ---- *)
Definition cont2 (k d : nat) (f : list R -> list R -> R) : Prop :=
  forall r e, 0 < r -> 0 < e -> exists dl, 0 < dl /\ forall p q u v, length p = k -> length u = d -> Forall2 (close r dl) p q -> Forall2 (close r dl) u v -> Rabs (f p u - f q v) < e.
Lemma close_mono r d r' d' a b : r <= r' -> d <= d' -> close r d a b -> close r' d' a b.
Proof. intros H1 H2 [A [B C]]. repeat split; lra. Qed.
Lemma close2_mono r d r' d' u v : r <= r' -> d <= d' -> Forall2 (close r d) u v -> Forall2 (close r' d') u v.
Proof. intros H1 H2 H. induction H; constructor; [now apply (close_mono r d)|assumption]. Qed.
Lemma close_refl r d u : 0 < d -> Forall (fun a => Rabs a <= r) u -> Forall2 (close r d) u u.
Proof. intros Hd H. induction H; constructor; [|assumption]. repeat split; try assumption. unfold Rminus. rewrite Rplus_opp_r, Rabs_R0. exact Hd. Qed.
Lemma bounded_by (u : list R) : exists r, 0 < r /\ Forall (fun a => Rabs a <= r) u.
Proof.
  induction u as [|a u [r [H1 H2]]]; [exists 1; split; [lra|constructor]|]. exists (r + Rabs a). assert (P := Rabs_pos a). split; [lra|]. constructor; [lra|]. eapply Forall_impl; [|exact H2]. cbn; intros; lra.
Qed.
Lemma cont2_slice k d f p : cont2 k d f -> length p = k -> cont d (f p).
Proof.
  intros C Hp r e Hr He. destruct (bounded_by p) as [s [Hs Bs]]. destruct (C (r + s) e ltac:(lra) He) as [dl [Hd H]]. exists dl. split; [exact Hd|]. intros u v Hu Huv. apply H; [exact Hp|exact Hu| |].
  - apply (close2_mono s dl); [lra|lra|]. now apply close_refl.
  - apply (close2_mono r dl); [lra|lra|exact Huv].
Qed.
Lemma cont2_0 d f : cont d f -> cont2 0 d (fun _ => f).
Proof. intros C r e Hr He. destruct (C r e Hr He) as [dl [Hd H]]. exists dl. split; [exact Hd|]. intros. now apply H. Qed.
Lemma cont2_swap k d f : cont2 k d f -> cont2 d k (fun u p => f p u).
Proof. intros C r e Hr He. destruct (C r e Hr He) as [dl [Hd H]]. exists dl. split; [exact Hd|]. intros. now apply H. Qed.
Lemma cont2_cons k d f : cont2 k (S d) f -> cont2 (S k) d (fun p u => f (tl p) (hd 0 p :: u)).
Proof.
  intros C r e Hr He. destruct (C r e Hr He) as [dl [Hd H]]. exists dl. split; [exact Hd|]. intros p q u v Hp Hu Hpq Huv. destruct Hpq as [|a b p q Hab Hpq]; [discriminate|]. cbn. apply H; [now injection Hp|cbn; now rewrite Hu|exact Hpq|now constructor].
Qed.
Lemma cont_cons d f : cont (S d) f -> cont2 1 d (fun p u => f (hd 0 p :: u)).
Proof. intro C. exact (cont2_cons 0 d (fun _ => f) (cont2_0 _ _ C)). Qed.
Lemma cont_tail d f t : cont (S d) f -> cont d (fun v => f (t :: v)).
Proof. intro C. exact (cont2_slice 1 d _ [t] (cont_cons d f C) eq_refl). Qed.
Lemma box_bound A : exists r, 0 < r /\ forall v, inside A v -> Forall (fun a => Rabs a <= r) v.
Proof.
  induction A as [|[a b] A [r [H1 H2]]]; [exists 1; split; [lra|]; intros v Hv; inversion Hv; constructor|]. assert (Pa := Rabs_pos a). assert (Pb := Rabs_pos b). exists (r + Rabs a + Rabs b). split; [lra|].
  intros v Hv. inversion Hv as [|? t ? v' Ht Hv']; subst. constructor; [cbn in Ht; unfold Rabs in *; destruct (Rcase_abs a), (Rcase_abs b), (Rcase_abs t); lra|]. eapply Forall_impl; [|apply H2; exact Hv']. cbn; intros; lra.
Qed.
Lemma F2_length {X Y} (P : X -> Y -> Prop) u v : Forall2 P u v -> length u = length v.
Proof. induction 1; cbn; congruence. Qed.
Lemma inside_length A v : inside A v -> length v = length A.
Proof. intro H. symmetry. now apply F2_length in H. Qed.
(** box integrals of continuous functions are continuous in parameters *)
Lemma param_cont k f A : cont2 k (length A) f -> (forall p, length p = k -> good A (f p)) -> cont k (fun p => box_int A (f p)).
Proof.
  intros C G r e Hr He. destruct (box_bound A) as [s [Hs Bs]]. set (V := 1 + Rabs (vol A)). assert (PV : 0 < V) by (unfold V; assert (P := Rabs_pos (vol A)); lra).
  destruct (C (r + s) (e / V) ltac:(lra) ltac:(apply Rdiv_lt_0_compat; lra)) as [dl [Hd H]]. exists dl. split; [exact Hd|]. intros p q Hp Hpq. assert (Hq : length q = k) by (rewrite <- Hp; symmetry; now apply F2_length in Hpq).
  eapply Rle_lt_trans; [apply (box_dist A _ _ (e / V)); [now apply G|now apply G|]|].
  - intros v Hv. left. apply H; [exact Hp|now apply inside_length| |].
    + apply (close2_mono r dl); [lra|lra|exact Hpq].
    + apply close_refl; [exact Hd|]. eapply Forall_impl; [|apply Bs; exact Hv]. cbn; intros; lra.
  - apply (Rle_lt_trans _ (e / V * (V - 1))).
    + apply Rmult_le_compat_l; [left; apply Rdiv_lt_0_compat; lra|]. unfold V. assert (P := Rle_abs (vol A)). lra.
    + replace (e / V * (V - 1)) with (e - e / V) by (field; lra). assert (0 < e / V) by (apply Rdiv_lt_0_compat; lra). lra.
Qed.
Lemma cont1_continuous (f : list R -> R) t : cont 1 f -> continuous (fun t => f [t]) t.
Proof.
  intros C. apply (filterlim_locally (U := R_UniformSpace)). intros [e He]. assert (P := Rabs_pos t). destruct (C (Rabs t + 1) e ltac:(lra) He) as [dl [Hd H]].
  assert (Hm : 0 < Rmin dl 1) by (apply Rmin_glb_lt; lra). exists (mkposreal _ Hm). intros s Hs. change (Rabs (s - t) < Rmin dl 1) in Hs. change (Rabs (f [s] - f [t]) < e). assert (M1 := Rmin_l dl 1). assert (M2 := Rmin_r dl 1).
  apply H; [reflexivity|]. constructor; [|constructor]. repeat split; try lra. assert (T := tri s t). lra.
Qed.
Lemma good_cont A : forall f, sides A -> cont (length A) f -> good A f.
Proof.
  induction A as [|[a b] A IH]; intros f S C; [exact I|]. inversion S as [|? ? S1 S2]; subst. split; [exact S1|]. split.
  - intro t. apply IH; [exact S2|]. now apply cont_tail.
  - intro t. apply (cont1_continuous (fun p => box_int A (fun v => f (hd 0 p :: v)))). apply (param_cont 1 (fun p v => f (hd 0 p :: v))); [now apply cont_cons|]. intros p _. apply IH; [exact S2|]. now apply cont_tail.
Qed.
Lemma int_cont k f A : sides A -> cont2 k (length A) f -> cont k (fun p => box_int A (f p)).
Proof. intros S C. apply param_cont; [exact C|]. intros p Hp. apply good_cont; [exact S|]. now apply (cont2_slice k). Qed.
(** ---- exchange of the order of integration ---- *)
Lemma cont2_2d (f : list R -> list R -> R) x y : cont2 1 1 f -> continuity_2d_pt (fun u v => f [u] [v]) x y.
Proof.
  intros C [e He]. assert (P := Rabs_pos x). assert (Q := Rabs_pos y). destruct (C (Rabs x + Rabs y + 1) e ltac:(lra) He) as [dl [Hd H]].
  assert (Hm : 0 < Rmin dl 1) by (apply Rmin_glb_lt; lra). exists (mkposreal _ Hm). intros u v Hu Hv. cbn in Hu, Hv. cbn. assert (M1 := Rmin_l dl 1). assert (M2 := Rmin_r dl 1).
  apply H; [reflexivity|reflexivity| |].
  - constructor; [|constructor]. repeat split; try lra. assert (T := tri u x). lra.
  - constructor; [|constructor]. repeat split; try lra. assert (T := tri v y). lra.
Qed.

Lemma inner_ex (f : list R -> list R -> R) a y t : cont2 1 1 f -> ex_RInt (fun s => f [s] [t]) a y.
Proof. intros C. apply cts_ex. intro s. apply (cont1_continuous (fun p => f p [t])). apply (cont2_slice 1 1 (fun u p => f p u)); [|reflexivity]. now apply cont2_swap. Qed.
Lemma inner_cts (f : list R -> list R -> R) a y t : cont2 1 1 f -> continuous (fun t => RInt (fun s => f [s] [t]) a y) t.
Proof.
  intros C. assert (K : forall a b t, a <= b -> continuous (fun t => RInt (fun s => f [s] [t]) a b) t).
  { intros a0 b0 t0 L. apply (cont1_continuous (fun p => box_int [(a0, b0)] (fun v => f v p))). apply (int_cont 1 (fun p v => f v p)); [constructor; [exact L|constructor]|]. now apply (cont2_swap 1 1). }
  destruct (Rle_dec a y) as [L|L]; [now apply K|]. apply (continuous_ext (fun t => opp (RInt (fun s => f [s] [t]) y a))).
  - intro t0. apply (opp_RInt_swap (V := R_CompleteNormedModule)). now apply inner_ex.
  - apply (continuous_opp (V := R_NormedModule)). apply K. lra.
Qed.
Lemma inner_derive (f : list R -> list R -> R) a u t : cont2 1 1 f -> is_derive (fun u => RInt (fun s => f [s] [t]) a u) u (f [u] [t]).
Proof.
  intro C. apply (is_derive_RInt (V := R_CompleteNormedModule) (fun s => f [s] [t]) _ a).
  - exists (mkposreal 1 Rlt_0_1). intros y _. apply (RInt_correct (V := R_CompleteNormedModule)). now apply inner_ex.
  - apply (cont1_continuous (fun p => f p [t])). apply (cont2_slice 1 1 (fun u p => f p u)); [|reflexivity]. now apply (cont2_swap 1 1).
Qed.
Lemma swap11 (f : list R -> list R -> R) a b c e : cont2 1 1 f -> a <= b -> RInt (fun s => RInt (fun t => f [s] [t]) c e) a b = RInt (fun t => RInt (fun s => f [s] [t]) a b) c e.
Proof.
  intros C L. destruct (Req_dec a b) as [-> |N].
  { rewrite rint_point. rewrite (RInt_ext _ (fun _ => 0)) by (intros t _; apply rint_point). rewrite RInt_const. sc. ring. }
  assert (Cs : cont2 1 1 (fun u p => f p u)) by now apply (cont2_swap 1 1).
  set (H := fun x => minus (RInt (fun s => RInt (fun t => f [s] [t]) c e) a x) (RInt (fun t => RInt (fun s => f [s] [t]) a x) c e)).
  assert (E : H a = H b).
  { apply (eq_is_derive (V := R_NormedModule)); [|lra]. intros x _. replace (@zero R_NormedModule) with (minus (RInt (fun t => f [x] [t]) c e) (RInt (fun t => Derive (fun u => RInt (fun s => f [s] [t]) a u) x) c e)).
    2:{ rewrite (RInt_ext (fun t => Derive _ x) (fun t => f [x] [t])); [sc; ring|]. intros t _. apply is_derive_unique. now apply inner_derive. }
    apply (is_derive_minus (V := R_NormedModule)).
    - apply (is_derive_RInt (V := R_CompleteNormedModule) (fun s => RInt (fun t => f [s] [t]) c e) _ a).
      + exists (mkposreal 1 Rlt_0_1). intros y _. apply (RInt_correct (V := R_CompleteNormedModule)). apply cts_ex. intro s. now apply (inner_cts (fun u p => f p u)).
      + now apply (inner_cts (fun u p => f p u)).
    - assert (D := fun u t => inner_derive f a u t C).
      apply is_derive_RInt_param.
      + exists (mkposreal 1 Rlt_0_1). intros y _ t _. eexists. apply D.
      + intros t _. apply (continuity_2d_pt_ext (fun u v => f [u] [v])); [|now apply cont2_2d]. intros u v. symmetry. apply is_derive_unique. apply D.
      + exists (mkposreal 1 Rlt_0_1). intros y _. apply cts_ex. intro t. now apply inner_cts. }
  unfold H in E. rewrite rint_point in E. rewrite (RInt_ext (fun t => RInt (fun s => f [s] [t]) a a) (fun _ => 0)) in E by (intros t _; apply rint_point). rewrite RInt_const in E. revert E. sc. intro E. lra.
Qed.
(** a coordinate moved out of a box integral *)
Lemma cont2_pick k d f : cont2 k d f -> forall j, cont2 (j + k) d (fun p u => f (skipn j p) u).
Proof.
  intros C j r e Hr He. destruct (C r e Hr He) as [dl [Hd H]]. exists dl. split; [exact Hd|]. intros p q u v Hp Hu Hpq Huv. apply H; try assumption.
  - rewrite skipn_length. lia.
  - clear -Hpq. revert j. induction Hpq; intros [|j]; cbn; auto.
Qed.
Lemma swap1 A : forall (f : list R -> list R -> R) a b, sides A -> a <= b -> cont2 1 (length A) f ->
  box_int A (fun x => RInt (fun t => f [t] x) a b) = RInt (fun t => box_int A (f [t])) a b.
Proof.
  induction A as [|[c e] A IH]; intros f a b S L C; [reflexivity|]. inversion S as [|? ? S1 S2]; subst. cbn [box_int]. cbn in S1.
  assert (C' : cont2 2 (length A) (fun p u => f (tl p) (hd 0 p :: u))) by now apply (cont2_cons 1).
  assert (C2 : cont2 1 1 (fun p q => box_int A (fun v => f q (hd 0 p :: v)))).
  { assert (C3 := int_cont 2 _ A S2 C'). intros r e0 Hr He. destruct (C3 r e0 Hr He) as [dl [Hd H]]. exists dl. split; [exact Hd|]. intros p q u v Hp Hu Hpq Huv.
    destruct Hpq as [|x y p q Hxy Hpq]; [discriminate|]. destruct Hpq; [|discriminate]. apply (H (x :: u) (y :: v)); [cbn; now rewrite Hu|now constructor]. }
  transitivity (RInt (fun s => RInt (fun t => box_int A (fun v => f [t] (s :: v))) a b) c e).
  - apply RInt_ext. intros s _. apply (IH (fun p v => f p (s :: v))); [exact S2|exact L|]. intros r e0 Hr He. assert (P := Rabs_pos s). destruct (C (r + Rabs s) e0 ltac:(lra) He) as [dl [Hd H]]. exists dl. split; [exact Hd|]. intros p q u v Hp Hu Hpq Huv. apply H; [exact Hp|cbn; now rewrite Hu| |].
    + apply (close2_mono r dl); [lra|lra|exact Hpq].
    + constructor; [|apply (close2_mono r dl); [lra|lra|exact Huv]]. repeat split; try lra. unfold Rminus. rewrite Rplus_opp_r, Rabs_R0. exact Hd.
  - exact (swap11 (fun p q => box_int A (fun v => f q (hd 0 p :: v))) c e a b C2 S1).
Qed.
Lemma cont2_tail k d f t : cont2 k (S d) f -> cont2 k d (fun p u => f p (t :: u)).
Proof.
  intros C r e Hr He. assert (P := Rabs_pos t). destruct (C (r + Rabs t) e ltac:(lra) He) as [dl [Hd H]]. exists dl. split; [exact Hd|]. intros p q u v Hp Hu Hpq Huv. apply H; [exact Hp|cbn; now rewrite Hu| |].
  - apply (close2_mono r dl); [lra|lra|exact Hpq].
  - constructor; [|apply (close2_mono r dl); [lra|lra|exact Huv]]. repeat split; try lra. unfold Rminus. rewrite Rplus_opp_r, Rabs_R0. exact Hd.
Qed.
Theorem fubini A B : forall (f : list R -> list R -> R), sides A -> sides B -> cont2 (length A) (length B) f ->
  box_int A (fun x => box_int B (f x)) = box_int B (fun z => box_int A (fun x => f x z)).
Proof.
  revert A. induction B as [|[a b] B IH]; intros A f SA SB C; [reflexivity|]. inversion SB as [|? ? S1 S2]; subst. cbn [box_int]. cbn in S1.
  transitivity (RInt (fun t => box_int A (fun x => box_int B (fun v => f x (t :: v)))) a b).
  - apply (swap1 A (fun p x => box_int B (fun v => f x (hd 0 p :: v)))); [exact SA|exact S1|]. assert (C3 := int_cont (Datatypes.S (length A)) _ B S2 (cont2_cons (length A) (length B) f C)). intros r e0 Hr He. destruct (C3 r e0 Hr He) as [dl [Hd H]]. exists dl. split; [exact Hd|]. intros p q u v Hp Hu Hpq Huv.
    destruct Hpq as [|x y p q Hxy Hpq]; [discriminate|]. apply (H (x :: u) (y :: v)); [cbn; now rewrite Hu|now constructor].
  - apply RInt_ext. intros t _. apply IH; [exact SA|exact S2|]. now apply cont2_tail.
Qed.
(** ---- translation and nested boxes ---- *)
Fixpoint shift (c : list R) (A : list (R * R)) : list (R * R) := match c, A with x :: c', (a, b) :: A' => (a + x, b + x) :: shift c' A' | _, _ => [] end.
Fixpoint vadd (x c : list R) : list R := match x, c with a :: x', t :: c' => (a + t) :: vadd x' c' | _, _ => [] end.
Lemma box_shift c : forall A f, length A = length c -> sides A -> cont (length c) f -> box_int A (fun x => f (vadd x c)) = box_int (shift c A) f.
Proof.
  induction c as [|x c IH]; intros [|[a b] A] f HL S C; try discriminate; [reflexivity|]. cbn in HL. injection HL as HL. inversion S as [|? ? S1 S2]; subst. cbn [box_int shift vadd].
  set (g := fun t => box_int (shift c A) (fun v => f (t :: v))). transitivity (RInt (fun t => scal 1 (g (1 * t + x))) a b).
  - apply RInt_ext. intros t _. unfold g. rewrite Rmult_1_l. sc. rewrite Rmult_1_l. rewrite (IH A (fun v => f (t + x :: v))); [reflexivity|exact HL|exact S2|now apply cont_tail].
  - replace (a + x) with (1 * a + x) by ring. replace (b + x) with (1 * b + x) by ring. apply (RInt_comp_lin (V := R_CompleteNormedModule) g 1 x a b). apply cts_ex. intro t. assert (SS : sides (shift c A) /\ length (shift c A) = length c).
    { clear -HL S2. revert A HL S2. induction c as [|y c IH]; intros [|[p q] A] HL S; try discriminate; [split; [constructor|reflexivity]|]. injection HL as HL. inversion S as [|? ? S1 S2]; subst. destruct (IH A HL S2) as [I1 I2]. cbn in *. split; [constructor; [cbn; lra|exact I1]|now rewrite I2]. }
    destruct SS as [SS SL]. assert (G : good ((0, 0) :: shift c A) f) by (apply good_cont; [constructor; [cbn; lra|exact SS]|cbn; now rewrite SL]). apply G.
Qed.
Definition within (A B : list (R * R)) : Prop := Forall2 (fun ab cd => fst cd <= fst ab /\ snd ab <= snd cd) A B.
Lemma nested A B : within A B -> forall f F, sides A -> cont (length A) f -> cont (length A) F -> (forall v, length v = length A -> Rabs (f v) <= F v) ->
  Rabs (box_int B f - box_int A f) <= box_int B F - box_int A F.
Proof.
  intro W. induction W as [|[a b] [c e] A B H W IH]; intros f F SA Cf CF HF.
  - cbn. unfold Rminus. rewrite !Rplus_opp_r, Rabs_R0. lra.
  - inversion SA as [|? ? S1 S2]; subst. cbn in S1, H. destruct H as [H1 H2]. assert (SB : sides B) by (clear -W S2; induction W as [|x y A B H W IH]; [constructor|]; inversion S2; subst; constructor; [destruct H; lra|now apply IH]).
    assert (EL : length B = length A) by (symmetry; now apply F2_length in W). cbn [length] in *.
    assert (cA : forall g, cont (S (length A)) g -> forall t, continuous (fun t => box_int A (fun v => g (t :: v))) t) by (intros g Cg; apply (good_cont ((a, b) :: A) g); [now constructor|exact Cg]).
    assert (cB : forall g, cont (S (length A)) g -> forall t, continuous (fun t => box_int B (fun v => g (t :: v))) t) by (intros g Cg; apply (good_cont ((a, b) :: B) g); [now constructor|cbn; now rewrite EL]).
    assert (gB : forall g t, cont (S (length A)) g -> good B (fun v => g (t :: v))) by (intros g t Cg; apply good_cont; [exact SB|rewrite EL; now apply cont_tail]).
    cbn [box_int]. set (fA := fun t => box_int A (fun v => f (t :: v))). set (fB := fun t => box_int B (fun v => f (t :: v))). set (FA := fun t => box_int A (fun v => F (t :: v))). set (FB := fun t => box_int B (fun v => F (t :: v))).
    assert (D : forall t, Rabs (fB t - fA t) <= FB t - FA t) by (intro t; apply IH; [exact S2|now apply cont_tail|now apply cont_tail|]; intros v Hv; apply HF; cbn; now rewrite Hv).
    assert (Bd : forall t, Rabs (fB t) <= FB t).
    { intro t. apply Rabs_le. split.
      - replace (- FB t) with (-1 * FB t) by ring. unfold FB, fB. rewrite <- (proj2 (good_scal (-1) B (fun v => F (t :: v)) (gB F t CF))). apply box_le; [now apply good_scal, gB|now apply gB|]. intros v Hv. assert (K := HF (t :: v) ltac:(cbn; apply inside_length in Hv; lia)). apply Rabs_le_between in K. lra.
      - apply box_le; [now apply gB|now apply gB|]. intros v Hv. assert (K := HF (t :: v) ltac:(cbn; apply inside_length in Hv; lia)). apply Rabs_le_between in K. lra. }
    assert (X : forall g, (forall t, continuous g t) -> RInt g c e = RInt g c a + RInt g a b + RInt g b e).
    { intros g Cg. rewrite <- (RInt_Chasles (V := R_CompleteNormedModule) g c b e) by now apply cts_ex. rewrite <- (RInt_Chasles (V := R_CompleteNormedModule) g c a b) by now apply cts_ex. sc. ring. }
    assert (Ai : forall g G p q, (forall t, continuous g t) -> (forall t, continuous G t) -> (forall t, Rabs (g t) <= G t) -> p <= q -> Rabs (RInt g p q) <= RInt G p q).
    { intros g G p q Cg CG HG L. eapply Rle_trans; [apply abs_RInt_le; [exact L|now apply cts_ex]|]. apply RInt_le; [exact L| |now apply cts_ex|intros t _; apply HG]. apply cts_ex. intro t. apply (continuous_comp g Rabs); [apply Cg|]. apply continuity_pt_filterlim. apply Rcontinuity_abs. }
    assert (M : forall (g k : R -> R), (forall t, continuous g t) -> (forall t, continuous k t) -> RInt g a b - RInt k a b = RInt (fun t => g t - k t) a b /\ forall t, continuous (fun t => g t - k t) t).
    { intros g k Cg Ck. split; [symmetry; apply (RInt_minus (V := R_CompleteNormedModule)); now apply cts_ex|]. intro t. now apply (continuous_minus (V := R_NormedModule)). }
    assert (CfA := cA f Cf). assert (CfB := cB f Cf). assert (CFA := cA F CF). assert (CFB := cB F CF). fold fA in CfA. fold fB in CfB. fold FA in CFA. fold FB in CFB.
    rewrite (X fB CfB), (X FB CFB). destruct (M fB fA CfB CfA) as [M1 M2]. destruct (M FB FA CFB CFA) as [M3 M4].
    assert (I1 := Ai fB FB c a CfB CFB Bd H1). assert (I2 := Ai fB FB b e CfB CFB Bd H2). assert (I3 : Rabs (RInt fB a b - RInt fA a b) <= RInt FB a b - RInt FA a b) by (rewrite M1, M3; exact (Ai _ _ a b M2 M4 D S1)).
    replace (RInt fB c a + RInt fB a b + RInt fB b e - RInt fA a b) with (RInt fB c a + (RInt fB a b - RInt fA a b) + RInt fB b e) by ring.
    eapply Rle_trans; [apply Rabs_triang|]. eapply Rle_trans; [apply Rplus_le_compat_r, Rabs_triang|]. lra.
Qed.
