(** The chance that one of several normal draws with given leads is the largest, as an integral over that draw. *)
From Coquelicot Require Import Coquelicot.
From Coq Require Import Reals Lra Lia List Bool.
From Verif Require Import M_Base M_RBase M_Normal M_Util M_Select M_User M_Tune S_Util S_User S_Tune P_RBase P_Normal P_Util P_User P_Tune P_Tune2 P_Tune3 P_Tune4.
Import ListNotations.
Local Open Scope R_scope.

Definition unit_cont (F : R -> R) : Prop := (forall x, continuous F x) /\ forall x, 0 <= F x <= 1.
(** [A t] is the integral of the bell times [F] above [t], [l] that over the whole line *)
Definition tail_of (F A : R -> R) (l : R) : Prop :=
  (forall t, is_derive A t (- (npdf t * F t))) /\ (forall t, 0 <= A t <= 1 - ndtr t) /\ (forall t, 0 <= l - A t <= ndtr t).

Lemma bell_cont F : unit_cont F -> forall x, continuous (fun z => npdf z * F z) x.
Proof. intros [C _] x. apply (continuous_mult npdf F); [apply continuity_pt_filterlim, npdf_continuous|apply C]. Qed.
Lemma bell_ex F a b : unit_cont F -> ex_RInt (fun z => npdf z * F z) a b.
Proof. intro U. apply (ex_RInt_continuous (V := R_CompleteNormedModule)). intros x _. now apply bell_cont. Qed.
Lemma bell_bounds F a b : unit_cont F -> a <= b -> 0 <= RInt (fun z => npdf z * F z) a b <= ndtr b - ndtr a.
Proof.
  intros U L. assert (P : forall x, 0 <= npdf x) by (intro; apply Rlt_le, npdf_pos). split.
  - apply RInt_ge_0; [exact L|now apply bell_ex|]. intros x _. apply Rmult_le_pos; [apply P|apply U].
  - rewrite <- (is_RInt_unique (V := R_CompleteNormedModule) npdf a b _ (npdf_int a b)). apply RInt_le; [exact L|now apply bell_ex|eexists; apply npdf_int|]. intros x _. assert (B := proj2 U x). specialize (P x). nra.
Qed.
Lemma tail_exists F : unit_cont F -> exists A l, tail_of F A l.
Proof.
  intro U. set (J := fun x => RInt (fun z => npdf z * F z) 0 x).
  assert (D : forall x y, x <= y -> 0 <= J y - J x <= ndtr y - ndtr x).
  { intros x y L. assert (B := bell_bounds F x y U L). assert (Ch := RInt_Chasles (V := R_CompleteNormedModule) (fun z => npdf z * F z) 0 x y (bell_ex F 0 x U) (bell_ex F x y U)). change (J x + RInt (fun z => npdf z * F z) x y = J y) in Ch. lra. }
  assert (UB : forall x y, J y <= J x + (1 - ndtr x)).
  { intros x y. destruct (Rle_lt_dec x y) as [L|L]; [destruct (D x y L); assert (R1 := ndtr_range y); lra|destruct (D y x ltac:(lra)); assert (R1 := ndtr_range x); lra]. }
  assert (LB : forall x y, J x - ndtr x <= J y).
  { intros x y. destruct (Rle_lt_dec x y) as [L|L]; [destruct (D x y L); assert (R1 := ndtr_range x); lra|destruct (D y x ltac:(lra)); assert (R1 := ndtr_range y); lra]. }
  destruct (completeness (fun v => exists x, v = J x)) as [S [SU SL]]; [exists (J 0 + (1 - ndtr 0)); intros v [x ->]; apply UB|exists (J 0), 0; reflexivity|].
  destruct (completeness (fun v => exists x, v = - J x)) as [N [NU NL]]; [exists (- (J 0 - ndtr 0)); intros v [x ->]; assert (K := LB 0 x); lra|exists (- J 0), 0; reflexivity|].
  exists (fun t => S - J t), (S + N). split; [|split].
  - intro t. assert (K : is_derive J t (npdf t * F t)).
    { apply (is_derive_RInt (fun z => npdf z * F z) J 0 t); [|now apply bell_cont]. exists (mkposreal 1 Rlt_0_1). intros y _. apply (RInt_correct (V := R_CompleteNormedModule)). now apply bell_ex. }
    replace (- (npdf t * F t)) with (minus 0 (npdf t * F t)) by (unfold minus, plus, opp; cbn; ring). apply (is_derive_minus (fun _ => S) J t 0 (npdf t * F t)); [apply (is_derive_const S)|exact K].
  - intro t. split; [assert (K := SU (J t) (ex_intro _ t eq_refl)); lra|]. assert (S <= J t + (1 - ndtr t)); [|lra]. apply SL. intros v [x ->]. apply UB.
  - intro t. split; [assert (K := NU (- J t) (ex_intro _ t eq_refl)); lra|]. assert (N <= - (J t - ndtr t)); [|lra]. apply NL. intros v [x ->]. assert (K := LB t x). lra.
Qed.
Lemma tail_int F A l a b : unit_cont F -> tail_of F A l -> is_RInt (fun z => npdf z * F z) a b (A a - A b).
Proof.
  intros U [D _]. assert (K : is_RInt (fun z => npdf z * F z) a b (minus (- A b) (- A a))).
  { apply (is_RInt_derive (fun z => - A z) (fun z => npdf z * F z)).
    - intros x _. assert (Q := is_derive_opp A x _ (D x)). replace (npdf x * F x) with (opp (- (npdf x * F x))) by (unfold opp; cbn; ring). exact Q.
    - intros x _. now apply bell_cont. }
  replace (A a - A b) with (minus (- A b) (- A a)) by (unfold minus, plus, opp; cbn; ring). exact K.
Qed.
Lemma tail_total F A l : unit_cont F -> tail_of F A l -> is_RInt_gen (fun z => npdf z * F z) (Rbar_locally m_infty) (Rbar_locally p_infty) l.
Proof.
  intros U T. apply whole_line. intro e. destruct (ndtr_ends (pos_div_2 e)) as [N [P0 HN]]. exists N. intros u v Hu Hv. exists (A u - A v). split; [eapply tail_int; eauto|].
  destruct T as [_ [T1 T2]]. destruct (HN v Hv) as [X _]. destruct (HN (- u) ltac:(lra)) as [_ Y]. rewrite Ropp_involutive in Y. cbn in X, Y. specialize (T1 v). specialize (T2 u). apply Rabs_def1; lra.
Qed.
Lemma tail_unique F A l m : unit_cont F -> tail_of F A l -> is_RInt_gen (fun z => npdf z * F z) (Rbar_locally m_infty) (Rbar_locally p_infty) m -> m = l.
Proof.
  intros U T H. assert (K := tail_total F A l U T). transitivity (RInt_gen (fun z => npdf z * F z) (Rbar_locally m_infty) (Rbar_locally p_infty)); [symmetry|]; now apply is_RInt_gen_unique.
Qed.
(** a draw that has to be above [t] *)
Lemma tail_above F A l t : unit_cont F -> tail_of F A l -> is_RInt_gen (fun z => npdf z * (ind (Rltb t z) * F z)) (Rbar_locally m_infty) (Rbar_locally p_infty) (A t).
Proof.
  intros U T. apply whole_line. intro e. destruct (ndtr_ends e) as [N [P0 HN]]. exists (Rmax N (Rabs t)). intros u v Hu Hv.
  assert (L1 := Rmax_l N (Rabs t)). assert (L2 := Rmax_r N (Rabs t)). assert (T1 := Rle_abs t). assert (T2 := Rle_abs (- t)). rewrite Rabs_Ropp in T2.
  exists (A t - A v). split.
  - replace (A t - A v) with (plus 0 (A t - A v)) by (unfold plus; cbn; ring). apply (is_RInt_Chasles (V := R_NormedModule) _ u t v).
    + apply (is_RInt_ext (fun _ => 0)); [|replace 0 with (scal (t - u) 0) at 1 by (unfold scal; cbn; unfold mult; cbn; ring); apply (is_RInt_const (V := R_NormedModule))]. intros x Hx. rewrite Rmin_left, Rmax_right in Hx by lra. rewrite (proj2 (Rltb_false t x)) by lra. cbn. ring.
    + apply (is_RInt_ext (fun z => npdf z * F z)); [|eapply tail_int; eauto]. intros x Hx. rewrite Rmin_left, Rmax_right in Hx by lra. rewrite (proj2 (Rltb_true t x)) by lra. cbn. ring.
  - destruct T as [_ [B _]]. destruct (HN v ltac:(lra)) as [X _]. specialize (B v). apply Rabs_def1; lra.
Qed.
(** integration by parts: a draw [z], another one that has to be above [z - c] *)
Lemma tail_parts F A l B m c a b : unit_cont F -> tail_of F A l -> tail_of (fun x => ndtr (x + c) * F x) B m ->
  is_RInt (fun z => npdf z * A (z - c)) a b ((ndtr b * A (b - c) - B (b - c)) - (ndtr a * A (a - c) - B (a - c))).
Proof.
  intros U [DA _] [DB _]. assert (Sh : forall (G : R -> R) g x, (forall t, is_derive G t (g t)) -> is_derive (fun z => G (z - c)) x (g (x - c))).
  { intros G g x H. assert (Q := is_derive_comp G (fun z => z - c) x (g (x - c)) 1 (H (x - c))). replace (g (x - c)) with (scal 1 (g (x - c))) by (unfold scal; cbn; unfold mult; cbn; ring). apply Q. auto_derive; [exact I|ring]. }
  apply (is_RInt_derive (fun z => ndtr z * A (z - c) - B (z - c)) (fun z => npdf z * A (z - c))).
  - intros x _. assert (D1 := is_derive_mult ndtr (fun z => A (z - c)) x _ _ (ndtr_derive x) (Sh A (fun t => - (npdf t * F t)) x DA) Rmult_comm). assert (D2 := Sh B (fun t => - (npdf t * (ndtr (t + c) * F t))) x DB). assert (D3 := is_derive_minus _ _ x _ _ D1 D2).
    replace (npdf x * A (x - c)) with (minus (plus (mult (npdf x) (A (x - c))) (mult (ndtr x) (- (npdf (x - c) * F (x - c))))) (- (npdf (x - c) * (ndtr (x - c + c) * F (x - c))))); [exact D3|].
    replace (x - c + c) with x by ring. unfold minus, plus, mult, opp; cbn. ring.
  - intros x _. apply (continuous_mult npdf (fun z => A (z - c))); [apply continuity_pt_filterlim, npdf_continuous|]. apply (ex_derive_continuous (fun z => A (z - c))). eexists. apply (Sh A (fun t => - (npdf t * F t)) x DA).
Qed.
Lemma far (u c N : R) : u < - (N + Rabs c) -> u < - N /\ u - c < - N.
Proof. intro. assert (Rle_abs' := Rle_abs (- c)). rewrite Rabs_Ropp in Rle_abs'. assert (P := Rabs_pos c). lra. Qed.
Lemma tail_first F A l B m c : unit_cont F -> tail_of F A l -> tail_of (fun x => ndtr (x + c) * F x) B m ->
  is_RInt_gen (fun z => npdf z * A (z - c)) (Rbar_locally m_infty) (Rbar_locally p_infty) m.
Proof.
  intros U TA TB. apply whole_line. intro e. destruct (ndtr_ends (mkposreal (e / 4) ltac:(assert (Q := cond_pos e); lra))) as [N [P0 HN]]. cbn in HN. exists (N + Rabs c). intros u v Hu Hv.
  eexists. split; [exact (tail_parts F A l B m c u v U TA TB)|]. destruct TA as [_ [A1 A2]]. destruct TB as [_ [B1 B2]].
  destruct (far u c N Hu) as [U1 U2]. destruct (far (- v) (- c) N ltac:(rewrite Rabs_Ropp; lra)) as [V1 V2].
  destruct (HN v ltac:(lra)) as [X _]. destruct (HN (v - c) ltac:(lra)) as [X' _]. destruct (HN (- u) ltac:(lra)) as [_ Y]. destruct (HN (- (u - c)) ltac:(lra)) as [_ Y']. rewrite Ropp_involutive in Y, Y'.
  assert (R1 := ndtr_range v). assert (R2 := ndtr_range u). assert (a1 := A1 (v - c)). assert (a2 := A1 (u - c)). assert (a3 := B1 (v - c)). assert (a4 := B2 (u - c)). assert (R3 := ndtr_range (u - c)).
  assert (0 <= ndtr v * A (v - c) <= A (v - c)) by nra. assert (0 <= ndtr u * A (u - c) <= ndtr u) by nra. apply Rabs_def1; lra.
Qed.
Lemma tail_max F A l B m c t : unit_cont F -> tail_of F A l -> tail_of (fun x => ndtr (x + c) * F x) B m ->
  is_RInt_gen (fun z => npdf z * A (Rmax t (z - c))) (Rbar_locally m_infty) (Rbar_locally p_infty) (B t).
Proof.
  intros U TA TB. apply whole_line. intro e. destruct (ndtr_ends (mkposreal (e / 4) ltac:(assert (Q := cond_pos e); lra))) as [N [P0 HN]]. cbn in HN. exists (N + Rabs c + Rabs (t + c)). intros u v Hu Hv.
  assert (T1 := Rle_abs (t + c)). assert (T2 := Rle_abs (- (t + c))). rewrite Rabs_Ropp in T2. assert (Pc := Rabs_pos c).
  exists (plus (A t * (ndtr (t + c) - ndtr u)) ((ndtr v * A (v - c) - B (v - c)) - (ndtr (t + c) * A (t + c - c) - B (t + c - c)))). split.
  - apply (is_RInt_Chasles (V := R_NormedModule) _ u (t + c) v).
    + apply (is_RInt_ext (fun z => scal (A t) (npdf z))); [|apply (is_RInt_scal (V := R_NormedModule) npdf), npdf_int]. intros x Hx. rewrite Rmin_left, Rmax_right in Hx by lra. rewrite Rmax_left by lra. cbn. unfold mult; cbn. ring.
    + apply (is_RInt_ext (fun z => npdf z * A (z - c))); [|exact (tail_parts F A l B m c (t + c) v U TA TB)]. intros x Hx. rewrite Rmin_left, Rmax_right in Hx by lra. now rewrite (Rmax_right t) by lra.
  - replace (t + c - c) with t by ring. destruct TA as [_ [A1 A2]]. destruct TB as [_ [B1 B2]]. assert (Pt := Rabs_pos (t + c)).
    destruct (far (- v) (- c) N ltac:(rewrite Rabs_Ropp; lra)) as [V1 V2].
    destruct (HN v ltac:(lra)) as [X _]. destruct (HN (v - c) ltac:(lra)) as [X' _]. destruct (HN (- u) ltac:(lra)) as [_ Y]. rewrite Ropp_involutive in Y.
    assert (R1 := ndtr_range v). assert (R2 := ndtr_range u). assert (a1 := A1 (v - c)). assert (a2 := A1 t). assert (a3 := B1 (v - c)). assert (R3 := ndtr_range t).
    assert (0 <= ndtr v * A (v - c) <= A (v - c)) by nra. assert (0 <= A t * ndtr u <= ndtr u) by nra. unfold plus; cbn. apply Rabs_def1; lra.
Qed.
(** comparison of the totals *)
Lemma tail_le F A l G B m : tail_of F A l -> tail_of G B m -> unit_cont F -> unit_cont G -> (forall x, F x <= G x) -> l <= m.
Proof.
  intros TA TB UF UG H. destruct (Rle_lt_dec l m) as [|L]; auto. exfalso. destruct (ndtr_ends (mkposreal ((l - m) / 2) ltac:(lra))) as [N [P0 HN]]. cbn in HN. set (x := N + 1). destruct (HN x ltac:(unfold x; lra)) as [X Y].
  assert (LE : A (- x) - A x <= B (- x) - B x).
  { rewrite <- (is_RInt_unique (V := R_CompleteNormedModule) _ _ _ _ (tail_int F A l (- x) x UF TA)), <- (is_RInt_unique (V := R_CompleteNormedModule) _ _ _ _ (tail_int G B m (- x) x UG TB)).
    apply RInt_le; [unfold x; lra|now apply bell_ex|now apply bell_ex|]. intros z _. apply Rmult_le_compat_l; [apply Rlt_le, npdf_pos|apply H]. }
  destruct TA as [_ [A1 A2]]. destruct TB as [_ [B1 B2]]. specialize (A1 x). specialize (A2 (- x)). specialize (B1 x). specialize (B2 (- x)). lra.
Qed.
Lemma tail_lt F A l G B m : tail_of F A l -> tail_of G B m -> unit_cont F -> unit_cont G -> (forall x, F x < G x) -> l < m.
Proof.
  intros TA TB UF UG H.
  assert (GT : A 0 - A 1 < B 0 - B 1).
  { rewrite <- (is_RInt_unique (V := R_CompleteNormedModule) _ _ _ _ (tail_int F A l 0 1 UF TA)), <- (is_RInt_unique (V := R_CompleteNormedModule) _ _ _ _ (tail_int G B m 0 1 UG TB)).
    apply RInt_lt; [lra|intros; now apply bell_cont|intros; now apply bell_cont|]. intros z _. apply Rmult_lt_compat_l; [apply npdf_pos|apply H]. }
  assert (LE : forall u v, u <= v -> A u - A v <= B u - B v).
  { intros u v L. rewrite <- (is_RInt_unique (V := R_CompleteNormedModule) _ _ _ _ (tail_int F A l u v UF TA)), <- (is_RInt_unique (V := R_CompleteNormedModule) _ _ _ _ (tail_int G B m u v UG TB)).
    apply RInt_le; [exact L|now apply bell_ex|now apply bell_ex|]. intros z _. apply Rmult_le_compat_l; [apply Rlt_le, npdf_pos|apply Rlt_le, H]. }
  destruct (Rlt_le_dec l m) as [|L]; auto. exfalso. set (d := B 0 - B 1 - (A 0 - A 1)) in *. assert (Pd : 0 < d / 2) by (unfold d; lra). destruct (ndtr_ends (mkposreal _ Pd)) as [N [P0 HN]]. cbn in HN. set (x := N + 1). destruct (HN x ltac:(unfold x; lra)) as [X Y].
  assert (L1 := LE (- x) 0 ltac:(unfold x; lra)). assert (L2 := LE 1 x ltac:(unfold x; lra)).
  destruct TA as [_ [A1 A2]]. destruct TB as [_ [B1 B2]]. specialize (A1 x). specialize (A2 (- x)). specialize (B1 x). specialize (B2 (- x)). unfold d in *. lra.
Qed.
